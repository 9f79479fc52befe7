(** * C54: the code that gaps strides, for all leaves of a layout *)
From Coq Require Import List Bool ZArith Arith Lia.
From Verif Require Import LoadStore LoadStoreSpec LoadStoreSim LoadStoreTree LoadStoreJump.
Import ListNotations.
Local Open Scope Z_scope.

Section Strides.
  Variables (ls : schema) (ts : list nat) (ni : option null_info) (base : Z).
  Notation nb := (length ls).

  (** The variables of a leaf *)
  Definition owns (i : nat) (x : name) : Prop := if Nat.eqb i nb then x = NullP \/ x = NullOfs else x = Ptr i \/ x = Mask i.
  (** The variables of leaf [l] say it is at bit [X]. *)
  Definition at_bit (e : env) (l : leaf) (X : Z) : Prop :=
    if Nat.eqb (l_i l) nb then
      ni <> None ->
      if l_st l =? 0 then e NullP = VI (X / 8) else exists p o, e NullP = VI p /\ e NullOfs = VI o /\ 0 <= o /\ 8 * p + o = X
    else
      slot ls ts (l_i l) <> None -> e (Ptr (l_i l)) = VI (X / 8) /\ (l_st l mod 8 <> 0 -> e (Mask (l_i l)) = VI (2 ^ (X mod 8))).
  Definition at_row (e : env) (r : Z) (l : leaf) : Prop := at_bit e l (8 * base + lpos l r).
  (** After the access to row [r], before the jumps *)
  Definition fired (lv : list level) (r : Z) : bool := match lv with [] => false | _ => (r + 1) mod top lv =? 0 end.
  Definition ready (e : env) (r : Z) (l : leaf) : Prop :=
    if Nat.eqb (l_i l) nb then
      ni <> None ->
      if l_st l =? 0 then e NullP = VI ((8 * base + lpos l r) / 8)
      else exists p o, e NullP = VI p /\ e NullOfs = VI o /\ 0 <= o /\
             if fired (l_lv l) r then p = (8 * base + lpos l r + l_st l) / 8 /\ o = 0 else 8 * p + o = 8 * base + lpos l r + l_st l
    else at_bit e l (8 * base + lpos l r + l_st l).

  Lemma at_bit_ext e e' l X : (forall x, owns (l_i l) x -> e' x = e x) -> at_bit e l X -> at_bit e' l X.
  Proof.
    unfold owns, at_bit. destruct (Nat.eqb (l_i l) nb).
    - intros H A N. specialize (A N). rewrite (H NullP), (H NullOfs) by auto. exact A.
    - intros H A N. specialize (A N). rewrite (H (Ptr (l_i l))), (H (Mask (l_i l))) by auto. exact A.
  Qed.
  Lemma ready_ext e e' r l : (forall x, owns (l_i l) x -> e' x = e x) -> ready e r l -> ready e' r l.
  Proof.
    unfold ready. destruct (Nat.eqb (l_i l) nb) eqn:E; [|apply at_bit_ext]. unfold owns. rewrite E. intros H A N. specialize (A N). rewrite (H NullP), (H NullOfs) by auto. exact A.
  Qed.
  Lemma owns_ctr i id : ~ owns i (Ctr id).
  Proof. unfold owns. destruct (Nat.eqb i nb); intros [E|E]; discriminate. Qed.
  Lemma owns_inj i j x : owns i x -> owns j x -> i = j.
  Proof.
    unfold owns. destruct (Nat.eqb_spec i nb), (Nat.eqb_spec j nb); intros [A|A] [B|B]; subst; try discriminate; try congruence; auto.
  Qed.

  Lemma div_plus a b : a mod 8 = 0 -> (a + b) / 8 = a / 8 + b / 8.
  Proof. intros H. apply Z.mod_divide in H; [|lia]. destruct H as [q ->]. rewrite (Z.add_comm (q * 8)), Z.div_add, Z.div_mul by lia. lia. Qed.
  Lemma mod_plus a b : a mod 8 = 0 -> (a + b) mod 8 = b mod 8.
  Proof. intros H. apply Z.mod_divide in H; [|lia]. destruct H as [q ->]. rewrite (Z.add_comm (q * 8)), Z.mod_add by lia. reflexivity. Qed.
  Lemma fired_row lv r : chain 1 lv -> fired lv r = true -> lrow lv r = top lv - 1.
  Proof.
    destruct lv as [|l lv]; [discriminate|]. cbn [fired top lrow chain]. intros (_ & _ & _ & _ & _ & _ & HC) F. apply Z.eqb_eq in F. rewrite (lrow_chain _ _ _ HC). pose proof (chain_pos _ _ HC).
    apply Z.mod_divide in F; [|lia]. destruct F as [k Hk]. replace r with (v_n l - 1 + (k - 1) * v_n l) by lia. rewrite Z.mod_add by lia. apply Z.mod_small; lia.
  Qed.

  Lemma stride_leaf_exec l e r s : good_leaf nb l -> counted e r (l_lv l) -> ready e r l ->
    exists e', cexec (stride_leaf ls ts ni (l_i l) (l_st l) (map lvl (l_lv l))) e s = Some (e', s) /\ at_row e' (r + 1) l /\ (forall x, ~ owns (l_i l) x -> e' x = e x).
  Proof.
    intros (CH & RO & Ho & Hs & OK) CO RE. unfold stride_leaf, at_row, ready, at_bit, leaf_ok, owns in *. rewrite (lpos_succ l r CH).
    destruct (Nat.eqb_spec (l_i l) nb) as [Ei|Ei].
    - destruct ni as [x|]; [|exists e; split; [reflexivity|]; split; [congruence|auto]]. specialize (RE ltac:(discriminate)).
      destruct (Z.eqb_spec (l_st l) 0) as [E0|E0].
      + destruct (jumps_aligned ls (l_i l) NullP r (l_lv l) eq_refl 1 (l_st l) e s _ CH RO ltac:(rewrite E0; reflexivity) CO RE) as (e' & A & M & B & C). exists e'. split; [exact A|]. split.
        * intros _. rewrite B. f_equal. clear - M E0. rewrite E0 in *. rewrite Z.add_0_r. rewrite (Z.add_assoc (8 * base)). rewrite (Z.add_comm _ (jump_sum _ _ _ _)), (div_plus (jump_sum _ _ _ _)) by exact M. lia.
        * intros y Hy. apply C; intros ->; apply Hy; auto.
      + destruct RE as (p & o & Hp & Hoo & Ho0 & FF). destruct OK as [OK|OK]; [contradiction|].
        destruct (jumps_null ls r (l_lv l) e s p o (l_st l) (8 * base + lpos l r + l_st l)) as (e' & p' & o' & A & B & B' & P' & X & C); auto; [lia| |].
        { change (match l_lv l with [] => false | _ :: _ => (r + 1) mod top (l_lv l) =? 0 end) with (fired (l_lv l) r). destruct (fired (l_lv l) r) eqn:F; [|exact FF]. destruct FF as [F1 F2]. split; [exact F1|]. split; [exact F2|].
          pose proof (fired_row _ _ CH F) as FR. unfold lpos. rewrite FR. pose proof (lbase_8 _ _ r CH) as B8. apply Z.mod_divide in B8, OK; try lia. apply Z.mod_divide; [lia|]. destruct B8 as [u Hu], OK as [v Hv]. exists (base + u + v). lia. }
        rewrite Ei. exists e'. split; [exact A|]. split.
        * intros _. exists p', o'. repeat split; auto; lia.
        * intros y Hy. apply C; intros ->; apply Hy; auto.
    - destruct (slot ls ts (l_i l)) as [k|]; [|exists e; destruct ni; (split; [reflexivity|]; split; [congruence|auto])]. specialize (RE ltac:(discriminate)). destruct RE as [RP RM].
      assert (ST : (match ni with Some _ | _ => jumps ls (l_i l) (Ptr (l_i l)) 1 (l_st l) (map lvl (l_lv l)) end) = jumps ls (l_i l) (Ptr (l_i l)) 1 (l_st l) (map lvl (l_lv l))) by (destruct ni; reflexivity). rewrite ST. clear ST.
      destruct (Z.eq_dec (l_st l mod 8) 0) as [E8|E8].
      + destruct (jumps_aligned ls (l_i l) (Ptr (l_i l)) r (l_lv l) eq_refl 1 (l_st l) e s _ CH RO E8 CO RP) as (e' & A & M & B & C). exists e'. split; [exact A|]. split.
        * intros _. split; [|contradiction]. rewrite B. f_equal. rewrite !(Z.add_assoc (8 * base)). rewrite (Z.add_comm (8 * base + lpos l r + l_st l) (jump_sum _ _ _ _)), (div_plus (jump_sum _ _ _ _)) by exact M. lia.
        * intros y Hy. apply C; intros ->; apply Hy; auto.
      + assert (S1 : l_st l = 1 /\ (l_off l mod 8 = 0 \/ top (l_lv l) mod 8 = 0)) by (destruct (l_t l); try tauto; destruct OK; contradiction). destruct S1 as [S1 AL]. rewrite S1 in *. specialize (RM E8).
        set (X := 8 * base + lpos l r + 1) in *. pose proof (Z.mod_pos_bound X 8 ltac:(lia)) as BX. pose proof (Z.div_mod X 8 ltac:(lia)) as DX.
        destruct (jumps_bit ls (l_i l) r (l_lv l) e s (X / 8) (X mod 8)) as (e' & p' & b' & A & B & B' & P' & XX & C); auto.
        { intros NE F N8. destruct AL as [AL|AL]; [|contradiction]. assert (F' : fired (l_lv l) r = true) by (unfold fired; destruct (l_lv l); [congruence|apply Z.eqb_eq; exact F]).
          pose proof (fired_row _ _ CH F') as FR. assert (E : X = 8 * base + lbase (l_lv l) r + l_off l + top (l_lv l)) by (unfold X, lpos; rewrite FR, S1; lia).
          pose proof (lbase_8 _ _ r CH) as B8. apply Z.mod_divide in B8, AL; try lia. apply Z.mod_divide; [lia|]. destruct B8 as [u Hu], AL as [v Hv]. exists (base + u + v - X / 8). lia. }
        exists e'. split; [exact A|]. split.
        * intros _. assert (E : 8 * base + (lpos l r + 1 + jump_sum 1 1 (l_lv l) r) = b' + p' * 8) by (unfold X in *; lia). rewrite E. rewrite Z.div_add, Z.mod_add by lia. rewrite (Z.div_small b' 8), (Z.mod_small b' 8) by lia. split; [exact B|]. intros _; exact B'.
        * intros y Hy. apply C; intros ->; apply Hy; auto.
  Qed.

  (** ** Counters *)
  Fixpoint ctrs (cs : children) : list (nat * Z) :=
    match cs with Nil => [] | Child c _ _ r => ctrs_node c ++ ctrs r end
  with ctrs_node (c : node) : list (nat * Z) := match c with Leaf _ _ => [] | INode id n cs => (id, n) :: ctrs cs end.
  Lemma ctrs_ids : (forall c, map fst (ctrs_node c) = inodes_node c) /\ (forall cs, map fst (ctrs cs) = inodes cs).
  Proof. apply tree_ind; cbn; auto; [intros; congruence|]. intros c Hc off st cs Hcs. rewrite map_app, Hc, Hcs. reflexivity. Qed.
  Lemma ctrs_pos : (forall c off st np, node_ok nb c off st np -> forall id n, In (id, n) (ctrs_node c) -> 0 < n) /\ (forall cs np, children_ok nb cs np -> forall id n, In (id, n) (ctrs cs) -> 0 < n).
  Proof.
    apply tree_ind; cbn; try tauto.
    - intros id n cs IH off st np (_ & _ & Hn & _ & _ & _ & _ & _ & Hc) id' n' [[= <- <-]|H]; [exact Hn|eauto].
    - intros c Hc off st cs Hcs np [A B] id n H. apply in_app_or in H. destruct H; eauto.
  Qed.

  (** Which variables may change *)
  Definition foreign (il cl : list nat) (x : name) : Prop := (forall i, In i il -> ~ owns i x) /\ (forall c, In c cl -> x <> Ctr c).

  Lemma NoDup_app_inv {A} (l l' : list A) : NoDup (l ++ l') -> NoDup l /\ NoDup l' /\ forall x, In x l -> ~ In x l'.
  Proof.
    induction l as [|x l IH]; cbn; [intros H; split; [constructor|split; [exact H|intros _ []]]|]. intros H. inversion H; subst. destruct (IH H3) as (A1 & A2 & A3). split; [constructor; [rewrite in_app_iff in H2; tauto|exact A1]|]. split; [exact A2|].
    intros y [<-|Hy]; [rewrite in_app_iff in H2; tauto|auto].
  Qed.

  Definition counters_at (e : env) (r : Z) (l : list (nat * Z)) : Prop := forall id n, In (id, n) l -> e (Ctr id) = VI (r mod n).
  Definition strides_ok (code : list call) (lvs : list leaf) (il cl : list nat) (cts : list (nat * Z)) (lv : list level) (r : Z) : Prop :=
    forall e st m t, counted e r lv -> counters_at e r cts -> (forall l, In l lvs -> ready e r l) ->
      exists e' g, cexec code e (mkState st m t) = Some (e', mkState (g ++ st) m t) /\ counters_at e' (r + 1) cts /\
        (forall l, In l lvs -> at_row e' (r + 1) l) /\ (forall x, foreign il cl x -> e' x = e x).

  Lemma stride_inode id n cs st row lv : stride_node ls ts ni (INode id n cs) st row lv =
    [NewLoad (Ctr id) (VI (row mod n)); Emit Inc; Update (Ctr id); Emit Pop] ++ strides ls ts ni cs (row mod n) ((id, n, st) :: lv) ++
    (if n =? 1 then [Const (VI 0)] else [Load (Ctr id); Const (VI n); Emit NE_i; Emit Cast_i_b; Load (Ctr id); Emit Mul_i]) ++ [Update (Ctr id)].
  Proof. reflexivity. Qed.
  Lemma strides_child c off st cs row lv : strides ls ts ni (Child c off st cs) row lv = stride_node ls ts ni c st row lv ++ strides ls ts ni cs row lv.
  Proof. reflexivity. Qed.
  Lemma strides_exec r : (forall c off st lv row, (forall l, In l (leaves_node c off st lv) -> good_leaf nb l) -> NoDup (indices_node c) -> NoDup (inodes_node c) ->
       (forall id n, In (id, n) (ctrs_node c) -> 0 < n) -> (forall id, In id (inodes_node c) -> ~ In id (map v_id lv)) ->
       strides_ok (stride_node ls ts ni c st row (map lvl lv)) (leaves_node c off st lv) (indices_node c) (inodes_node c) (ctrs_node c) lv r) /\
    (forall cs lv row, (forall l, In l (leaves cs lv) -> good_leaf nb l) -> NoDup (indices cs) -> NoDup (inodes cs) ->
       (forall id n, In (id, n) (ctrs cs) -> 0 < n) -> (forall id, In id (inodes cs) -> ~ In id (map v_id lv)) ->
       strides_ok (strides ls ts ni cs row (map lvl lv)) (leaves cs lv) (indices cs) (inodes cs) (ctrs cs) lv r).
  Proof.
    apply tree_ind.
    - intros i t off st lv row GL _ _ _ _ e stk0 m tp CO CT RE. cbn [leaves_node] in *. set (l := mkLeaf i t off st lv) in *.
      destruct (stride_leaf_exec l e r (mkState stk0 m tp) (GL l (or_introl eq_refl)) CO (RE l (or_introl eq_refl))) as (e' & A & B & C). exists e', []. cbn [l l_i l_st l_lv] in *. split; [exact A|]. split; [intros ? ? []|]. split; [intros l' [<-|[]]; exact B|].
      intros x [F _]. apply C. apply F. left; reflexivity.
    - intros id n cs IH off st lv row GL NDi NDn PO DJ e stk0 m tp CO CT RE. cbn [leaves_node indices_node inodes_node ctrs_node] in *. inversion NDn as [|? ? NI ND']; subst.
      assert (Hn : 0 < n) by (apply (PO id); left; reflexivity). pose proof (CT id n (or_introl eq_refl)) as C0.
      set (lv' := mkLevel id off n st :: lv) in *. set (e1 := upd e (Ctr id) (VI (r mod n + 1))).
      assert (CO1 : counted e1 r lv').
      { intros l [<-|Hl]; [apply upd_same|]. unfold e1. rewrite upd_other; [apply CO; exact Hl|]. intros [= E]. apply (DJ id (or_introl eq_refl)). rewrite <- E. apply in_map. exact Hl. }
      assert (CT1 : counters_at e1 r (ctrs cs)).
      { intros id' n' H. unfold e1. rewrite upd_other; [apply CT; right; exact H|]. intros [= E]. apply NI. rewrite <- (proj2 ctrs_ids). apply (in_map fst) in H. cbn in H. rewrite E in H. exact H. }
      assert (RE1 : forall l, In l (leaves cs lv') -> ready e1 r l).
      { intros l Hl. apply (ready_ext e); [|apply RE; exact Hl]. intros x Hx. unfold e1. apply upd_other. intros ->. apply (owns_ctr _ _ Hx). }
      destruct (IH lv' (row mod n) GL NDi ND') with (e := e1) (st := stk0) (m := m) (t := tp) as (e2 & g & A2 & C2 & R2 & F2); auto.
      { intros id' n' H. apply (PO id'). right; exact H. }
      { intros id' H [E|H']; [cbn in E; subst; contradiction|]. apply (DJ id'); [right; exact H|exact H']. }
      assert (K : e2 (Ctr id) = VI (r mod n + 1)).
      { rewrite F2; [apply upd_same|]. split; [intros i _; apply owns_ctr|]. intros c Hc [= E]. subst c. contradiction. }
      exists (upd e2 (Ctr id) (VI ((r + 1) mod n))), ((VI ((r + 1) mod n), false) :: g). rewrite stride_inode, cexec_app. cbn -[upd Z.modulo Z.eqb Z.add Z.mul strides lvl map]. rewrite C0. cbn -[upd Z.modulo Z.eqb Z.add Z.mul strides lvl map]. fold e1.
      change ((id, n, st) :: map lvl lv) with (map lvl lv'). rewrite cexec_app, A2. split.
      + destruct (Z.eqb_spec n 1) as [->|N1].
        * rewrite Z.mod_1_r. reflexivity.
        * cbn -[upd Z.modulo Z.eqb Z.add Z.mul]. rewrite K. cbn -[upd Z.modulo Z.eqb Z.add Z.mul].
          assert (V : (if negb (r mod n + 1 =? n) then 1 else 0) * (r mod n + 1) = (r + 1) mod n).
          { rewrite fires by assumption. rewrite (mod_succ r n Hn). destruct (Z.eqb_spec ((r + 1) mod n) 0) as [E|E]; [reflexivity|].
            destruct (Z.eqb_spec (r mod n + 1) 0) as [E'|E']; [pose proof (Z.mod_pos_bound r n Hn); lia|]. cbn [negb]. lia. }
          rewrite V. reflexivity.
      + split; [|split].
        * intros id' n' [[= <- <-]|H]; [apply upd_same|]. rewrite upd_other; [apply C2; exact H|]. intros [= E]. apply NI. rewrite <- (proj2 ctrs_ids). apply (in_map fst) in H. cbn in H. rewrite E in H. exact H.
        * intros l Hl. unfold at_row. apply (at_bit_ext e2); [|apply R2; exact Hl]. intros x Hx. apply upd_other. intros ->. apply (owns_ctr _ _ Hx).
        * intros x [FA FB]. rewrite upd_other by (apply FB; left; reflexivity). rewrite F2 by (split; [exact FA|intros c Hc; apply FB; right; exact Hc]). apply upd_other. apply FB. left; reflexivity.
    - intros lv row _ _ _ _ _ e stk0 m tp CO CT RE. exists e, []. split; [reflexivity|]. split; [intros ? ? []|]. split; [intros ? []|auto].
    - intros c IHc off st cs IHcs lv row GL NDi NDn PO DJ e stk0 m tp CO CT RE. cbn [leaves indices inodes ctrs] in *. rewrite strides_child.
      apply NoDup_app_inv in NDi, NDn. destruct NDi as (NI1 & NI2 & NI3), NDn as (NN1 & NN2 & NN3).
      assert (OWN : forall l, In l (leaves_node c off st lv) -> In (l_i l) (indices_node c)) by (intros l Hl; rewrite <- (proj1 indices_leaves c off st lv); apply in_map; exact Hl).
      assert (OWN' : forall l, In l (leaves cs lv) -> In (l_i l) (indices cs)) by (intros l Hl; rewrite <- (proj2 indices_leaves cs lv); apply in_map; exact Hl).
      assert (ID : forall id n, In (id, n) (ctrs_node c) -> In id (inodes_node c)) by (intros id n H; rewrite <- (proj1 ctrs_ids); apply (in_map fst) in H; exact H).
      assert (ID' : forall id n, In (id, n) (ctrs cs) -> In id (inodes cs)) by (intros id n H; rewrite <- (proj2 ctrs_ids); apply (in_map fst) in H; exact H).
      destruct (IHc off st lv row) with (e := e) (st := stk0) (m := m) (t := tp) as (e1 & g1 & A1 & C1 & R1 & F1); auto.
      { intros l Hl. apply GL. apply in_or_app; auto. } { intros id n H. apply (PO id). apply in_or_app; auto. } { intros id H. apply DJ. apply in_or_app; auto. }
      { intros id n H. apply CT. apply in_or_app; auto. } { intros l Hl. apply RE. apply in_or_app; auto. }
      destruct (IHcs lv row) with (e := e1) (st := g1 ++ stk0) (m := m) (t := tp) as (e2 & g2 & A2 & C2 & R2 & F2); auto.
      { intros l Hl. apply GL. apply in_or_app; auto. } { intros id n H. apply (PO id). apply in_or_app; auto. } { intros id H. apply DJ. apply in_or_app; auto. }
      { intros l Hl. rewrite F1; [apply CO; exact Hl|]. split; [intros i _; apply owns_ctr|]. intros c' Hc' [= E]. apply (DJ c'); [apply in_or_app; auto|]. rewrite <- E. apply in_map; exact Hl. }
      { intros id n H. rewrite F1; [apply CT; apply in_or_app; auto|]. split; [intros i _; apply owns_ctr|]. intros c' Hc' [= E]. subst c'. apply (NN3 _ Hc'). eauto. }
      { intros l Hl. apply (ready_ext e); [|apply RE; apply in_or_app; auto]. intros x Hx. apply F1. split.
        - intros i Hi Ho. pose proof (owns_inj _ _ _ Hx Ho) as E. subst i. apply (NI3 _ Hi). auto.
        - intros c' _ ->. apply (owns_ctr _ _ Hx). }
      exists e2, (g2 ++ g1). rewrite cexec_app, A1, A2, <- app_assoc. split; [reflexivity|]. split; [|split].
      + intros id n H. apply in_app_or in H. destruct H as [H|H]; [|apply C2; exact H]. rewrite F2; [apply C1; exact H|]. split; [intros i _; apply owns_ctr|]. intros c' Hc' [= E]. subst c'. apply (NN3 id); eauto.
      + intros l Hl. apply in_app_or in Hl. destruct Hl as [Hl|Hl]; [|apply R2; exact Hl]. unfold at_row. apply (at_bit_ext e1); [|apply R1; exact Hl]. intros x Hx. apply F2. split.
        * intros i Hi Ho. pose proof (owns_inj _ _ _ Hx Ho) as E. subst i. apply (NI3 (l_i l)); auto.
        * intros c' _ ->. apply (owns_ctr _ _ Hx).
      + intros x [FA FB]. rewrite F2, F1; [reflexivity| |]; (split; [intros i Hi; apply FA; apply in_or_app; auto|intros c' Hc'; apply FB; apply in_or_app; auto]).
  Qed.
End Strides.
