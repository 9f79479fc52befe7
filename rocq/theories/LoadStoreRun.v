(** * C54: one execution of the compiled code, and the invariant that holds between executions *)
From Coq Require Import List Bool ZArith Arith Lia.
From Verif Require Import LoadStore LoadStoreSpec LoadStoreSim LoadStoreTree LoadStoreJump LoadStoreStrides LoadStoreBits LoadStoreAccess.
Import ListNotations.
Local Open Scope Z_scope.

Lemma accesses_child is_store ls ts ni c off st cs base row :
  accesses is_store ls ts ni (Child c off st cs) base row = access_node is_store ls ts ni c off st base row ++ accesses is_store ls ts ni cs base row.
Proof. reflexivity. Qed.
Lemma access_inode is_store ls ts ni id n cs off st base row :
  access_node is_store ls ts ni (INode id n cs) off st base row = accesses is_store ls ts ni cs (base + (off / 8 + (row / n) * st / 8)) (row mod n).
Proof. reflexivity. Qed.
Lemma find_null_child nb c off st cs num base row :
  find_null nb (Child c off st cs) num base row = match find_null_node nb c off st num base row with Some x => Some x | None => find_null nb cs num base row end.
Proof. reflexivity. Qed.
Lemma find_null_inode nb id n cs off st num base row :
  find_null_node nb (INode id n cs) off st num base row = find_null nb cs n (base + (off / 8 + (row / n) * st / 8)) (row mod n).
Proof. reflexivity. Qed.

(** Base addresses of the compiler *)
Lemma base_level base l lv r k : chain k (l :: lv) ->
  base + lbase lv r / 8 + (v_off l / 8 + (lrow lv r / v_n l) * v_st l / 8) = base + lbase (l :: lv) r / 8.
Proof.
  intros (_ & _ & _ & Ho & _ & Hs & Hc). pose proof (lbase_8 _ _ r Hc) as HB. cbn [lbase]. apply Z.mod_divide in Ho, Hs, HB; try lia. destruct Ho as [a ->], Hs as [b ->], HB as [c ->].
  replace (c * 8 + a * 8 + lrow lv r / v_n l * (b * 8)) with ((c + a + lrow lv r / v_n l * b) * 8) by lia. rewrite Z.mul_assoc, !Z.div_mul by lia. lia.
Qed.

(** Levels of the subtree [c] are well-formed. *)
Definition levels_ok (lvs : list leaf) : Prop := forall l, In l lvs -> chain 1 (l_lv l).
Fixpoint kids_ok (k : Z) (lv : list level) (cs : children) : Prop :=
  match cs with Nil => True | Child c off st r => kid_ok k lv c off st /\ kids_ok k lv r end
with kid_ok (k : Z) (lv : list level) (c : node) (off st : Z) : Prop :=
  match c with Leaf _ _ => True | INode id n cs => chain 1 (mkLevel id off n st :: lv) /\ kids_ok k (mkLevel id off n st :: lv) cs end.
Lemma kids_ok_child k lv c off st cs : kids_ok k lv (Child c off st cs) = (kid_ok k lv c off st /\ kids_ok k lv cs).
Proof. reflexivity. Qed.
Lemma kid_ok_inode k lv id n cs off st : kid_ok k lv (INode id n cs) off st = (chain 1 (mkLevel id off n st :: lv) /\ kids_ok k (mkLevel id off n st :: lv) cs).
Proof. reflexivity. Qed.
Lemma ok_kids nb k : (forall c off st lv, node_ok nb c off st (top lv) -> chain 1 lv -> kid_ok k lv c off st) /\
  (forall cs lv, children_ok nb cs (top lv) -> chain 1 lv -> kids_ok k lv cs).
Proof.
  apply tree_ind.
  - intros; exact I.
  - intros id n cs IH off st lv OK CH. cbn [node_ok] in OK. destruct OK as (Ho & Hs & Hn & Hm & Ho8 & Hs8 & Hb & Hf & Hc). rewrite kid_ok_inode.
    assert (C : chain 1 (mkLevel id off n st :: lv)).
    { cbn [chain v_n v_off v_st]. split; [lia|]. split; [apply Z.mod_1_r|]. split; [exact Ho|]. split; [exact Ho8|]. split; [lia|]. split; [exact Hs8|]. destruct lv as [|v lv]; cbn in *; [exact Hn|]. tauto. }
    split; [exact C|]. apply IH; [exact Hc|exact C].
  - intros; exact I.
  - intros c IHc off st cs IHcs lv OK CH. cbn [children_ok] in OK. rewrite kids_ok_child. destruct OK. split; [apply IHc|apply IHcs]; assumption.
Qed.

Lemma flatten_accesses is_store ls ts ni base r0 :
  (forall c off st lv, kid_ok 0 lv c off st -> access_node is_store ls ts ni c off st (base + lbase lv r0 / 8) (lrow lv r0) = flat_map (leaf_code ls ts ni base is_store r0) (leaves_node c off st lv)) /\
  (forall cs lv, kids_ok 0 lv cs -> accesses is_store ls ts ni cs (base + lbase lv r0 / 8) (lrow lv r0) = flat_map (leaf_code ls ts ni base is_store r0) (leaves cs lv)).
Proof.
  apply tree_ind.
  - intros i t off st lv _. cbn [leaves_node flat_map]. rewrite app_nil_r. reflexivity.
  - intros id n cs IH off st lv K. rewrite kid_ok_inode in K. destruct K as [C K]. rewrite access_inode. cbn [leaves_node]. rewrite <- (IH (mkLevel id off n st :: lv) K). rewrite <- (base_level base _ _ r0 1 C). reflexivity.
  - reflexivity.
  - intros c IHc off st cs IHcs lv K. rewrite kids_ok_child in K. destruct K as [K1 K2]. rewrite accesses_child. cbn [leaves]. rewrite flat_map_app, <- IHc, <- IHcs by assumption. reflexivity.
Qed.

(** The description of the bitmap that the compiler finds *)
Definition null_of (base r0 : Z) (l : leaf) : null_info :=
  let a := l_off l + lrow (l_lv l) r0 * l_st l in mkNull (base + lbase (l_lv l) r0 / 8 + a / 8) (a mod 8) (l_st l) (top (l_lv l)) (lrow (l_lv l) r0).
Lemma find_app {A} (f : A -> bool) l l' : find f (l ++ l') = match find f l with Some x => Some x | None => find f l' end.
Proof. induction l as [|x l IH]; cbn; [reflexivity|]. destruct (f x); auto. Qed.
Lemma find_null_ok nb base r0 :
  (forall c off st lv, kid_ok 0 lv c off st -> find_null_node nb c off st (top lv) (base + lbase lv r0 / 8) (lrow lv r0) = option_map (null_of base r0) (find (fun l => Nat.eqb (l_i l) nb) (leaves_node c off st lv))) /\
  (forall cs lv, kids_ok 0 lv cs -> find_null nb cs (top lv) (base + lbase lv r0 / 8) (lrow lv r0) = option_map (null_of base r0) (find (fun l => Nat.eqb (l_i l) nb) (leaves cs lv))).
Proof.
  apply tree_ind.
  - intros i t off st lv _. cbn [leaves_node find find_null_node l_i]. destruct (Nat.eqb i nb); reflexivity.
  - intros id n cs IH off st lv K. rewrite kid_ok_inode in K. destruct K as [C K]. rewrite find_null_inode. cbn [leaves_node]. rewrite <- (IH (mkLevel id off n st :: lv) K). rewrite <- (base_level base _ _ r0 1 C). reflexivity.
  - reflexivity.
  - intros c IHc off st cs IHcs lv K. rewrite kids_ok_child in K. destruct K as [K1 K2]. rewrite find_null_child. cbn [leaves]. rewrite find_app, IHc, IHcs by assumption.
    destruct (find (fun l => Nat.eqb (l_i l) nb) (leaves_node c off st lv)); reflexivity.
Qed.

Lemma set_nth_length t : forall k e, length (set_nth t k e) = length t.
Proof. induction t as [|x t IH]; intros [|k] e; cbn; auto. Qed.

Section Run.
  Variables (ls : schema) (ts : list nat) (base r0 : Z) (L : layout).
  Notation nb := (length ls).
  Hypothesis HL : layout_ok nb L.
  Hypothesis HT : schemas_ok ls ts.
  Definition the_null : option null_info := if needs_null_bitmap ls ts then find_null nb (root L) 0 base r0 else None.
  Notation ni := the_null.
  Definition bitmap : option leaf := find (fun l => Nat.eqb (l_i l) nb) (all_leaves L).
  Notation lvs := (all_leaves L).
  Notation at_bit := (at_bit ls ts ni).
  Notation at_row := (at_row ls ts ni base).

  Lemma root_ok : kids_ok 0 [] (root L).
  Proof. destruct HL as (OK & _). unfold root. rewrite kids_ok_child. split; [|exact I]. apply (proj1 (ok_kids nb 0)); [exact OK|reflexivity]. Qed.
  Lemma lvs_good l : In l lvs -> good_leaf nb l.
  Proof. apply layout_leaves. exact HL. Qed.
  Lemma lvs_nodup : NoDup (map l_i lvs).
  Proof. rewrite all_leaves_eq, (proj1 indices_leaves). apply HL. Qed.
  Lemma the_null_eq : ni = if needs_null_bitmap ls ts then option_map (null_of base r0) bitmap else None.
  Proof.
    unfold the_null. destruct (needs_null_bitmap ls ts); [|reflexivity]. pose proof (proj2 (find_null_ok nb base r0) (root L) [] root_ok) as F. cbn [lbase lrow top] in F. change (0 / 8) with 0 in F. rewrite Z.add_0_r in F. exact F.
  Qed.
  Lemma null_some x : ni = Some x -> exists l, bitmap = Some l /\ In l lvs /\ l_i l = nb /\ x = null_of base r0 l.
  Proof.
    rewrite the_null_eq. destruct (needs_null_bitmap ls ts); [|discriminate]. destruct bitmap as [l|] eqn:B; [|discriminate]. cbn [option_map]. intros [= <-]. exists l. split; [reflexivity|]. unfold bitmap in B. apply find_some in B. destruct B as [I E]. apply Nat.eqb_eq in E. auto.
  Qed.
  Lemma accesses_eq is_store : accesses is_store ls ts ni (root L) base r0 = flat_map (leaf_code ls ts ni base is_store r0) lvs.
  Proof.
    pose proof (proj2 (flatten_accesses is_store ls ts ni base r0) (root L) [] root_ok) as F. cbn [lbase lrow] in F. change (0 / 8) with 0 in F. rewrite Z.add_0_r in F. exact F.
  Qed.

  (** ** Positions of the bitmap *)
  Definition null_place (r : Z) : Z := match bitmap with Some l => 8 * base + lpos l r | None => 0 end.
  Lemma null_pos_ok e r : (forall l, In l lvs -> at_row e r l) -> null_pos ni e (null_place r).
  Proof.
    intros AR x Hx. destruct (null_some x Hx) as (l & B & I & E & ->). unfold null_place. rewrite B. specialize (AR l I). unfold LoadStoreStrides.at_row, LoadStoreStrides.at_bit in AR. rewrite E, Nat.eqb_refl in AR. specialize (AR ltac:(congruence)). cbn [null_of n_stride n_bit_offset].
    destruct (Z.eqb_spec (l_st l) 0) as [E0|E0]; [|exact AR]. split; [exact AR|]. apply (same_offset ls base l r r0 (lvs_good l I)). rewrite E0. reflexivity.
  Qed.

  (** ** The accesses *)
  Definition loads (r : Z) (m : memory) (l : list leaf) (t : list entry) : list entry := fold_left (fun t l => load_leaf ls ts ni base (null_place r) r m l t) l t.
  Definition stores (r : Z) (t : list entry) (l : list leaf) (m : memory) : memory := fold_left (fun m l => store_leaf ls ts ni base (null_place r) r t l m) l m.
  Definition tuple_ok (is_store : bool) (t : list entry) : Prop := (length ts <= length t)%nat /\ (is_store = true -> forall v n, In (v, n) t -> chars_ok v).

  Lemma load_leaf_length B r m l t : length (load_leaf ls ts ni base B r m l t) = length t.
  Proof. unfold load_leaf. destruct (Nat.eqb (l_i l) nb); [reflexivity|]. destruct (slot ls ts (l_i l)); [|reflexivity]. destruct (nth_error t n) as [[old b]|]; [apply set_nth_length|reflexivity]. Qed.
  Lemma store_leaf_ok B r t l m : bytes_ok m -> tuple_ok true t -> bytes_ok (store_leaf ls ts ni base B r t l m).
  Proof.
    intros Hm [_ HC]. unfold store_leaf. destruct (Nat.eqb (l_i l) nb); [exact Hm|]. destruct (slot ls ts (l_i l)) as [k|]; [|exact Hm]. destruct (nth_error t k) as [[v n]|] eqn:E; [|exact Hm].
    assert (Hm1 : bytes_ok (if can_be_null ls ni (l_i l) then put_bit m (B + Z.of_nat (l_i l)) n else m)) by (destruct (can_be_null ls ni (l_i l)); [apply put_bit_ok|]; exact Hm).
    destruct n; [exact Hm1|]. apply put_ok; [exact Hm1|]. eapply HC; [reflexivity|]. eapply nth_error_In. exact E.
  Qed.

  Definition touched (l : list leaf) (x : name) : Prop := exists l', In l' l /\ l_i l' <> nb /\ own_or_null (l_i l') x.
  Lemma owns_touch l x : l_i l <> nb -> owns ls (l_i l) x -> own_or_null (l_i l) x.
  Proof. intros N. unfold owns. destruct (Nat.eqb_spec (l_i l) nb); [contradiction|]. unfold own_or_null. tauto. Qed.
  Lemma own_inj i j x : own_or_null i x -> own_or_null j x -> i = j.
  Proof. unfold own_or_null. intros [A|[A|[A|A]]] [B|[B|[B|B]]]; congruence. Qed.

  Lemma leaf_nb is_store l : l_i l = nb -> leaf_code ls ts ni base is_store r0 l = [].
  Proof. intros E. unfold leaf_code, access_leaf. rewrite E, Nat.eqb_refl. reflexivity. Qed.

  Section Accesses.
    Variables (is_store : bool) (r B : Z).
    Definition state_after (l : list leaf) (m : memory) (t : list entry) : memory * list entry :=
      if is_store then (fold_left (fun m l => store_leaf ls ts ni base B r t l m) l m, t) else (m, fold_left (fun t l => load_leaf ls ts ni base B r m l t) l t).
    Lemma state_after_nb a l m t : l_i a = nb -> state_after (a :: l) m t = state_after l m t.
    Proof.
      intros E. unfold state_after. cbn [fold_left]. assert (E1 : load_leaf ls ts ni base B r m a t = t) by (unfold load_leaf; rewrite E, Nat.eqb_refl; reflexivity).
      assert (E2 : store_leaf ls ts ni base B r t a m = m) by (unfold store_leaf; rewrite E, Nat.eqb_refl; reflexivity). rewrite E1, E2. reflexivity.
    Qed.
    Lemma access_list l : (forall x, In x l -> good_leaf nb x) -> NoDup (map l_i l) -> forall e st m t, bytes_ok m -> tuple_ok is_store t -> null_pos ni e B ->
      (forall x, In x l -> l_i x <> nb -> at_row e r x) ->
      exists e', cexec (flat_map (leaf_code ls ts ni base is_store r0) l) e (mkState st m t) = Some (e', mkState st (fst (state_after l m t)) (snd (state_after l m t))) /\
        (forall x, In x l -> l_i x <> nb -> at_bit e' x (8 * base + lpos x r + l_st x)) /\ (forall x, ~ touched l x -> e' x = e x).
    Proof.
      induction l as [|a l IH]; intros GL ND e st m t Hm Ht NP AR.
      - exists e. unfold state_after. destruct is_store; cbn; (split; [reflexivity|split; [intros ? []|auto]]).
      - cbn [map flat_map] in *. inversion ND as [|? ? NI ND']; subst. rewrite cexec_app.
        destruct (Nat.eq_dec (l_i a) nb) as [E|E].
        { rewrite leaf_nb by exact E. cbn [cexec]. destruct (IH (fun x H => GL x (or_intror H)) ND' e st m t Hm Ht NP (fun x H => AR x (or_intror H))) as (e' & A & C & D). exists e'. split.
          - rewrite A, state_after_nb by exact E. reflexivity.
          - split; [intros x [<-|H] N; [contradiction|auto]|]. intros x Hx. apply D. intros (l' & I & N & O). apply Hx. exists l'. split; [right; exact I|auto]. }
        assert (S : exists e1, cexec (leaf_code ls ts ni base is_store r0 a) e (mkState st m t) = Some (e1, mkState st (fst (state_after [a] m t)) (snd (state_after [a] m t))) /\
           at_bit e1 a (8 * base + lpos a r + l_st a) /\ forall x, ~ own_or_null (l_i a) x -> e1 x = e x).
        { unfold state_after. destruct HT as (_ & _ & _ & H256). destruct is_store; cbn [fold_left fst snd].
          - apply store_leaf_exec; auto; [apply GL; left; reflexivity|apply Ht|apply AR; [left; reflexivity|exact E]].
          - apply load_leaf_exec; auto; [apply GL; left; reflexivity|apply Ht|apply AR; [left; reflexivity|exact E]]. }
        destruct S as (e1 & A1 & P1 & F1). rewrite A1. set (m1 := fst (state_after [a] m t)) in *. set (t1 := snd (state_after [a] m t)) in *.
        assert (Hm1 : bytes_ok m1) by (unfold m1, state_after; destruct is_store; [apply store_leaf_ok; auto|exact Hm]).
        assert (F1n : e1 NullP = e NullP /\ e1 NullOfs = e NullOfs) by (split; apply F1; intros [X|[X|[X|X]]]; discriminate).
        assert (NP1 : null_pos ni e1 B) by (intros x Hx; specialize (NP x Hx); destruct F1n as [-> ->]; exact NP).
        assert (FR : forall x y, In x l -> owns ls (l_i x) y -> e1 y = e y).
        { intros x y I O. apply F1. intros O'. destruct (Nat.eq_dec (l_i x) nb) as [En|En].
          - unfold owns in O. rewrite En, Nat.eqb_refl in O. destruct O as [->| ->]; destruct O' as [X|[X|[X|X]]]; discriminate.
          - apply NI. rewrite (own_inj _ _ _ O' (owns_touch _ _ En O)). apply in_map. exact I. }
        assert (AR1 : forall x, In x l -> l_i x <> nb -> at_row e1 r x).
        { intros x I N. unfold LoadStoreStrides.at_row. apply (at_bit_ext ls ts ni e); [intros y O; apply (FR x y I O)|apply AR; [right; exact I|exact N]]. }
        assert (Ht1 : tuple_ok is_store t1).
        { unfold t1, state_after. destruct is_store; [exact Ht|]. split; [|discriminate]. cbn [snd fold_left]. rewrite load_leaf_length. apply Ht. }
        assert (IH' : exists e', cexec (flat_map (leaf_code ls ts ni base is_store r0) l) e1 (mkState st m1 t1) = Some (e', mkState st (fst (state_after l m1 t1)) (snd (state_after l m1 t1))) /\
          (forall x, In x l -> l_i x <> nb -> at_bit e' x (8 * base + lpos x r + l_st x)) /\ (forall x, ~ touched l x -> e' x = e1 x)).
        { apply (IH (fun x H => GL x (or_intror H)) ND' e1 st m1 t1 Hm1 Ht1 NP1 AR1). }
        destruct IH' as (e2 & A2 & P2 & F2). exists e2. split.
        + rewrite A2. unfold m1, t1, state_after. destruct is_store; reflexivity.
        + split.
          * intros x [<-|I] N; [|auto]. apply (at_bit_ext ls ts ni e1); [|exact P1]. intros y O. apply F2. intros (l' & I' & N' & O'). apply NI. rewrite (own_inj _ _ _ (owns_touch _ _ N O) O'). apply in_map. exact I'.
          * intros x Hx. rewrite F2, F1; [reflexivity| |].
            -- intros O. apply Hx. exists a. split; [left; reflexivity|auto].
            -- intros (l' & I' & N' & O'). apply Hx. exists l'. split; [right; exact I'|auto].
    Qed.
  End Accesses.

  (** ** The NULL bitmap moves on *)
  Lemma advance_null_exec e r s l : bitmap = Some l -> ni <> None -> 0 <= r -> null_pos ni e (null_place r) -> (l_st l <> 0 -> e NullCtr = VI (lrow (l_lv l) r)) ->
    exists e', cexec (advance_null ni) e s = Some (e', s) /\ ready ls ts ni base e' r l /\ (l_st l <> 0 -> e' NullCtr = VI (lrow (l_lv l) (r + 1))) /\
      (forall x, x <> NullP -> x <> NullOfs -> x <> NullCtr -> e' x = e x).
  Proof.
    intros HB HN Hr NP HC. destruct ni as [x|] eqn:Hx; [|congruence]. destruct (null_some x Hx) as (l' & B' & I & E & Ex). rewrite HB in B'. injection B' as <-.
    specialize (NP x eq_refl). unfold null_place in NP. rewrite HB in NP. unfold ready. rewrite E, Nat.eqb_refl. cbn [advance_null]. assert (ES : n_stride x = l_st l) by (rewrite Ex; reflexivity). rewrite ES in *.
    destruct (Z.eqb_spec (l_st l) 0) as [E0|E0].
    - exists e. destruct NP as [P _]. split; [reflexivity|]. split; [intros _; exact P|]. split; [contradiction|auto].
    - specialize (HC E0). destruct NP as (p & o & P & O & O0 & EX). pose proof (lvs_good l I) as (CH & _ & _ & Hst & _). set (X := 8 * base + lpos l r) in *.
      assert (NN : n_num x = top (l_lv l)) by (rewrite Ex; reflexivity).
      assert (FI : (lrow (l_lv l) r + 1 =? n_num x) = fired (l_lv l) r).
      { rewrite NN. unfold fired. destruct (l_lv l) as [|v lv] eqn:EL; cbn [top lrow].
        - apply Z.eqb_neq. lia.
        - cbn [chain] in CH. destruct CH as (_ & _ & _ & _ & _ & _ & Hc). rewrite (lrow_chain _ _ _ Hc). apply fires. apply (chain_pos _ _ Hc). }
      assert (LR : lrow (l_lv l) (r + 1) = if fired (l_lv l) r then 0 else lrow (l_lv l) r + 1).
      { unfold fired. destruct (l_lv l) as [|v lv] eqn:EL; cbn [top lrow]; [reflexivity|]. cbn [chain] in CH. destruct CH as (_ & _ & _ & _ & _ & _ & Hc). rewrite !(lrow_chain _ _ _ Hc). apply mod_succ. apply (chain_pos _ _ Hc). }
      exists (upd (upd (upd (upd (upd e NullOfs (VI (o + l_st l))) NullCtr (VI (lrow (l_lv l) r + 1))) NullP (VI (if fired (l_lv l) r then (X + l_st l) / 8 else p))) NullOfs (VI (if fired (l_lv l) r then 0 else o + l_st l))) NullCtr (VI (lrow (l_lv l) (r + 1)))).
      split; [|split; [|split]].
      + destruct s as [st m t]. go. rewrite ?O, ?P, ?HC. go. rewrite ?O, ?P, ?HC. cbn [as_i]. rewrite FI. rewrite LR. destruct (fired (l_lv l) r).
        * go. cbn [as_i as_b negb]. assert (Q : 1 * Z.shiftr (o + l_st l) 3 + p = (X + l_st l) / 8) by (rewrite Z.mul_1_l, Z.shiftr_div_pow2 by lia; replace (X + l_st l) with (o + l_st l + p * 8) by lia; rewrite Z.div_add by lia; reflexivity).
          rewrite ?O, ?P, ?HC. rewrite Q. replace (0 * (o + l_st l)) with 0 by lia. replace (0 * (lrow (l_lv l) r + 1)) with 0 by lia. reflexivity.
        * go. cbn [as_i as_b negb]. rewrite ?O, ?P, ?HC. rewrite !Z.mul_1_l, Z.mul_0_l, Z.add_0_l. reflexivity.
      + intros _. go. exists (if fired (l_lv l) r then (X + l_st l) / 8 else p), (if fired (l_lv l) r then 0 else o + l_st l). split; [reflexivity|]. split; [reflexivity|]. destruct (fired (l_lv l) r); [split; [lia|split; reflexivity]|lia].
      + intros _. go. reflexivity.
      + intros y A B C. rewrite !upd_other by assumption. reflexivity.
  Qed.

  (** ** One execution *)
  Definition Inv (r : Z) (e : env) : Prop :=
    0 <= r /\ (forall l, In l lvs -> at_row e r l) /\ counters_at e r (ctrs (root L)) /\ (forall l, bitmap = Some l -> ni <> None -> l_st l <> 0 -> e NullCtr = VI (lrow (l_lv l) r)).

  Lemma body_exec is_store r e m t : Inv r e -> bytes_ok m -> tuple_ok is_store t ->
    exists e' g, cexec (compile_body is_store ls ts ni (root L) base r0) e (mkState [] m t) =
      Some (e', mkState g (fst (state_after is_store r (null_place r) lvs m t)) (snd (state_after is_store r (null_place r) lvs m t))) /\ Inv (r + 1) e'.
  Proof.
    intros (Hr & AR & CT & NC) Hm Ht. pose proof (null_pos_ok e r AR) as NP. unfold compile_body. rewrite cexec_app.
    assert (A0 : cexec (match ni with Some x => [New NullP (VI (n_addr x))] ++ (if n_stride x =? 0 then [] else [New NullOfs (VI (n_bit_offset x))]) | None => [] end) e (mkState [] m t) = Some (e, mkState [] m t)).
    { destruct ni as [x|]; [|reflexivity]. destruct (n_stride x =? 0); reflexivity. }
    rewrite A0, accesses_eq, cexec_app.
    destruct (access_list is_store r (null_place r) lvs lvs_good lvs_nodup e [] m t Hm Ht NP (fun x I _ => AR x I)) as (e1 & A1 & P1 & F1). rewrite A1. set (m1 := fst (state_after is_store r (null_place r) lvs m t)). set (t1 := snd (state_after is_store r (null_place r) lvs m t)).
    assert (F1n : forall x, (forall i, ~ own_or_null i x) -> e1 x = e x) by (intros x Hx; apply F1; intros (l & _ & _ & O); exact (Hx _ O)).
    assert (NP1 : null_pos ni e1 (null_place r)). { intros x Hx. specialize (NP x Hx). rewrite (F1n NullP), (F1n NullOfs) by (intros i [X|[X|[X|X]]]; discriminate). exact NP. }
    assert (S2 : exists e2, cexec (advance_null ni) e1 (mkState [] m1 t1) = Some (e2, mkState [] m1 t1) /\ (forall l, In l lvs -> ready ls ts ni base e2 r l) /\
        (forall l, bitmap = Some l -> ni <> None -> l_st l <> 0 -> e2 NullCtr = VI (lrow (l_lv l) (r + 1))) /\ (forall id, e2 (Ctr id) = e (Ctr id))).
    { assert (RD : forall e2, (forall x, x <> NullP -> x <> NullOfs -> x <> NullCtr -> e2 x = e1 x) -> forall l, In l lvs -> l_i l <> nb -> ready ls ts ni base e2 r l).
      { intros e2 F l I N. unfold ready. destruct (Nat.eqb_spec (l_i l) nb); [contradiction|]. apply (at_bit_ext ls ts ni e1); [|apply P1; assumption]. intros x O. unfold owns in O. destruct (Nat.eqb_spec (l_i l) nb); [contradiction|]. apply F; destruct O; subst; discriminate. }
      destruct ni as [x|] eqn:Hx.
      - destruct (null_some x Hx) as (l & B & I & E & Ex).
        destruct (advance_null_exec e1 r (mkState [] m1 t1) l B) as (e2 & A & R & C & F); auto.
        { congruence. } { rewrite Hx. exact NP1. } { intros N. rewrite F1n by (intros i [X|[X|[X|X]]]; discriminate). apply NC; [exact B|congruence|exact N]. }
        rewrite Hx in A, R. exists e2. split; [exact A|]. split; [|split].
        + intros l' I'. destruct (Nat.eq_dec (l_i l') nb) as [E'|E']; [|apply RD; auto]. rewrite (leaf_unique L l' l); auto; [apply HL|congruence].
        + intros l' B' _ N. rewrite B in B'. injection B' as <-. apply C. exact N.
        + intros id. rewrite F by discriminate. apply F1n. intros i [X|[X|[X|X]]]; discriminate.
      - exists e1. split; [reflexivity|]. split; [|split].
        + intros l I. destruct (Nat.eq_dec (l_i l) nb) as [E'|E']; [|apply RD; auto]. unfold ready. rewrite E', Nat.eqb_refl. congruence.
        + congruence.
        + intros id. apply F1n. intros i [X|[X|[X|X]]]; discriminate. }
    destruct S2 as (e2 & A2 & R2 & N2 & C2). rewrite cexec_app, A2.
    destruct (proj2 (strides_exec ls ts ni base r) (root L) [] r0) with (e := e2) (st := @nil entry) (m := m1) (t := t1) as (e3 & g & A3 & C3 & R3 & F3).
    { apply lvs_good. } { unfold root. cbn. rewrite app_nil_r. apply HL. } { unfold root. cbn. rewrite app_nil_r. apply HL. }
    { apply (proj2 (ctrs_pos ls) (root L) 0). unfold root. split; [apply HL|exact I]. } { intros id _ []. } { intros l []. }
    { intros id n H. rewrite C2. apply CT. exact H. } { exact R2. }
    cbn [map] in A3. exists e3, g. rewrite A3, app_nil_r. split; [reflexivity|]. split; [lia|]. split; [exact R3|]. split; [exact C3|].
    intros l B N S. rewrite F3; [apply N2; assumption|]. split; [|discriminate]. intros i _ O. unfold owns in O. destruct (Nat.eqb i nb); destruct O; discriminate.
  Qed.
End Run.
