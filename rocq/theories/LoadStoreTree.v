(** * C54: the leaves of a layout with their enclosing linearizations, and how the position of a leaf moves from row to row *)
From Coq Require Import List Bool ZArith Arith Lia.
From Verif Require Import LoadStore LoadStoreSpec.
Import ListNotations.
Local Open Scope Z_scope.

Record level := mkLevel { v_id : nat; v_off : Z; v_n : Z; v_st : Z }.
(** Levels are listed from the innermost one. *)
Fixpoint lrow (lv : list level) (r : Z) : Z := match lv with [] => r | l :: lv' => lrow lv' r mod v_n l end.
Fixpoint lbase (lv : list level) (r : Z) : Z :=
  match lv with [] => 0 | l :: lv' => lbase lv' r + v_off l + (lrow lv' r / v_n l) * v_st l end.
Record leaf := mkLeaf { l_i : nat; l_t : type; l_off : Z; l_st : Z; l_lv : list level }.
Definition lpos (l : leaf) (r : Z) : Z := lbase (l_lv l) r + l_off l + lrow (l_lv l) r * l_st l.

Scheme node_ind' := Induction for node Sort Prop with children_ind' := Induction for children Sort Prop.
Combined Scheme tree_ind from node_ind', children_ind'.

Fixpoint leaves (cs : children) (lv : list level) : list leaf :=
  match cs with Nil => [] | Child c off st r => leaves_node c off st lv ++ leaves r lv end
with leaves_node (c : node) (off st : Z) (lv : list level) : list leaf :=
  match c with Leaf i t => [mkLeaf i t off st lv] | INode id n cs => leaves cs (mkLevel id off n st :: lv) end.

(** ** Where leaves are *)
Lemma indices_leaves : (forall c off st lv, map l_i (leaves_node c off st lv) = indices_node c) /\ (forall cs lv, map l_i (leaves cs lv) = indices cs).
Proof.
  apply tree_ind; cbn; auto.
  intros c IHc off st cs IHcs lv. rewrite map_app, IHc, IHcs. reflexivity.
Qed.
Lemma find_none_in : (forall c off st r i, find_at c off st r i = None <-> ~ In i (indices_node c)) /\ (forall cs r i, find_in cs r i = None <-> ~ In i (indices cs)).
Proof.
  apply tree_ind.
  - intros j t off st r i. cbn. destruct (Nat.eqb_spec j i); split; intros H; try congruence; try (exfalso; apply H; auto); try (intros [E|[]]; congruence).
  - intros id n cs IH off st r i. cbn. specialize (IH (r mod n) i). destruct (find_in cs (r mod n) i) as [[t p]|]; [|exact IH]. rewrite <- IH. split; congruence.
  - cbn. intros; split; auto.
  - intros c IHc off st cs IHcs r i. cbn. rewrite in_app_iff. specialize (IHc off st r i). specialize (IHcs r i). destruct (find_at c off st r i).
    + split; [discriminate|]. intros H. exfalso. assert (~ In i (indices_node c)) by tauto. apply IHc in H0. discriminate.
    + rewrite IHcs. tauto.
Qed.

(** Positions relative to the enclosing linearization *)
Lemma find_leaf : (forall c off st lv r i t p, NoDup (indices_node c) -> find_at c off st (lrow lv r) i = Some (t, p) ->
     exists l, In l (leaves_node c off st lv) /\ l_i l = i /\ l_t l = t /\ lpos l r = lbase lv r + p) /\
  (forall cs lv r i t p, NoDup (indices cs) -> find_in cs (lrow lv r) i = Some (t, p) ->
     exists l, In l (leaves cs lv) /\ l_i l = i /\ l_t l = t /\ lpos l r = lbase lv r + p).
Proof.
  apply tree_ind.
  - intros j ty off st lv r i t p ND. cbn [find_at]. destruct (Nat.eqb_spec j i); [|discriminate]. intros [= <- <-]. eexists. split; [left; reflexivity|]. cbn. repeat split; auto. unfold lpos; cbn. lia.
  - intros id n cs IH off st lv r i t p ND. cbn [find_at]. cbn [indices_node] in ND. specialize (IH (mkLevel id off n st :: lv) r i). cbn [lrow v_n] in IH.
    destruct (find_in cs (lrow lv r mod n) i) as [[t' p']|]; [|discriminate]. intros [= <- <-]. destruct (IH t' p' ND eq_refl) as (l & A & B & C & D). exists l. repeat split; auto.
    rewrite D. cbn [lbase v_off v_n v_st]. lia.
  - discriminate.
  - intros c IHc off st cs IHcs lv r i t p ND. cbn [find_in indices leaves] in *. assert (NDc : NoDup (indices_node c) /\ NoDup (indices cs)).
    { clear - ND. induction (indices_node c) as [|x l IH]; cbn in *; [split; [constructor|assumption]|]. inversion ND; subst. destruct (IH H2). split; [constructor; [rewrite in_app_iff in H1; tauto|assumption]|assumption]. }
    destruct NDc as [ND1 ND2]. destruct (find_at c off st (lrow lv r) i) as [[t' p']|] eqn:E.
    + intros [= <- <-]. destruct (IHc off st lv r i t' p' ND1 E) as (l & A & B). exists l. split; [apply in_or_app; auto|exact B].
    + intros H. destruct (IHcs lv r i t p ND2 H) as (l & A & B). exists l. split; [apply in_or_app; auto|exact B].
Qed.

Lemma NoDup_map_inj {A B} (f : A -> B) (l : list A) x y : NoDup (map f l) -> In x l -> In y l -> f x = f y -> x = y.
Proof.
  induction l as [|a l IH]; cbn; [intros _ []|]. intros ND [->|Hx] [->|Hy] E; inversion ND; subst; auto.
  - exfalso. apply H1. rewrite E. apply in_map; assumption.
  - exfalso. apply H1. rewrite <- E. apply in_map; assumption.
Qed.

Definition all_leaves (L : layout) : list leaf := leaves (root L) [].
Lemma all_leaves_eq L : all_leaves L = leaves_node (child L) 0 (lstride L) [].
Proof. unfold all_leaves, root. cbn. apply app_nil_r. Qed.
Lemma leaf_unique L l l' : NoDup (indices_node (child L)) -> In l (all_leaves L) -> In l' (all_leaves L) -> l_i l = l_i l' -> l = l'.
Proof. intros ND H H'. rewrite all_leaves_eq in *. apply NoDup_map_inj with (l := leaves_node (child L) 0 (lstride L) []); auto. destruct indices_leaves as [-> _]; exact ND. Qed.
Lemma place_leaf L r l : NoDup (indices_node (child L)) -> In l (all_leaves L) -> place L r (l_i l) = Some (l_t l, lpos l r).
Proof.
  intros ND H. destruct (place L r (l_i l)) as [[t p]|] eqn:E.
  - destruct (proj1 find_leaf _ _ _ [] r _ _ _ ND E) as (l' & A & B & C & D). assert (l' = l) as -> by (eapply leaf_unique; eauto; rewrite all_leaves_eq; exact A). cbn [lbase] in D. rewrite C, D. reflexivity.
  - exfalso. apply (proj1 find_none_in) in E. apply E. rewrite <- (proj1 indices_leaves _ 0 (lstride L) []). apply in_map. rewrite <- all_leaves_eq. exact H.
Qed.
Lemma place_some L r i t p : NoDup (indices_node (child L)) -> place L r i = Some (t, p) -> exists l, In l (all_leaves L) /\ l_i l = i /\ l_t l = t /\ lpos l r = p.
Proof. intros ND E. destruct (proj1 find_leaf _ _ _ [] r _ _ _ ND E) as (l & A & B & C & D). exists l. rewrite all_leaves_eq. cbn [lbase] in D. repeat split; auto; lia. Qed.
Lemma place_none L r i : place L r i = None <-> ~ In i (map l_i (all_leaves L)).
Proof. unfold place. rewrite (proj1 find_none_in), all_leaves_eq, (proj1 indices_leaves). reflexivity. Qed.

(** ** Well-formed levels *)
(** [k]: the number of tuples of the child below the levels *)
Fixpoint chain (k : Z) (lv : list level) : Prop :=
  match lv with
  | [] => 0 < k
  | l :: lv' => 0 < k /\ v_n l mod k = 0 /\ 0 <= v_off l /\ v_off l mod 8 = 0 /\ 0 <= v_st l < 2 ^ 64 /\ v_st l mod 8 = 0 /\ chain (v_n l) lv'
  end.
Definition top (lv : list level) : Z := match lv with [] => 0 | l :: _ => v_n l end.
(** The contents of each level fit: [pn], [ps] are tuples and stride of the child below. *)
Fixpoint room (pn ps : Z) (lv : list level) : Prop :=
  match lv with [] => True | l :: lv' => 0 <= v_n l / pn * ps <= v_st l /\ room (v_n l) (v_st l) lv' end.
Definition good_leaf (nb : nat) (l : leaf) : Prop :=
  chain 1 (l_lv l) /\ room 1 (l_st l) (l_lv l) /\ 0 <= l_off l /\ 0 <= l_st l /\ leaf_ok nb (l_i l) (l_t l) (l_off l) (l_st l) (top (l_lv l)).

Lemma mod_chain n k : 0 < k -> n mod k = 0 -> (k | n).
Proof. intros. apply Z.mod_divide; lia. Qed.
Lemma chain_pos k lv : chain k lv -> 0 < k.
Proof. destruct lv; cbn; tauto. Qed.
Lemma chain_1 k lv : chain k lv -> chain 1 lv.
Proof. destruct lv; cbn; [lia|]. intros (? & ? & ?). split; [lia|]. split; [apply Z.mod_1_r|assumption]. Qed.
Lemma lrow_chain lv : forall k r, chain k lv -> lrow lv r mod k = r mod k.
Proof.
  induction lv as [|l lv IH]; intros k r H; cbn; [reflexivity|]. cbn in H. destruct H as (Hk & Hm & _ & _ & _ & _ & Hc). rewrite (IH _ _ Hc).
  pose proof (chain_pos _ _ Hc). apply mod_chain in Hm; [|assumption]. destruct Hm as [q Hq]. rewrite Hq. rewrite (Z.mul_comm q k). rewrite Z.rem_mul_r by nia.
  rewrite Z.mul_comm, Z.mod_add by lia. apply Z.mod_mod; lia.
Qed.
Lemma lbase_8 lv : forall k r, chain k lv -> lbase lv r mod 8 = 0.
Proof.
  induction lv as [|l lv IH]; intros k r H; cbn; [reflexivity|]. cbn in H. destruct H as (Hk & Hm & _ & Ho & _ & Hs & Hc). specialize (IH _ r Hc).
  apply Z.mod_divide in IH, Ho, Hs; try lia. apply Z.mod_divide; [lia|]. apply Z.divide_add_r; [apply Z.divide_add_r; assumption|]. apply Z.divide_mul_r; assumption.
Qed.
Lemma lrow_nonneg lv r k : chain k lv -> 0 <= r -> 0 <= lrow lv r.
Proof. revert k; induction lv as [|l lv IH]; intros k H Hr; cbn; auto. cbn in H. destruct H as (_ & _ & _ & _ & _ & _ & Hc). apply Z.mod_pos_bound. apply (chain_pos _ _ Hc). Qed.
Lemma lbase_nonneg lv r k : chain k lv -> 0 <= r -> 0 <= lbase lv r.
Proof.
  revert k; induction lv as [|l lv IH]; intros k H Hr; cbn; [lia|]. cbn in H. destruct H as (_ & _ & Ho & _ & Hs & _ & Hc).
  specialize (IH _ Hc Hr). pose proof (lrow_nonneg _ _ _ Hc Hr). pose proof (chain_pos _ _ Hc). assert (0 <= lrow lv r / v_n l) by (apply Z.div_pos; lia). nia.
Qed.

Lemma good_leaves nb : (forall c off st lv, node_ok nb c off st (top lv) -> chain 1 lv -> room (tuples c) st lv -> (forall id n cs, c = INode id n cs -> chain n lv) ->
    forall l, In l (leaves_node c off st lv) -> good_leaf nb l) /\
  (forall cs lv, children_ok nb cs (top lv) -> chain 1 lv -> (forall n size lv', lv = mkLevel n 0 0 size :: lv' -> True) ->
     (match lv with [] => True | l :: lv' => fits cs (v_n l) (v_st l) /\ room (v_n l) (v_st l) lv' end) -> forall l, In l (leaves cs lv) -> good_leaf nb l).
Proof.
  apply tree_ind.
  - intros i t off st lv OK CH RO _ l [<-|[]]. cbn in OK. unfold good_leaf; cbn. cbn in RO. tauto.
  - intros id n cs IH off st lv OK CH RO CN l Hl. cbn [node_ok] in OK. destruct OK as (Ho & Hs & Hn & Hm & Ho8 & Hs8 & Hb & Hf & Hc). cbn [leaves_node] in Hl.
    specialize (CN id n cs eq_refl). apply (IH (mkLevel id off n st :: lv)); auto.
    + cbn. repeat split; auto; try lia. apply Z.mod_1_r.
  - intros lv _ _ _ _ l [].
  - intros c IHc off st cs IHcs lv OK CH D FR l Hl. cbn [children_ok leaves] in *. destruct OK as [OKc OKcs]. apply in_app_or in Hl. destruct Hl as [Hl|Hl].
    + apply (IHc off st lv OKc CH); auto.
      * destruct lv as [|v lv]; [cbn; exact I|]. destruct FR as [[F1 F2] FR]. split; [|exact FR]. cbn in OKc. assert (0 <= st) by (destruct c; cbn in OKc; tauto). split; [|exact F1].
        cbn in CH. assert (0 < v_n v) by (eapply chain_pos; apply CH). assert (0 < tuples c) by (destruct c; cbn in *; [lia|tauto]). assert (0 <= v_n v / tuples c) by (apply Z.div_pos; lia). nia.
      * intros id n cs' ->. cbn in OKc. destruct OKc as (_ & _ & Hn & Hm & _). destruct lv as [|v lv]; [cbn in *; lia|]. cbn in Hm |- *. cbn in CH. tauto.
    + apply (IHcs lv OKcs CH); auto. destruct lv; [exact I|]. destruct FR as [[F1 F2] FR]. split; assumption.
Qed.
Lemma layout_leaves nb L l : layout_ok nb L -> In l (all_leaves L) -> good_leaf nb l.
Proof.
  intros (OK & _ & _) H. rewrite all_leaves_eq in H. apply (proj1 (good_leaves nb) (child L) 0 (lstride L) []); auto.
  - reflexivity.
  - exact I.
  - intros id n cs E. rewrite E in OK. cbn in OK |- *. tauto.
Qed.

(** ** From one row to the next *)
(** What the jumps of the levels add after row [r]. *)
Fixpoint jump_sum (pn ps : Z) (lv : list level) (r : Z) : Z :=
  match lv with
  | [] => 0
  | l :: lv' => (if (r + 1) mod v_n l =? 0 then v_st l - v_n l / pn * ps else 0) + jump_sum (v_n l) (v_st l) lv' r
  end.
Lemma div_succ a k : 0 < k -> (a + 1) / k = a / k + (if (a + 1) mod k =? 0 then 1 else 0).
Proof.
  intros Hk. destruct (Z.eqb_spec ((a + 1) mod k) 0) as [E|E].
  - apply Z.mod_divide in E; [|lia]. destruct E as [q Hq]. rewrite Hq, Z.div_mul by lia. symmetry. replace a with (k - 1 + (q - 1) * k) by lia. rewrite Z.div_add by lia. rewrite Z.div_small by lia. lia.
  - pose proof (Z.div_mod a k ltac:(lia)). pose proof (Z.mod_pos_bound a k Hk). pose proof (Z.div_mod (a + 1) k ltac:(lia)). pose proof (Z.mod_pos_bound (a + 1) k Hk). nia.
Qed.
Lemma mod_succ a k : 0 < k -> (a + 1) mod k = if (a + 1) mod k =? 0 then 0 else a mod k + 1.
Proof.
  intros Hk. destruct (Z.eqb_spec ((a + 1) mod k) 0) as [E|E]; [exact E|]. pose proof (div_succ a k Hk) as D. destruct (Z.eqb_spec ((a + 1) mod k) 0); [congruence|].
  pose proof (Z.div_mod a k ltac:(lia)). pose proof (Z.div_mod (a + 1) k ltac:(lia)). nia.
Qed.
Lemma jump_unit lv : forall pn ps r, chain pn lv ->
  lbase lv (r + 1) + lrow lv (r + 1) / pn * ps = lbase lv r + lrow lv r / pn * ps + (if (r + 1) mod pn =? 0 then ps else 0) + jump_sum pn ps lv r.
Proof.
  induction lv as [|l lv IH]; intros pn ps r H; cbn.
  - cbn in H. rewrite div_succ by lia. destruct (_ =? _); lia.
  - cbn in H. destruct (H) as (Hk & Hm & _ & _ & _ & _ & Hc). pose proof (chain_pos _ _ Hc) as Hn. specialize (IH _ (v_st l) r Hc).
    pose proof (lrow_chain _ _ r Hc) as R0. pose proof (lrow_chain _ _ (r + 1) Hc) as R1. rewrite R0, R1.
    assert (E : (r + 1) mod v_n l / pn = r mod v_n l / pn + (if (r + 1) mod pn =? 0 then 1 else 0) - (if (r + 1) mod v_n l =? 0 then v_n l / pn else 0)).
    { apply mod_chain in Hm; [|assumption]. destruct Hm as [q Hq].
      assert (DD : forall a, (a mod v_n l) mod pn = a mod pn).
      { intros a. rewrite Hq, (Z.mul_comm q pn), Z.rem_mul_r by nia. rewrite Z.mul_comm, Z.mod_add by lia. apply Z.mod_mod; lia. }
      rewrite (mod_succ r (v_n l)) by lia. destruct (Z.eqb_spec ((r + 1) mod v_n l) 0) as [Z0|Z0].
      - assert ((r + 1) mod pn = 0) as -> by (rewrite <- DD, Z0; apply Z.mod_0_l; lia). rewrite Z.eqb_refl. rewrite Z.div_0_l by lia.
        assert (r mod v_n l = v_n l - 1) as ->.
        { apply Z.mod_divide in Z0; [|lia]. destruct Z0 as [k Hk']. replace r with (v_n l - 1 + (k - 1) * v_n l) by lia. rewrite Z.mod_add by lia. apply Z.mod_small; lia. }
        rewrite Hq. rewrite Z.div_mul by lia. replace (q * pn - 1) with (pn - 1 + (q - 1) * pn) by lia. rewrite Z.div_add by lia. rewrite Z.div_small by lia. lia.
      - rewrite div_succ by lia. assert (X : (r mod v_n l + 1) mod pn = (r + 1) mod pn).
        { rewrite <- (DD (r + 1)). rewrite (mod_succ r (v_n l)) by lia. destruct (Z.eqb_spec ((r + 1) mod v_n l) 0); [congruence|reflexivity]. }
        rewrite X. pose proof (Z.mod_pos_bound r (v_n l) Hn). destruct (Z.eqb_spec (r mod v_n l + 1) 0); lia. }
    rewrite E. destruct ((r + 1) mod v_n l =? 0); destruct ((r + 1) mod pn =? 0); nia.
Qed.
Lemma lpos_succ l r : chain 1 (l_lv l) -> lpos l (r + 1) = lpos l r + l_st l + jump_sum 1 (l_st l) (l_lv l) r.
Proof. intros H. pose proof (jump_unit (l_lv l) 1 (l_st l) r H) as J. rewrite !Z.div_1_r, !Z.mod_1_r in J. unfold lpos. cbn in J. lia. Qed.
