(** * C54: the context entries of the compiled code: which there are, their initial values, and that they exist when they are used *)
From Coq Require Import List Bool ZArith Arith Lia.
From Verif Require Import LoadStore LoadStoreSpec LoadStoreSim LoadStoreTree LoadStoreJump LoadStoreStrides LoadStoreBits LoadStoreAccess LoadStoreRun.
Import ListNotations.
Local Open Scope Z_scope.

Lemma sc_emit o r l : scoped r l -> scoped (Emit o :: r) l.
Proof. intros H; split; [exact I|exact H]. Qed.
Lemma sc_const v r l : scoped r l -> scoped (Const v :: r) l.
Proof. intros H; split; [exact I|exact H]. Qed.
Lemma sc_new x v r l : scoped r (l ++ [x]) -> scoped (New x v :: r) l.
Proof. intros H; split; [exact I|exact H]. Qed.
Lemma sc_newload x v r l : scoped r (l ++ [x]) -> scoped (NewLoad x v :: r) l.
Proof. intros H; split; [exact I|exact H]. Qed.
Lemma sc_load x r l : In x l -> scoped r l -> scoped (Load x :: r) l.
Proof. intros A H; split; [exact A|exact H]. Qed.
Lemma sc_update x r l : In x l -> scoped r l -> scoped (Update x :: r) l.
Proof. intros A H; split; [exact A|exact H]. Qed.
Ltac member := first [assumption | solve [cbn [In app]; auto 8] | solve [repeat (apply in_or_app; first [right; left; reflexivity | left]); first [assumption | cbn [In app]; auto 8]]].
Ltac sc := unfold bit_tail, ld_tup, emit_Ld, emit_St, emit_St_Tup; cbn [app]; repeat match goal with
  | |- scoped [] _ => exact I
  | |- scoped (Emit ?o :: ?r) ?l => refine (sc_emit o r l _)
  | |- scoped (Const ?v :: ?r) ?l => refine (sc_const v r l _)
  | |- scoped (New ?x ?v :: ?r) ?l => refine (sc_new x v r l _)
  | |- scoped (NewLoad ?x ?v :: ?r) ?l => refine (sc_newload x v r l _)
  | |- scoped (Load ?x :: ?r) ?l => refine (sc_load x r l _ _); [member|]
  | |- scoped (Update ?x :: ?r) ?l => refine (sc_update x r l _ _); [member|]
  end.

Definition closed (p : list call) : Prop := (forall l, scoped p l) /\ names (allocs p) = [].
Lemma closed_app p q : closed p -> closed q -> closed (p ++ q).
Proof. intros [A B] [C D]. split; [intros l; apply scoped_app; auto|]. rewrite allocs_app, names_app, B, D. reflexivity. Qed.
Lemma closed_nil : closed [].
Proof. split; [intros l; exact I|reflexivity]. Qed.
Lemma closed_ld_tup k : closed (ld_tup k).
Proof. split; [intros l; sc|reflexivity]. Qed.
Lemma closed_ld t : closed (emit_Ld t).
Proof. destruct t; (split; [intros l; sc|reflexivity]). Qed.
Lemma closed_st t : closed (emit_St t).
Proof. destruct t; (split; [intros l; sc|reflexivity]). Qed.
Lemma closed_st_tup k t : closed (emit_St_Tup k t).
Proof. destruct t; (split; [intros l; sc|reflexivity]). Qed.
Lemma closed_sel (b : bool) : closed (if b then [Emit Sel] else []).
Proof. destruct b; (split; [intros l; sc|reflexivity]). Qed.
Lemma closed_emit o : closed [Emit o].
Proof. split; [intros l; sc|reflexivity]. Qed.

Lemma allocs_flat {A} (f : A -> list call) l : names (allocs (flat_map f l)) = flat_map (fun x => names (allocs (f x))) l.
Proof. induction l as [|x l IH]; cbn [flat_map]; [reflexivity|]. rewrite allocs_app, names_app, IH. reflexivity. Qed.
Lemma scoped_flat {A} (f : A -> list call) l n : (forall x, In x l -> scoped (f x) n) -> scoped (flat_map f l) n.
Proof.
  revert n; induction l as [|x l IH]; intros n H; cbn [flat_map]; [exact I|]. apply scoped_app; [apply H; left; reflexivity|]. apply IH. intros y Hy. apply (scoped_mono _ n); [apply incl_appl, incl_refl|]. apply H. right; exact Hy.
Qed.

Section Static.
  Variables (ls : schema) (ts : list nat) (ni : option null_info) (base r0 : Z).
  Notation nb := (length ls).

  Definition lnames (is_store : bool) (l : leaf) : list name :=
    if Nat.eqb (l_i l) nb then [] else
    match slot ls ts (l_i l) with
    | None => []
    | Some _ =>
        (match ni with Some x => if is_store && nullable ls (l_i l) && negb (n_stride x =? 0) then [NAddr (l_i l); NMask (l_i l)] else [] | None => [] end) ++
        [Ptr (l_i l)] ++ (if l_st l mod 8 =? 0 then [] else [Mask (l_i l)])
    end.
  Definition null_names : list name := match ni with Some x => [NullP] ++ (if n_stride x =? 0 then [] else [NullOfs]) | None => [] end.

  Lemma access_null_static is_store i k : scoped (access_null is_store ls ni i k) null_names /\
    names (allocs (access_null is_store ls ni i k)) = match ni with Some x => if is_store && nullable ls i && negb (n_stride x =? 0) then [NAddr i; NMask i] else [] | None => [] end.
  Proof.
    unfold access_null, null_names. destruct ni as [x|]; [|split; [exact I|reflexivity]]. destruct (nullable ls i); [|rewrite andb_false_r; split; [exact I|reflexivity]].
    destruct (n_stride x =? 0); cbn [negb]; rewrite ?andb_false_r, ?andb_true_r.
    - unfold null_fixed. destruct (n_bit_offset x + Z.of_nat i <? 8); destruct is_store; (split; [sc|reflexivity]).
    - unfold null_adjustable. destruct is_store; (split; [sc|reflexivity]).
  Qed.
  Lemma byte_tail_static i z : (forall n, In (Ptr i) n -> scoped (byte_tail i z) n) /\ names (allocs (byte_tail i z)) = [].
  Proof. unfold byte_tail. destruct (z =? 0); (split; [intros n H; sc|reflexivity]). Qed.
  Lemma bit_tail_static i : (forall n, In (Ptr i) n -> In (Mask i) n -> scoped (bit_tail i) n) /\ names (allocs (bit_tail i)) = [].
  Proof. split; [intros n H H'; sc|reflexivity]. Qed.
  Lemma scoped_closed p q n : closed p -> scoped q n -> scoped (p ++ q) n.
  Proof. intros [A B] H. apply scoped_app; [apply A|]. rewrite B, app_nil_r. exact H. Qed.
  Lemma closed_names p q : closed p -> names (allocs (p ++ q)) = names (allocs q).
  Proof. intros [A B]. rewrite allocs_app, names_app, B. reflexivity. Qed.

  Lemma access_bytes_static is_store i k t b z : (forall n, In (Ptr i) n -> scoped (access_bytes is_store ls ni i k t b z) n) /\ names (allocs (access_bytes is_store ls ni i k t b z)) = [].
  Proof.
    unfold access_bytes. fold (byte_tail i z). destruct (byte_tail_static i z) as [T1 T2].
    match goal with |- context [?p ++ byte_tail i z] => assert (C : closed p) end.
    { destruct is_store.
      - apply closed_app; [apply closed_ld_tup|]. destruct (is_boolean t); [apply closed_emit|apply closed_st].
      - apply closed_app; [destruct (is_boolean t); [apply closed_emit|apply closed_ld]|]. apply closed_app; [apply closed_sel|]. apply closed_app; [apply closed_st_tup|apply closed_emit]. }
    split; [intros n H; apply scoped_closed; auto|]. rewrite closed_names by exact C. exact T2.
  Qed.
  Lemma access_bit_static is_store i k t b : (forall n, In (Ptr i) n -> scoped (access_bit is_store ls ni i k t b) n) /\ names (allocs (access_bit is_store ls ni i k t b)) = [Mask i].
  Proof.
    destruct (bit_tail_static i) as [T1 T2]. destruct is_store.
    - rewrite access_bit_store. rewrite allocs_app, names_app, T2. split; [|reflexivity]. intros n H. apply scoped_app; [|apply T1; apply in_or_app; [left; exact H|right; left; reflexivity]].
      assert (M : In (Mask i) (n ++ [Mask i])) by (apply in_or_app; right; left; reflexivity). assert (P : In (Ptr i) (n ++ [Mask i])) by (apply in_or_app; left; exact H). sc.
    - rewrite access_bit_load. assert (C : closed ((if can_be_null ls ni i then [Emit Sel] else []) ++ emit_St_Tup k t ++ [Emit Pop])) by (apply closed_app; [apply closed_sel|]; apply closed_app; [apply closed_st_tup|apply closed_emit]).
      split.
      + intros n H. assert (M : In (Mask i) (n ++ [Mask i])) by (apply in_or_app; right; left; reflexivity). assert (P : In (Ptr i) (n ++ [Mask i])) by (apply in_or_app; left; exact H).
        apply scoped_app; [sc|]. apply scoped_closed; [exact C|]. apply T1; [exact P|exact M].
      + rewrite allocs_app, names_app, closed_names, T2 by exact C. reflexivity.
  Qed.
  Lemma leaf_static is_store l : scoped (leaf_code ls ts ni base is_store r0 l) null_names /\ names (allocs (leaf_code ls ts ni base is_store r0 l)) = lnames is_store l.
  Proof.
    unfold leaf_code, access_leaf, lnames. destruct (Nat.eqb (l_i l) nb); [split; [exact I|reflexivity]|]. destruct (slot ls ts (l_i l)) as [k|]; [|split; [exact I|reflexivity]].
    destruct (access_null_static is_store (l_i l) k) as [N1 N2]. set (q := [NewLoad _ _] ++ _).
    assert (Q : (forall n, scoped q n) /\ names (allocs q) = [Ptr (l_i l)] ++ (if l_st l mod 8 =? 0 then [] else [Mask (l_i l)])).
    { unfold q. destruct (l_st l mod 8 =? 0).
      - match goal with |- context [access_bytes is_store ls ni ?i ?k ?t ?b ?z] => destruct (access_bytes_static is_store i k t b z) as [B1 B2] end. split; [|rewrite allocs_app, names_app, B2; reflexivity].
        intros n. apply scoped_app; [sc|]. apply B1. apply in_or_app. right; left; reflexivity.
      - match goal with |- context [access_bit is_store ls ni ?i ?k ?t ?b] => destruct (access_bit_static is_store i k t b) as [B1 B2] end. split; [|rewrite allocs_app, names_app, B2; reflexivity].
        intros n. apply scoped_app; [sc|]. apply B1. apply in_or_app. right; left; reflexivity. }
    destruct Q as [Q1 Q2]. split; [apply scoped_app; [exact N1|apply Q1]|]. rewrite allocs_app, names_app, N2, Q2. reflexivity.
  Qed.

  (** ** Jumps *)
  Lemma advance_ptr_static x c n z : (forall l, In x l -> In (Ctr c) l -> scoped (advance_ptr x c n z) l) /\ names (allocs (advance_ptr x c n z)) = [].
  Proof. unfold advance_ptr. destruct (n =? 1); (split; [intros l A B; sc|reflexivity]). Qed.
  Lemma jumps_names i x lv : forall pn ps, names (allocs (jumps ls i x pn ps lv)) = [].
  Proof.
    induction lv as [|[[c n] st] lv IH]; intros pn ps; [reflexivity|]. cbn [jumps]. rewrite allocs_app, names_app, IH, app_nil_r. set (rem := sub64 _ _). destruct (rem =? 0); [reflexivity|]. destruct (rem mod 8 =? 0); [apply advance_ptr_static|].
    rewrite allocs_app, names_app, (proj2 (advance_ptr_static x c n (rem / 8 + 1))), app_nil_r. unfold reset_null, reset_mask. destruct (Nat.eqb i (length ls)); destruct (n =? 1); reflexivity.
  Qed.
  Lemma jumps_scoped i x l lv : In x l -> (forall v, In v lv -> In (Ctr (v_id v)) l) -> forall pn ps, chain pn lv -> room pn ps lv -> (ps mod 8 = 0 \/ In (if Nat.eqb i nb then NullOfs else Mask i) l) ->
    scoped (jumps ls i x pn ps (map lvl lv)) l.
  Proof.
    intros Hx. induction lv as [|v lv IH]; intros HC pn ps CH RO OK; [exact I|]. cbn [map jumps]. unfold lvl at 1. cbn [chain room] in CH, RO. destruct CH as (Hk & Hm & _ & _ & Hb & Hs & CH). destruct RO as [R1 R2]. rewrite sub64_eq by lia.
    assert (Cv : In (Ctr (v_id v)) l) by (apply HC; left; reflexivity). set (rem := v_st v - v_n v / pn * ps).
    apply scoped_app.
    - destruct (rem =? 0); [exact I|]. destruct (Z.eqb_spec (rem mod 8) 0) as [E|E]; [apply advance_ptr_static; assumption|].
      assert (M : In (if Nat.eqb i nb then NullOfs else Mask i) l).
      { destruct OK as [P8|M]; [|exact M]. exfalso. apply E. unfold rem. apply Z.mod_divide in P8, Hs; try lia. apply Z.mod_divide; [lia|]. apply Z.divide_sub_r; [exact Hs|apply Z.divide_mul_r; exact P8]. }
      apply scoped_app; [|apply (scoped_mono _ l); [apply incl_appl, incl_refl|apply advance_ptr_static; assumption]]. unfold reset_null, reset_mask. destruct (Nat.eqb i nb); destruct (v_n v =? 1); sc.
    - apply (scoped_mono _ l); [apply incl_appl, incl_refl|]. apply IH; auto. intros w Hw. apply HC. right; exact Hw.
  Qed.
  (** The entries a leaf needs for its jumps *)
  Definition has_entries (l : list name) (x : leaf) : Prop :=
    if Nat.eqb (l_i x) nb then ni <> None -> In NullP l /\ (l_st x <> 0 -> In NullOfs l)
    else slot ls ts (l_i x) <> None -> In (Ptr (l_i x)) l /\ (l_st x mod 8 <> 0 -> In (Mask (l_i x)) l).
  Lemma has_entries_mono l l' x : incl l l' -> has_entries l x -> has_entries l' x.
  Proof. intros H. unfold has_entries. destruct (Nat.eqb (l_i x) nb); intros A N; specialize (A N); destruct A; split; auto. Qed.
  Lemma stride_leaf_static x l : good_leaf nb x -> has_entries l x -> (forall v, In v (l_lv x) -> In (Ctr (v_id v)) l) ->
    scoped (stride_leaf ls ts ni (l_i x) (l_st x) (map lvl (l_lv x))) l.
  Proof.
    intros (CH & RO & _) HE HC. unfold stride_leaf, has_entries in *. destruct (Nat.eqb (l_i x) nb) eqn:E.
    - destruct ni as [y|]; [|exact I]. destruct (HE ltac:(discriminate)) as [A B]. apply jumps_scoped; auto. rewrite E. destruct (Z.eq_dec (l_st x) 0) as [E0|E0]; [left; rewrite E0; reflexivity|right; auto].
    - destruct (slot ls ts (l_i x)) as [k|]; [|destruct ni; exact I]. destruct (HE ltac:(discriminate)) as [A B].
      assert (S : scoped (jumps ls (l_i x) (Ptr (l_i x)) 1 (l_st x) (map lvl (l_lv x))) l). { apply jumps_scoped; auto. rewrite E. destruct (Z.eq_dec (l_st x mod 8) 0) as [E0|E0]; [left; exact E0|right; auto]. }
      destruct ni; exact S.
  Qed.
  Lemma stride_leaf_names i st lv : names (allocs (stride_leaf ls ts ni i st lv)) = [].
  Proof. unfold stride_leaf. destruct ni; destruct (Nat.eqb i (length ls)); try apply jumps_names; destruct (slot ls ts i); try apply jumps_names; reflexivity. Qed.
  Lemma strides_names : (forall c st row lv, names (allocs (stride_node ls ts ni c st row lv)) = map Ctr (inodes_node c)) /\ (forall cs row lv, names (allocs (strides ls ts ni cs row lv)) = map Ctr (inodes cs)).
  Proof.
    apply tree_ind.
    - intros i t st row lv. apply stride_leaf_names.
    - intros id n cs IH st row lv. rewrite stride_inode, !allocs_app, !names_app, IH. cbn [inodes_node map]. destruct (n =? 1); cbn; rewrite app_nil_r; reflexivity.
    - reflexivity.
    - intros c IHc off st cs IHcs row lv. rewrite strides_child, allocs_app, names_app, IHc, IHcs. cbn [inodes]. rewrite map_app. reflexivity.
  Qed.
  Lemma strides_scoped : (forall c off st row lv l, (forall x, In x (leaves_node c off st lv) -> good_leaf nb x /\ has_entries l x) -> (forall v, In v lv -> In (Ctr (v_id v)) l) -> scoped (stride_node ls ts ni c st row (map lvl lv)) l) /\
    (forall cs row lv l, (forall x, In x (leaves cs lv) -> good_leaf nb x /\ has_entries l x) -> (forall v, In v lv -> In (Ctr (v_id v)) l) -> scoped (strides ls ts ni cs row (map lvl lv)) l).
  Proof.
    apply tree_ind.
    - intros i t off st row lv l G C. cbn [leaves_node] in G. destruct (G _ (or_introl eq_refl)) as [G1 G2]. apply (stride_leaf_static (mkLeaf i t off st lv) l G1 G2 C).
    - intros id n cs IH off st row lv l G C. rewrite stride_inode. cbn [leaves_node] in G. assert (K : In (Ctr id) (l ++ [Ctr id])) by (apply in_or_app; right; left; reflexivity).
      apply scoped_app; [sc|]. cbn [allocs flat_map names app fst]. 
      apply scoped_app.
      + change ((id, n, st) :: map lvl lv) with (map lvl (mkLevel id off n st :: lv)). apply IH.
        * intros x Hx. destruct (G x Hx) as [G1 G2]. split; [exact G1|]. apply (has_entries_mono l); [apply incl_appl, incl_refl|exact G2].
        * intros v [<-|Hv]; [exact K|]. apply in_or_app; left; auto.
      + apply (scoped_mono _ (l ++ [Ctr id])); [apply incl_appl, incl_refl|]. destruct (n =? 1); sc.
    - intros; exact I.
    - intros c IHc off st cs IHcs row lv l G C. rewrite strides_child. cbn [leaves] in G. apply scoped_app.
      + apply (IHc off); auto. intros x Hx. apply G. apply in_or_app; auto.
      + apply (scoped_mono _ l); [apply incl_appl, incl_refl|]. apply IHcs; auto. intros x Hx. apply G. apply in_or_app; auto.
  Qed.
End Static.
