(** * C18, C19: the reference-counting hash map *)
From Coq Require Import List Bool ZArith Lia Permutation.
From Verif Require Import Arith ArithProps RCHash RCHashProofs.
Import ListNotations.
Local Open Scope Z_scope.
Ltac Zify.zify_post_hook ::= Z.div_mod_to_equations.

(** ** Specification: a multimap is a list of pairs, up to order *)
Section Spec.
  Context {K V : Type}.
  Variable eqb : K -> K -> bool.
  Definition member (q : K) (l : list (K * V)) : bool := existsb (fun x => eqb q (fst x)) l.
  Definition occurrences (q : K) (l : list (K * V)) : list (K * V) := filter (fun x => eqb q (fst x)) l.
  Inductive op := InsertDup (q : K) (v : V) | InsertNoDup (q : K) (v : V) | Rehash | Resize (n : Z) | Shrink | MaxLoad (x : Z).
  Definition spec_step (l : list (K * V)) (o : op) : list (K * V) :=
    match o with
    | InsertDup q v => (q, v) :: l
    | InsertNoDup q v => if member q l then l else (q, v) :: l
    | _ => l
    end.
  Definition spec_run (ops : list op) : list (K * V) := fold_left spec_step ops [].
End Spec.
Arguments InsertDup {K V} q v.
Arguments InsertNoDup {K V} q v.
Arguments Rehash {K V}.
Arguments Resize {K V} n.
Arguments Shrink {K V}.
Arguments MaxLoad {K V} x.

(** Keys: the comparison is an equivalence and equal keys have equal hashes. *)
Definition key_laws {K} (hash : K -> Z) (eqb : K -> K -> bool) : Prop :=
  (forall a, eqb a a = true) /\ (forall a b, eqb a b = true -> eqb b a = true) /\
  (forall a b d, eqb a b = true -> eqb b d = true -> eqb a d = true) /\ (forall a b, eqb a b = true -> hash a = hash b).

(** ** Executing operations on the model *)
Section Run.
  Context {K V : Type}.
  Variable hash : K -> Z.
  Variable eqb : K -> K -> bool.
  Variable dk : K. Variable dv : V.
  Definition step (m : @hmap K V) (o : op) : option (@hmap K V) :=
    match o with
    | InsertDup q v => option_map fst (insert_with_duplicates hash dk dv q v m)
    | InsertNoDup q v => option_map (fun r => fst (fst r)) (insert_without_duplicates hash eqb dk dv q v m)
    | Rehash => rehash hash dk dv m
    | Resize n => resize hash dk dv n m
    | Shrink => shrink_to_fit hash dk dv m
    | MaxLoad x => Some (set_max_load_factor x m)
    end.
  Fixpoint run (m : @hmap K V) (ops : list op) : option (@hmap K V) :=
    match ops with [] => Some m | o :: ops' => match step m o with None => None | Some m' => run m' ops' end end.

End Run.

  Lemma ceil_pow2_spec n r : 0 <= n < 2 ^ 64 -> ceil_pow2 n = Some r ->
    (exists k, 0 <= k /\ r = 2 ^ k) /\ n <= r /\ (forall k, 0 <= k -> n <= 2 ^ k -> r <= 2 ^ k).
  Proof.
    intros Hn H. unfold ceil_pow2 in H. destruct (ceil_to_pow_2 64 (Z.to_N n)) as [x|] eqn:E; [|discriminate]. injection H as <-.
    assert (B : (Z.to_N n < 2 ^ 64)%N) by (change (2 ^ 64)%N with (Z.to_N (2 ^ 64)); lia).
    pose proof (C05_ceil_to_pow_2 64 (Z.to_N n) (or_intror eq_refl) B) as P. rewrite E in P. destruct P as [[j Hj] [P2 P3]].
    split; [exists (Z.of_N j); split; [lia|subst x; rewrite N2Z.inj_pow; reflexivity]|]. split; [lia|].
    intros k Hk Hl. specialize (P3 (2 ^ Z.to_N k)%N). assert (x <= 2 ^ Z.to_N k)%N.
    { apply P3; [exists (Z.to_N k); reflexivity|]. apply N2Z.inj_le. rewrite N2Z.inj_pow, !Z2N.id by lia. exact Hl. }
    apply N2Z.inj_le in H. rewrite N2Z.inj_pow, Z2N.id in H by lia. exact H.
  Qed.
  Lemma ceil_pow2_some n : 0 <= n <= 2 ^ 62 -> exists r, ceil_pow2 n = Some r.
  Proof.
    intros Hn. unfold ceil_pow2. destruct (ceil_to_pow_2 64 (Z.to_N n)) as [x|] eqn:E; [eexists; reflexivity|]. exfalso.
    assert (B62 : (Z.to_N n <= 2 ^ 62)%N) by (change (2 ^ 62)%N with (Z.to_N (2 ^ 62)); lia).
    assert (B : (Z.to_N n < 2 ^ 64)%N).
    { eapply N.le_lt_trans; [exact B62|]. reflexivity. }
    pose proof (C05_ceil_to_pow_2 64 (Z.to_N n) (or_intror eq_refl) B) as P. rewrite E in P.
    (* the least power of two is at most 2^62 *)
    assert (X : exists r, least_above power_of_two (Z.to_N n) r /\ (r <= 2 ^ 62)%N).
    { destruct (N.le_gt_cases (Z.to_N n) 1) as [H1|H1].
      - exists 1%N. split; [|vm_compute; discriminate]. split; [exists 0%N; reflexivity|]. split; [exact H1|]. intros r' [j ->] _.
        pose proof (N.pow_nonzero 2 j ltac:(discriminate)). lia.
      - pose proof (N.log2_up_spec (Z.to_N n) H1) as [L1 L2]. exists (2 ^ N.log2_up (Z.to_N n))%N. split.
        + split; [exists (N.log2_up (Z.to_N n)); reflexivity|]. split; [exact L2|]. intros r' [j ->] Hj. apply N.pow_le_mono_r; [discriminate|].
          apply N.log2_up_le_pow2; [lia|exact Hj].
        + apply N.pow_le_mono_r; [discriminate|]. apply N.log2_up_le_pow2; [lia|exact B62]. }
    destruct X as [r [Hr Hb]]. specialize (P r Hr). assert (2 ^ 64 <= 2 ^ 62)%N by (eapply N.le_trans; eassumption).
    revert H. apply N.lt_nge. reflexivity.
  Qed.

  Lemma pow2_cap k : 0 <= k -> 2 ^ k <= MAXCAP -> k <= 31.
  Proof. intros Hk H. change MAXCAP with (2 ^ 31) in H. apply Z.pow_le_mono_r_iff in H; lia. Qed.
  Lemma is_pow_2_pow k : 0 <= k <= 31 -> is_pow_2 64 (Z.to_N (2 ^ k)) = true.
  Proof.
    intros Hk. apply C05_is_pow_2.
    - assert (2 ^ k <= 2 ^ 31) by (apply Z.pow_le_mono_r; lia). change (2 ^ 64)%N with (Z.to_N (2 ^ 64)). lia.
    - exists (Z.to_N k). apply N2Z.inj. rewrite Z2N.id by (apply Z.pow_nonneg; lia). rewrite N2Z.inj_pow, Z2N.id by lia. reflexivity.
  Qed.
  Lemma is_pow_2_inv nc : 0 <= nc < 2 ^ 64 -> is_pow_2 64 (Z.to_N nc) = true -> exists k, 0 <= k /\ nc = 2 ^ k.
  Proof.
    intros Hn H. apply C05_is_pow_2 in H; [|change (2 ^ 64)%N with (Z.to_N (2 ^ 64)); lia]. destruct H as [j Hj].
    exists (Z.of_N j). split; [lia|]. apply (f_equal Z.of_N) in Hj. rewrite Z2N.id, N2Z.inj_pow in Hj by lia. exact Hj.
  Qed.


Section Exec.
  Context {K V : Type}.
  Variable hash : K -> Z.
  Variable dk : K. Variable dv : V.
  (** ** Invariant *)
  Definition WFm (m : @hmap K V) : Prop :=
    (exists k, 0 <= k <= 31 /\ WF hash dk dv k m) /\ 0 <= ml m <= ML_MAX /\ wm m = cap m * ml m / ONE.

  Lemma wm_lt_cap m : WFm m -> wm m < cap m.
  Proof.
    intros [[k [Hk [Hc _]]] [Hm ->]]. assert (0 < cap m) by (rewrite Hc; apply Z.pow_pos_nonneg; lia). apply Z.div_lt_upper_bound; unfold ONE, ML_MAX in *; nia.
  Qed.
  Lemma size_nonneg m : WFm m -> 0 <= size m.
  Proof. intros [[k [_ [_ [_ ->]]]] _]. lia. Qed.

  Lemma cap_bound m : WFm m -> exists k, 0 <= k <= 31 /\ cap m = 2 ^ k /\ 1 <= cap m <= MAXCAP.
  Proof.
    intros [[k [Hk [Hc _]]] _]. exists k. split; [exact Hk|]. split; [exact Hc|]. rewrite Hc. change MAXCAP with (2 ^ 31).
    split; [pose proof (Z.pow_pos_nonneg 2 k); lia|apply Z.pow_le_mono_r; lia].
  Qed.
  (** *** Re-insertion *)
  Lemma reinsert_spec ins k : 0 <= k <= 31 ->
    (forall q v m, WF hash dk dv k m -> size m < wm m -> ins q v m = insert_dup_core hash dk dv q v m) ->
    forall old m, WF hash dk dv k m -> wm m <= 2 ^ k -> size m + Z.of_nat (length (contents old)) <= wm m ->
    exists m', reinsert ins old m = Some m' /\ WF hash dk dv k m' /\ wm m' = wm m /\ ml m' = ml m /\
      Permutation (contents (tab m')) (contents old ++ contents (tab m)).
  Proof.
    intros Hk Hins. induction old as [|s old IH]; intros m HW Hwm Hsz; cbn [reinsert].
    - exists m. split; [reflexivity|]. split; [exact HW|]. auto.
    - unfold contents in *. cbn [filter] in *. destruct (occ s) eqn:O.
      + cbn [map length] in *. rewrite Hins by (exact HW || lia).
        destruct (insert_dup_core_spec hash dk dv k Hk (skey s) (sval s) m HW ltac:(lia)) as [m1 [i [E [W1 [Wm1 [Ml1 [S1 [P1 _]]]]]]]].
        rewrite E. destruct (IH m1 W1 ltac:(lia) ltac:(lia)) as [m' [E' [W' [Wm' [Ml' P']]]]].
        exists m'. split; [exact E'|]. split; [exact W'|]. split; [lia|]. split; [congruence|]. rewrite P'. unfold contents in P1. rewrite P1.
        cbn [app]. change (kv s) with (skey s, sval s). symmetry. apply Permutation_middle.
      + apply IH; assumption.
  Qed.

  (** *** Rehashing: if it returns, nothing is lost; it returns whenever its assertions hold. *)
  Lemma rehash_to_spec ins nc m k0 :
    (forall k q v m, 0 <= k <= 31 -> WF hash dk dv k m -> size m < wm m -> ins q v m = insert_dup_core hash dk dv q v m) ->
    WF hash dk dv k0 m -> 0 <= k0 <= 31 -> 0 <= nc < 2 ^ 64 -> wm m = nc * ml m / ONE -> 0 <= ml m <= ML_MAX ->
    (forall m', rehash_to dk dv ins nc m = Some m' ->
       WFm m' /\ cap m' = nc /\ size m' = size m /\ wm m' = wm m /\ ml m' = ml m /\ size m <= wm m /\ Permutation (contents (tab m')) (contents (tab m))) /\
    ((exists k, 0 <= k <= 31 /\ nc = 2 ^ k) -> size m <= wm m -> exists m', rehash_to dk dv ins nc m = Some m').
  Proof.
    intros Hins [Hc0 [HI0 Hs0]] Hk0 Hnc Hwm Hml.
    assert (Main : forall k, 0 <= k <= 31 -> nc = 2 ^ k -> size m <= wm m ->
      exists m', rehash_to dk dv ins nc m = Some m' /\ WFm m' /\ cap m' = nc /\ size m' = size m /\ wm m' = wm m /\ ml m' = ml m /\ Permutation (contents (tab m')) (contents (tab m))).
    { intros k Hk Enc Hle. unfold rehash_to. assert (EP : is_pow_2 64 (Z.to_N nc) = true) by (rewrite Enc; apply is_pow_2_pow; exact Hk). rewrite EP. cbn [negb].
      destruct (Z.ltb_spec (wm m) (size m)); [lia|].
      assert (nc <= MAXCAP) by (rewrite Enc; change MAXCAP with (2 ^ 31); apply Z.pow_le_mono_r; lia).
      destruct (Z.ltb_spec MAXCAP nc); [lia|].
      set (m0 := mkMap nc (repeat (free_slot dk dv) (Z.to_nat nc)) 0 (wm m) (ml m)).
      assert (W0 : WF hash dk dv k m0).
      { split; [exact Enc|]. cbn [tab size m0]. rewrite Enc. split; [apply inv_init; exact Hk|]. rewrite contents_init. reflexivity. }
      assert (Hwl : wm m <= nc).
      { rewrite Hwm. assert (0 < nc) by (rewrite Enc; apply Z.pow_pos_nonneg; lia). apply Z.lt_le_incl, Z.div_lt_upper_bound; unfold ONE, ML_MAX in *; nia. }
      destruct (reinsert_spec ins k Hk (fun q v m => Hins k q v m Hk) (tab m) m0 W0) as [m' [E' [W' [Wm' [Ml' P']]]]].
      - cbn [wm m0]. lia.
      - cbn [wm size m0]. lia.
      - exists m'. split; [exact E'|]. cbn [tab wm ml m0] in *. rewrite contents_init, app_nil_r in P'. pose proof W' as [Wc [_ Ws]].
        split; [split; [exists k; auto|]; split; [lia|]; rewrite Wm', Ml', Wc, <- Enc; exact Hwm|].
        split; [lia|]. split; [rewrite Ws, Hs0; f_equal; apply Permutation_length; exact P'|]. auto. }
    split.
    - intros m' E. unfold rehash_to in E. destruct (negb (is_pow_2 64 (Z.to_N nc))) eqn:E1; [discriminate|]. apply negb_false_iff in E1.
      destruct (Z.ltb_spec (wm m) (size m)) as [|Hle]; [discriminate|]. destruct (Z.ltb_spec MAXCAP nc) as [|Hcap]; [discriminate|].
      destruct (is_pow_2_inv nc Hnc E1) as [k [Hk Ek]]. assert (k <= 31) by (apply pow2_cap; [exact Hk|lia]).
      destruct (Main k ltac:(lia) Ek Hle) as [m'' [E'' R]]. unfold rehash_to in E''. rewrite E1 in E''. cbn [negb] in E''.
      destruct (Z.ltb_spec (wm m) (size m)); [lia|]. destruct (Z.ltb_spec MAXCAP nc); [lia|]. rewrite E in E''. injection E'' as ->.
      destruct R as [R1 [R2 [R3 [R4 [R5 R6]]]]]. auto 10.
    - intros [k [Hk Ek]] Hle. destruct (Main k Hk Ek Hle) as [m' [E _]]. exists m'. exact E.
  Qed.

  Definition same (m m' : @hmap K V) : Prop := size m' = size m /\ ml m' = ml m /\ Permutation (contents (tab m')) (contents (tab m)).

  Lemma need_bound m : WFm m -> size m <= MAXCAP -> 0 < ml m -> 0 <= (size m * ONE + ml m - 1) / ml m < 2 ^ 60.
  Proof.
    intros HW Hs Hm. pose proof (size_nonneg m HW). split; [apply Z.div_pos; unfold ONE; nia|]. apply Z.div_lt_upper_bound; [lia|].
    unfold ONE, MAXCAP in *. nia.
  Qed.
  Lemma size_le_cap m : WFm m -> size m <= MAXCAP.
  Proof.
    intros HW. destruct (cap_bound m HW) as [k [Hk [Ek B]]]. destruct HW as [[k' [Hk' [Hc [[L _] Hs]]]] _]. rewrite Hs.
    assert (length (contents (tab m)) <= length (tab m))%nat.
    { unfold contents. rewrite map_length. generalize (tab m). induction l as [|x l IH]; cbn; [lia|]. destruct (occ x); cbn; lia. }
    rewrite L in H. rewrite <- Hc in H. lia.
  Qed.

  Lemma resize_safe d nc m m' : WFm m -> 0 <= nc <= 2 ^ 62 -> resize_ hash dk dv d nc m = Some m' ->
    WFm m' /\ same m m' /\ nc <= cap m' /\ (m' = m \/ size m' <= wm m').
  Proof.
    intros HW Hnc E. destruct d as [|d]; [discriminate|]. cbn [resize_] in E. destruct (Z.eqb_spec (ml m) 0) as [|Hml]; [discriminate|].
    pose proof HW as [[k [Hk HWk]] [Hml' Hwm]]. pose proof (need_bound m HW (size_le_cap m HW) ltac:(lia)) as NB.
    destruct (ceil_pow2 _) as [c'|] eqn:EC; [|discriminate].
    apply ceil_pow2_spec in EC; [|lia]. destruct EC as [[k' [Hk' Ek']] [Hge Hleast]].
    destruct (Z.eqb_spec c' (cap m)) as [Ecap|Ncap].
    - injection E as <-. split; [exact HW|]. split; [split; [reflexivity|]; split; [reflexivity|reflexivity]|]. split; [lia|left; reflexivity].
    - cbn [wm size] in E. destruct (Z.ltb_spec (c' * ml m / ONE) (size m)) as [|Hw]; [discriminate|].
      set (m1 := mkMap (cap m) (tab m) (size m) (c' * ml m / ONE) (ml m)) in *.
      assert (W1 : WF hash dk dv k m1) by (destruct HWk as [A [B C]]; split; [exact A|split; [exact B|exact C]]).
      assert (Hc64 : 0 <= c' < 2 ^ 64).
      { split; [rewrite Ek'; apply Z.pow_nonneg; lia|]. assert (c' <= 2 ^ 62); [|lia]. apply Hleast; lia. }
      match type of E with rehash_to _ _ ?f _ _ = _ => set (ins := f) in E end.
      destruct (rehash_to_spec ins c' m1 k) as [S _]; try assumption; try reflexivity.
      { intros k1 q v m2 Hk1 HW2 Hlt. unfold ins. destruct (Z.leb_spec (wm m2) (size m2)); [lia|reflexivity]. }
      destruct (S m' E) as [S1 [S2 [S3 [S4 [S5 [S6 S7]]]]]]. split; [exact S1|]. split; [split; [exact S3|]; split; [exact S5|exact S7]|].
      split; [lia|]. right. rewrite S3, S4. exact S6.
  Qed.

  Lemma grow_safe m m' : WFm m -> grow hash dk dv m = Some m' -> WFm m' /\ same m m' /\ size m' < cap m'.
  Proof.
    intros HW E. unfold grow in E. destruct (Z.leb_spec (wm m) (size m)) as [H|H].
    - destruct (cap_bound m HW) as [k [Hk [Ek B]]]. pose proof E as E0. apply resize_safe in E; [|exact HW|unfold MAXCAP in B; lia].
      destruct E as [W [S [Hc D]]]. split; [exact W|]. split; [exact S|]. destruct D as [->|D]; [lia|]. pose proof (wm_lt_cap m' W). lia.
    - injection E as <-. split; [exact HW|]. split; [split; [reflexivity|]; split; reflexivity|]. pose proof (wm_lt_cap m HW). lia.
  Qed.
End Exec.

Section Refinement.
  Context {K V : Type}.
  Variable hash : K -> Z.
  Variable eqb : K -> K -> bool.
  Variable dk : K. Variable dv : V.
  Hypothesis KL : key_laws hash eqb.
  Notation WFm := (@WFm K V hash dk dv).
  Notation step := (@step K V hash eqb dk dv).
  Notation run := (@run K V hash eqb dk dv).

  Lemma member_perm q (l l' : list (K * V)) : Permutation l l' -> member eqb q l = member eqb q l'.
  Proof.
    intros P. unfold member. apply eq_true_iff_eq. rewrite !existsb_exists. split; intros [x [Hx Ex]]; exists x; split; auto.
    - eapply Permutation_in; [exact P|exact Hx].
    - eapply Permutation_in; [symmetry; exact P|exact Hx].
  Qed.
  Lemma spec_step_perm (l l' : list (K * V)) (o : @op K V) : Permutation l l' -> Permutation (spec_step eqb l o) (spec_step eqb l' o).
  Proof.
    intros P. destruct o; cbn [spec_step]; try exact P.
    - constructor. exact P.
    - rewrite (member_perm q l l' P). destruct (member eqb q l'); [exact P|constructor; exact P].
  Qed.
  Definition arg_ok (o : @op K V) : Prop := match o with Resize n => 0 <= n <= 2 ^ 31 | _ => True end.

  (** Steps that return (do not fail an assertion) refine the specification, for any load factors. *)
  Lemma step_safe m o m' : WFm m -> arg_ok o -> step m o = Some m' -> WFm m' /\ Permutation (contents (tab m')) (spec_step eqb (contents (tab m)) o).
  Proof.
    destruct KL as [K1 [K2 [K3 K4]]]. intros HW HA E. destruct o as [q v|q v| |n| |x]; cbn [RCHashProps.step spec_step] in *.
    - unfold insert_with_duplicates in E. destruct (grow hash dk dv m) as [m1|] eqn:G; [|discriminate].
      destruct (grow_safe hash dk dv m m1 HW G) as [W1 [[S1 [S2 S3]] L1]]. pose proof W1 as [[k [Hk HWk]] [Hml Hwm]]. pose proof HWk as [Hc _].
      destruct (insert_dup_core_spec hash dk dv k Hk q v m1 HWk ltac:(lia)) as [m2 [i [E2 [W2 [Wm2 [Ml2 [Sz2 [P2 _]]]]]]]].
      rewrite E2 in E. injection E as <-. split.
      + split; [exists k; auto|]. rewrite Ml2, Wm2. split; [exact Hml|]. destruct W2 as [Hc2 _]. rewrite Hc2, <- Hc. exact Hwm.
      + rewrite P2. constructor. exact S3.
    - destruct (grow hash dk dv m) as [m1|] eqn:G; [|unfold insert_without_duplicates in E; rewrite G in E; discriminate].
      destruct (grow_safe hash dk dv m m1 HW G) as [W1 [[S1 [S2 S3]] L1]]. pose proof W1 as [[k [Hk HWk]] [Hml Hwm]]. pose proof HWk as [Hc _].
      destruct (insert_nodup_core_spec hash dk dv k Hk eqb K1 K2 K3 K4 q v m1 HWk ltac:(lia) m G) as [m2 [i [ins [E2 [W2 [Wm2 [Ml2 [Hi [_ [_ [_ R]]]]]]]]]]].
      rewrite E2 in E. cbn [option_map fst] in E. injection E as <-. split.
      + split; [exists k; auto|]. rewrite Ml2, Wm2. split; [exact Hml|]. destruct W2 as [Hc2 _]. rewrite Hc2, <- Hc. exact Hwm.
      + change (has eqb q) with (member (V := V) eqb q) in Hi. rewrite (member_perm q _ _ S3) in Hi.
        destruct (member eqb q (contents (tab m))); cbn [negb] in Hi; subst ins.
        * rewrite R. exact S3.
        * destruct R as [R _]. rewrite R. constructor. exact S3.
    - unfold rehash in E. pose proof HW as [[k [Hk HWk]] [Hml Hwm]]. destruct (cap_bound hash dk dv m HW) as [k' [Hk' [Ek' B]]].
      destruct (rehash_to_spec hash dk dv (insert_with_duplicates hash dk dv) (cap m) m k) as [S _]; try assumption.
      { intros k1 q v m2 Hk1 HW2 Hlt. unfold insert_with_duplicates, grow. destruct (Z.leb_spec (wm m2) (size m2)); [lia|reflexivity]. }
      { unfold MAXCAP in B. lia. }
      destruct (S m' E) as [S1 [S2 [S3 [S4 [S5 [S6 S7]]]]]]. auto.
    - apply (resize_safe hash dk dv) in E; [|exact HW|cbn in HA; lia]. destruct E as [W [[_ [_ P]] _]]. auto.
    - unfold shrink_to_fit in E. apply (resize_safe hash dk dv) in E; [|exact HW|].
      + destruct E as [W [[_ [_ P]] _]]. auto.
      + pose proof (size_nonneg hash dk dv m HW). pose proof (size_le_cap hash dk dv m HW). unfold MAXCAP in *. lia.
    - injection E as <-. destruct HW as [[k [Hk HWk]] [Hml Hwm]]. split; [|reflexivity]. unfold set_max_load_factor. split; [exists k; split; [exact Hk|exact HWk]|].
      cbn [ml wm cap]. split; [unfold ML_MAX; lia|]. rewrite Z.mul_comm. reflexivity.
  Qed.
  Lemma run_safe ops : forall m m', WFm m -> Forall arg_ok ops -> run m ops = Some m' ->
    WFm m' /\ Permutation (contents (tab m')) (fold_left (spec_step eqb) ops (contents (tab m))).
  Proof.
    induction ops as [|o ops IH]; intros m m' HW HA E; cbn [RCHashProps.run fold_left] in *.
    - injection E as <-. auto.
    - destruct (step m o) as [m1|] eqn:E1; [|discriminate]. inversion HA as [|? ? A1 A2]; subst.
      destruct (step_safe m o m1 HW A1 E1) as [W1 P1]. destruct (IH m1 m' W1 A2 E) as [W' P']. split; [exact W'|]. rewrite P'.
      assert (G : forall l l', Permutation l l' -> Permutation (fold_left (spec_step eqb) ops l) (fold_left (spec_step eqb) ops l')).
      { clear. induction ops as [|o ops IH]; intros l l' P; [exact P|]. cbn [fold_left]. apply IH. apply spec_step_perm. exact P. }
      apply G. exact P1.
  Qed.
  Lemma create_spec n m : 0 < n <= 2 ^ 31 -> create dk dv n = Some m -> WFm m /\ contents (tab m) = [] /\ ml m = ML_DEFAULT /\ size m <= wm m.
  Proof.
    intros Hn E. unfold create in E. destruct (Z.eqb_spec n 0); [lia|]. destruct (ceil_pow2 n) as [c|] eqn:EC; [|discriminate].
    apply ceil_pow2_spec in EC; [|clear - Hn; lia]. destruct EC as [[k [Hk Ek]] [Hge Hle]]. destruct (Z.ltb_spec MAXCAP c) as [|Hc]; [discriminate|].
    injection E as <-. subst c. assert (k <= 31) by (apply pow2_cap; lia). split; [|split; [apply contents_init|split; [reflexivity|cbn [size wm]; apply Z.div_pos; unfold ML_DEFAULT, ONE; lia]]].
    split; [exists k; split; [lia|]|].
    - split; [reflexivity|]. cbn [tab size]. split; [apply inv_init; lia|]. rewrite contents_init. reflexivity.
    - cbn [ml wm cap]. split; [unfold ML_DEFAULT, ML_MAX; lia|reflexivity].
  Qed.
  Lemma create_some n : 0 < n <= 2 ^ 31 -> exists m, create dk dv n = Some m.
  Proof.
    intros Hn. unfold create. destruct (Z.eqb_spec n 0); [lia|]. destruct (ceil_pow2_some n) as [c EC]; [lia|]. rewrite EC.
    apply ceil_pow2_spec in EC; [|clear - Hn; lia]. destruct EC as [_ [_ Hle]]. specialize (Hle 31 ltac:(lia) ltac:(lia)). destruct (Z.ltb_spec MAXCAP c); [unfold MAXCAP in *; lia|].
    eexists. reflexivity.
  Qed.

  (** ** Progress with the default load factor *)
  Definition Good (m : @hmap K V) : Prop := WFm m /\ ml m = ML_DEFAULT /\ size m <= wm m.
  Lemma resize_progress d n m : Good m -> 0 <= n <= MAXCAP -> exists m', resize_ hash dk dv (S d) n m = Some m' /\ Good m' /\ size m' = size m /\ wm m' = cap m' * ML_DEFAULT / ONE /\ n <= cap m'.
  Proof.
    intros [HW [Hml Hsz]] Hn. pose proof HW as [[k [Hk HWk]] [Hml' Hwm]]. destruct (cap_bound hash dk dv m HW) as [k0 [Hk0 [Ek0 B]]].
    assert (S : exists m', resize_ hash dk dv (S d) n m = Some m').
    { cbn [resize_]. rewrite Hml. destruct (Z.eqb_spec ML_DEFAULT 0); [discriminate|].
      pose proof (size_nonneg hash dk dv m HW) as Hs0. rewrite Hwm, Hml in Hsz. set (need := (size m * ONE + ML_DEFAULT - 1) / ML_DEFAULT).
      assert (Hneed : 0 <= need <= cap m) by (unfold need, ML_DEFAULT, ONE in *; lia).
      destruct (ceil_pow2_some (Z.max n need)) as [c EC]; [unfold MAXCAP in *; lia|]. rewrite EC.
      apply ceil_pow2_spec in EC; [|unfold MAXCAP in *; lia]. destruct EC as [[k' [Hk' Ek']] [Hge Hleast]].
      destruct (Z.eqb_spec c (cap m)); [eexists; reflexivity|].
      assert (Hcm : c <= 2 ^ 31) by (apply Hleast; [discriminate|change (2 ^ 31) with MAXCAP; clearbody need; clear - Hneed Hn B; lia]).
      assert (k' <= 31) by (apply pow2_cap; [exact Hk'|rewrite <- Ek'; exact Hcm]).
      cbn [wm size]. assert (Hw : size m <= c * ML_DEFAULT / ONE) by (unfold need, ML_DEFAULT, ONE in *; lia).
      destruct (Z.ltb_spec (c * ML_DEFAULT / ONE) (size m)); [lia|].
      match goal with |- exists m', rehash_to _ _ ?f _ _ = _ => set (ins := f) end.
      destruct (rehash_to_spec hash dk dv ins c (mkMap (cap m) (tab m) (size m) (c * ML_DEFAULT / ONE) ML_DEFAULT) k) as [_ S]; try reflexivity.
      { intros k1 q v m2 Hk1 HW2 Hlt. unfold ins. destruct (Z.leb_spec (wm m2) (size m2)); [lia|reflexivity]. }
      { destruct HWk as [X [Y Z0]]; split; [exact X|split; [exact Y|exact Z0]]. }
      { exact Hk. } { split; [rewrite Ek'; apply Z.pow_nonneg; discriminate|eapply Z.le_lt_trans; [exact Hcm|reflexivity]]. } { unfold ML_DEFAULT, ML_MAX. cbn [ml]. lia. }
      apply S; [exists k'; split; [lia|exact Ek']|exact Hw]. }
    destruct S as [m' E]. exists m'. split; [exact E|]. apply resize_safe in E; [|exact HW|unfold MAXCAP in *; lia].
    destruct E as [W [[S1 [S2 S3]] [Hc D]]]. pose proof W as [_ [_ Hwm']]. split; [|rewrite Hwm', S2, Hml; auto].
    split; [exact W|]. split; [congruence|]. destruct D as [->|D]; [exact Hsz|exact D].
  Qed.
  Lemma grow_progress m : Good m -> size m < 2 ^ 30 -> exists m', grow hash dk dv m = Some m' /\ Good m' /\ size m' = size m /\ size m' < wm m'.
  Proof.
    intros G Hs. pose proof G as [HW [Hml Hsz]]. unfold grow. destruct (Z.leb_spec (wm m) (size m)) as [H|H].
    - pose proof HW as [_ [_ Hwm]]. rewrite Hml in Hwm. destruct (cap_bound hash dk dv m HW) as [k [Hk [Ek B]]].
      assert (Hk30 : k <= 30).
      { destruct (Z.eq_dec k 31) as [->|]; [|lia]. rewrite Ek in Hwm. assert (E31 : wm m = 1825361152) by (rewrite Hwm; reflexivity). change (2 ^ 30) with 1073741824 in Hs. lia. }
      assert (2 * cap m <= MAXCAP).
      { rewrite Ek. change MAXCAP with (2 * 2 ^ 30). assert (2 ^ k <= 2 ^ 30) by (apply Z.pow_le_mono_r; lia). lia. }
      destruct (resize_progress 2 (2 * cap m) m G ltac:(lia)) as [m' [E [G' [S' [W' C']]]]]. exists m'. split; [exact E|]. split; [exact G'|]. split; [exact S'|].
      rewrite W', S'. unfold ML_DEFAULT, ONE in *. lia.
    - exists m. auto.
  Qed.
  Definition default_load (o : @op K V) : Prop := match o with MaxLoad _ => False | _ => True end.
  Lemma step_progress m o : Good m -> size m < 2 ^ 30 -> arg_ok o -> default_load o ->
    exists m', step m o = Some m' /\ Good m' /\ size m' <= size m + 1.
  Proof.
    destruct KL as [K1 [K2 [K3 K4]]]. intros G Hs HA HD. destruct o as [q v|q v| |n| |x]; cbn [RCHashProps.step]; try contradiction.
    - unfold insert_with_duplicates. destruct (grow_progress m G Hs) as [m1 [E1 [G1 [S1 L1]]]]. rewrite E1.
      pose proof G1 as [W1 [Ml1 Sz1]]. pose proof (wm_lt_cap hash dk dv m1 W1). pose proof W1 as [[k [Hk HWk]] [Hml Hwm]]. pose proof HWk as [Hc _].
      destruct (insert_dup_core_spec hash dk dv k Hk q v m1 HWk ltac:(lia)) as [m2 [i [E2 [W2 [Wm2 [Ml2 [Sz2 [P2 _]]]]]]]]. rewrite E2.
      exists m2. split; [reflexivity|]. split; [|lia]. split; [|split; [congruence|lia]].
      split; [exists k; auto|]. rewrite Ml2, Wm2. split; [exact Hml|]. destruct W2 as [Hc2 _]. rewrite Hc2, <- Hc. exact Hwm.
    - destruct (grow_progress m G Hs) as [m1 [E1 [G1 [S1 L1]]]].
      pose proof G1 as [W1 [Ml1 Sz1]]. pose proof (wm_lt_cap hash dk dv m1 W1). pose proof W1 as [[k [Hk HWk]] [Hml Hwm]]. pose proof HWk as [Hc _].
      destruct (insert_nodup_core_spec hash dk dv k Hk eqb K1 K2 K3 K4 q v m1 HWk ltac:(lia) m E1) as [m2 [i [ins [E2 [W2 [Wm2 [Ml2 [Hi [_ [_ [_ R]]]]]]]]]]].
      rewrite E2. exists m2. split; [reflexivity|].
      assert (Sz : size m2 = size m1 \/ size m2 = size m1 + 1) by (destruct ins; [right; apply R|left; congruence]).
      split; [|lia]. split; [|split; [congruence|lia]]. split; [exists k; auto|]. rewrite Ml2, Wm2. split; [exact Hml|]. destruct W2 as [Hc2 _]. rewrite Hc2, <- Hc. exact Hwm.
    - unfold rehash. pose proof G as [HW [Hml Hsz]]. pose proof HW as [[k [Hk HWk]] [Hml' Hwm]]. destruct (cap_bound hash dk dv m HW) as [k' [Hk' [Ek' B]]].
      destruct (rehash_to_spec hash dk dv (insert_with_duplicates hash dk dv) (cap m) m k) as [S P]; try assumption.
      { intros k1 q v m2 Hk1 HW2 Hlt. unfold insert_with_duplicates, grow. destruct (Z.leb_spec (wm m2) (size m2)); [lia|reflexivity]. }
      { unfold MAXCAP in B. lia. }
      destruct P as [m' E]; [exists k'; auto|exact Hsz|]. exists m'. split; [exact E|]. destruct (S m' E) as [S1 [S2 [S3 [S4 [S5 [S6 S7]]]]]].
      split; [|lia]. split; [exact S1|]. split; [congruence|lia].
    - destruct (resize_progress 2 n m G) as [m' [E [G' [S' _]]]]; [cbn in HA; unfold MAXCAP; lia|]. exists m'. split; [exact E|]. split; [exact G'|lia].
    - unfold shrink_to_fit. pose proof G as [HW _]. pose proof (size_nonneg hash dk dv m HW). pose proof (size_le_cap hash dk dv m HW).
      destruct (resize_progress 2 (size m) m G) as [m' [E [G' [S' _]]]]; [lia|]. exists m'. split; [exact E|]. split; [exact G'|lia].
  Qed.
  Lemma run_progress ops : forall m, Good m -> size m + Z.of_nat (length ops) <= 2 ^ 30 -> Forall arg_ok ops -> Forall default_load ops -> exists m', run m ops = Some m' /\ Good m'.
  Proof.
    induction ops as [|o ops IH]; intros m G Hs HA HD; cbn [RCHashProps.run].
    - exists m. auto.
    - inversion HA as [|? ? A1 A2]; subst. inversion HD as [|? ? D1 D2]; subst. cbn [length] in Hs.
      destruct (step_progress m o G ltac:(lia) A1 D1) as [m1 [E1 [G1 S1]]]. rewrite E1. apply IH; try assumption. lia.
  Qed.
End Refinement.

(** ** C18 *)
(** With the default load factor every history of insertions, rehashes, resizes and shrinks runs to completion (fewer than 2^30
    operations) and the map then holds exactly the inserted entries. *)
Theorem C18_history : forall (K V : Type) (hash : K -> Z) (eqb : K -> K -> bool) (dk : K) (dv : V) (n : Z) (ops : list (@op K V)),
  key_laws hash eqb -> 0 < n <= 2 ^ 31 -> Z.of_nat (length ops) <= 2 ^ 30 -> Forall arg_ok ops -> Forall default_load ops ->
  exists m0 m, create dk dv n = Some m0 /\ run hash eqb dk dv m0 ops = Some m /\
    Permutation (contents (tab m)) (spec_run eqb ops) /\ size m = Z.of_nat (length (spec_run eqb ops)).
Proof.
  intros K V hash eqb dk dv n ops KL Hn Hl HA HD. destruct (create_some dk dv n Hn) as [m0 E0]. destruct (create_spec hash dk dv n m0 Hn E0) as [W0 [C0 [M0 S0]]].
  assert (Z0 : size m0 = 0). { destruct W0 as [[k [_ [_ [_ ->]]]] _]. rewrite C0. reflexivity. }
  destruct (run_progress hash eqb dk dv KL ops m0) as [m [E G]]; try assumption; [split; auto|lia|].
  exists m0, m. split; [exact E0|]. split; [exact E|]. destruct (run_safe hash eqb dk dv KL ops m0 m W0 HA E) as [W P]. rewrite C0 in P.
  split; [exact P|]. destruct W as [[k [_ [_ [_ ->]]]] _]. f_equal. apply Permutation_length. exact P.
Qed.
Print Assumptions C18_history.

(** With arbitrary load factors the same holds of every history that does not fail an assertion. *)
Theorem C18_history_any_load : forall (K V : Type) (hash : K -> Z) (eqb : K -> K -> bool) (dk : K) (dv : V) (n : Z) (ops : list (@op K V)) m0 m,
  key_laws hash eqb -> 0 < n <= 2 ^ 31 -> Forall arg_ok ops -> create dk dv n = Some m0 -> run hash eqb dk dv m0 ops = Some m ->
  Permutation (contents (tab m)) (spec_run eqb ops) /\ size m = Z.of_nat (length (spec_run eqb ops)).
Proof.
  intros K V hash eqb dk dv n ops m0 m KL Hn HA E0 E. destruct (create_spec hash dk dv n m0 Hn E0) as [W0 [C0 _]].
  destruct (run_safe hash eqb dk dv KL ops m0 m W0 HA E) as [W P]. rewrite C0 in P. split; [exact P|].
  destruct W as [[k [_ [_ [_ ->]]]] _]. f_equal. apply Permutation_length. exact P.
Qed.
Print Assumptions C18_history_any_load.

(** Look-ups after any history: [find] returns an entry with the key iff one was inserted; [for_all] visits exactly the inserted
    entries of the key, [count] is their number. *)
Theorem C18_lookup : forall (K V : Type) (hash : K -> Z) (eqb : K -> K -> bool) (dk : K) (dv : V) (n : Z) (ops : list (@op K V)) m0 m q,
  key_laws hash eqb -> 0 < n <= 2 ^ 31 -> Forall arg_ok ops -> create dk dv n = Some m0 -> run hash eqb dk dv m0 ops = Some m ->
  match find hash eqb dk dv q m with
  | Some i => 0 <= i < cap m /\ In (kv (get dk dv (tab m) i)) (spec_run eqb ops) /\ eqb q (fst (kv (get dk dv (tab m) i))) = true
  | None => member eqb q (spec_run eqb ops) = false
  end /\
  Permutation (for_all hash eqb dk dv q m) (occurrences eqb q (spec_run eqb ops)) /\
  count hash eqb dk dv q m = length (occurrences eqb q (spec_run eqb ops)).
Proof.
  intros K V hash eqb dk dv n ops m0 m q KL Hn HA E0 E. destruct (create_spec hash dk dv n m0 Hn E0) as [W0 [C0 _]].
  destruct (run_safe hash eqb dk dv KL ops m0 m W0 HA E) as [W P]. rewrite C0 in P. change (fold_left (spec_step eqb) ops []) with (spec_run eqb ops) in P.
  destruct W as [[k [Hk HWk]] _]. pose proof KL as [K1 [K2 [K3 K4]]]. 
  assert (PF : Permutation (for_all hash eqb dk dv q m) (occurrences eqb q (spec_run eqb ops))).
  { rewrite (for_all_spec hash dk dv k Hk eqb K1 K2 K3 K4 q m HWk). unfold occurrences.
    assert (G : forall l l' : list (K * V), Permutation l l' -> Permutation (filter (fun x => eqb q (fst x)) l) (filter (fun x => eqb q (fst x)) l')).
    { induction 1; cbn [filter]; try reflexivity.
      - destruct (eqb q (fst x)); [constructor|]; assumption.
      - destruct (eqb q (fst x)), (eqb q (fst y)); try reflexivity. apply perm_swap.
      - etransitivity; eassumption. }
    apply G. exact P. }
  split; [|split; [exact PF|unfold count; apply Permutation_length; exact PF]].
  pose proof (find_spec hash dk dv k Hk eqb K1 K2 K3 K4 q m HWk) as F. destruct (find hash eqb dk dv q m) as [i|].
  - destruct F as [F1 [F2 F3]]. destruct HWk as [Hc _]. split; [lia|]. split; [eapply Permutation_in; [exact P|exact F2]|exact F3].
  - change (has eqb q) with (member (V := V) eqb q) in F. rewrite (member_perm eqb q _ _ P) in F. exact F.
Qed.
Print Assumptions C18_lookup.

(** What the insertions return: the position of the new entry, or, without duplicates, of the entry already there. *)
Theorem C18_insert_result : forall (K V : Type) (hash : K -> Z) (eqb : K -> K -> bool) (dk : K) (dv : V) (n : Z) (ops : list (@op K V)) m0 m q v,
  key_laws hash eqb -> 0 < n <= 2 ^ 31 -> Forall arg_ok ops -> create dk dv n = Some m0 -> run hash eqb dk dv m0 ops = Some m ->
  (forall m' i, insert_with_duplicates hash dk dv q v m = Some (m', i) -> kv (get dk dv (tab m') i) = (q, v)) /\
  (forall m' i ins, insert_without_duplicates hash eqb dk dv q v m = Some (m', i, ins) ->
     ins = negb (member eqb q (spec_run eqb ops)) /\ eqb q (fst (kv (get dk dv (tab m') i))) = true /\
     (ins = true -> kv (get dk dv (tab m') i) = (q, v)) /\ (ins = false -> In (kv (get dk dv (tab m') i)) (spec_run eqb ops))).
Proof.
  intros K V hash eqb dk dv n ops m0 m q v KL Hn HA E0 E. destruct (create_spec hash dk dv n m0 Hn E0) as [W0 [C0 _]].
  destruct (run_safe hash eqb dk dv KL ops m0 m W0 HA E) as [W P]. rewrite C0 in P. change (fold_left (spec_step eqb) ops []) with (spec_run eqb ops) in P.
  pose proof KL as [K1 [K2 [K3 K4]]]. split.
  - intros m' i H. unfold insert_with_duplicates in H. destruct (grow hash dk dv m) as [m1|] eqn:G; [|discriminate].
    destruct (grow_safe hash dk dv m m1 W G) as [W1 [_ L1]]. pose proof W1 as [[k [Hk HWk]] _]. pose proof HWk as [Hc _].
    destruct (insert_dup_core_spec hash dk dv k Hk q v m1 HWk ltac:(lia)) as [m2 [j [E2 [_ [_ [_ [_ [_ [_ [R _]]]]]]]]]]. rewrite E2 in H. injection H as <- <-. exact R.
  - intros m' i ins H. destruct (grow hash dk dv m) as [m1|] eqn:G; [|unfold insert_without_duplicates in H; rewrite G in H; discriminate].
    destruct (grow_safe hash dk dv m m1 W G) as [W1 [[_ [_ S3]] L1]]. pose proof W1 as [[k [Hk HWk]] _]. pose proof HWk as [Hc [HI _]].
    destruct (insert_nodup_core_spec hash dk dv k Hk eqb K1 K2 K3 K4 q v m1 HWk ltac:(lia) m G) as [m2 [j [ins2 [E2 [W2 [_ [_ [Hi [Hj [Hp [Hq R]]]]]]]]]]].
    rewrite E2 in H. injection H as <- <- <-. change (has eqb q) with (member (V := V) eqb q) in Hi.
    assert (Pm : Permutation (contents (tab m1)) (spec_run eqb ops)) by (rewrite S3; exact P).
    rewrite (member_perm eqb q _ _ Pm) in Hi. split; [exact Hi|]. split; [exact Hq|]. split.
    + intros ->. apply R.
    + intros ->. subst m2. eapply Permutation_in; [exact Pm|]. destruct HI as [L _]. apply (in_contents hash dk dv k Hk eqb K1 K2 K3 K4 _ _ L). exists j. split; [exact Hj|]. split; [lia|reflexivity].
Qed.
Print Assumptions C18_insert_result.

(** Finding: lowering the load factor and then rehashing fails [rehash]'s own assertion ... *)
Theorem C18_rehash_refuted : exists m0, create 0 0 4 = Some m0 /\
  run (fun q => q) Z.eqb 0 0 m0 [InsertDup 1 1; InsertDup 2 2; MaxLoad 4194304; Rehash] = None /\
  exists m, run (fun q => q) Z.eqb 0 0 m0 [InsertDup 1 1; InsertDup 2 2; MaxLoad 4194304] = Some m.
Proof. eexists. split; [reflexivity|]. split; [vm_compute; reflexivity|]. eexists. vm_compute. reflexivity. Qed.
Print Assumptions C18_rehash_refuted.
(** ... and with load factor zero, which [max_load_factor] accepts, the next insertion divides by zero. *)
Theorem C18_zero_load_refuted : exists m0, create 0 0 4 = Some m0 /\ run (fun q => q) Z.eqb 0 0 m0 [MaxLoad 0; InsertDup 1 1] = None.
Proof. eexists. split; [reflexivity|]. vm_compute. reflexivity. Qed.
Print Assumptions C18_zero_load_refuted.

(** ** C19: iteration *)
Section Iteration.
  Context {K V : Type}.
  Variable dk : K. Variable dv : V.
  Notation get := (@get K V dk dv).
  Lemma seq_cons i n : (i < n)%nat -> seq i (n - i) = i :: seq (S i) (n - S i).
  Proof. intros H. replace (n - i)%nat with (S (n - S i)) by lia. reflexivity. Qed.
  Lemma next_slot_spec t c fuel : forall i, 0 <= i < c -> (Z.to_nat (c - i) <= fuel)%nat ->
    let j := next_slot dk dv fuel t c i in
    i < j <= c /\ (j < c -> pl (get t j) <> 0) /\ (forall x, i < x < j -> pl (get t x) = 0).
  Proof.
    induction fuel as [|f IH]; intros i Hi Hf; [lia|]. cbn [next_slot]. destruct (Z.eqb_spec (i + 1) c) as [E|N]; cbn [negb andb].
    - split; [lia|]. split; intros; lia.
    - destruct (Z.eqb_spec (pl (get t (i + 1))) 0) as [E0|N0].
      + destruct (IH (i + 1) ltac:(lia) ltac:(lia)) as [A [B C]]. split; [lia|]. split; [exact B|]. intros x Hx. destruct (Z.eq_dec x (i + 1)) as [->|]; [exact E0|apply C; lia].
      + split; [lia|]. split; [intros _; exact N0|]. intros; lia.
  Qed.
  Definition occupied_from (t : list (@slot K V)) (c i : Z) : list Z :=
    filter (fun j => negb (pl (get t j) =? 0)) (map Z.of_nat (seq (Z.to_nat i) (Z.to_nat c - Z.to_nat i))).
  Lemma occupied_step t c i : 0 <= i < c -> occupied_from t c i = (if pl (get t i) =? 0 then [] else [i]) ++ occupied_from t c (i + 1).
  Proof.
    intros H. unfold occupied_from. rewrite (seq_cons (Z.to_nat i) (Z.to_nat c)) by lia. cbn [map filter]. rewrite Z2Nat.id by lia.
    replace (Z.to_nat (i + 1)) with (S (Z.to_nat i)) by lia. destruct (pl (get t i) =? 0); reflexivity.
  Qed.
  Lemma occupied_skip t c j : forall n i, Z.to_nat (j - i) = n -> 0 <= i <= j -> j <= c -> (forall x, i <= x < j -> pl (get t x) = 0) -> occupied_from t c i = occupied_from t c j.
  Proof.
    induction n as [|n IH]; intros i En Hi Hj H.
    - replace j with i by lia. reflexivity.
    - rewrite occupied_step by lia. rewrite (H i) by lia. cbn [Z.eqb app]. apply IH; try lia. intros x Hx. apply H. lia.
  Qed.
  Lemma iterate_from_spec t c : forall fuel i, 0 <= i <= c -> (Z.to_nat (c - i) < fuel)%nat ->
    iterate_from dk dv fuel t c i = if i =? c then [] else i :: occupied_from t c (i + 1).
  Proof.
    induction fuel as [|f IH]; intros i Hi Hf; [lia|]. cbn [iterate_from]. destruct (Z.eqb_spec i c) as [E|N]; [reflexivity|]. f_equal.
    destruct (next_slot_spec t c (S (Z.to_nat c)) i ltac:(lia) ltac:(lia)) as [A [B C]]. set (j := next_slot _ _ _ _ _ _) in *. clearbody j.
    rewrite (occupied_skip t c j (Z.to_nat (j - (i + 1))) (i + 1)) by (try lia; intros; apply C; lia).
    rewrite IH by lia. destruct (Z.eqb_spec j c) as [->|Nj].
    - unfold occupied_from. rewrite Nat.sub_diag. reflexivity.
    - rewrite (occupied_step t c j) by lia. destruct (Z.eqb_spec (pl (get t j)) 0) as [X|X]; [exfalso; apply B; [lia|exact X]|reflexivity].
  Qed.
End Iteration.

(** Iterating visits slot 0 — even if it is free — and then every occupied slot; so exactly the entries, each once, if slot 0 is
    occupied, and one entry that was never inserted (the value-initialised pair) otherwise. *)
Theorem C19_iterate : forall (K V : Type) (hash : K -> Z) (eqb : K -> K -> bool) (dk : K) (dv : V) (n : Z) (ops : list (@op K V)) m0 m,
  key_laws hash eqb -> 0 < n <= 2 ^ 31 -> Forall arg_ok ops -> create dk dv n = Some m0 -> run hash eqb dk dv m0 ops = Some m ->
  Permutation (iterate dk dv m)
    ((if pl (get dk dv (tab m) 0) =? 0 then [kv (get dk dv (tab m) 0)] else []) ++ spec_run eqb ops).
Proof.
  intros K V hash eqb dk dv n ops m0 m KL Hn HA E0 E. destruct (create_spec hash dk dv n m0 Hn E0) as [W0 [C0 _]].
  destruct (run_safe hash eqb dk dv KL ops m0 m W0 HA E) as [W P]. rewrite C0 in P. change (fold_left (spec_step eqb) ops []) with (spec_run eqb ops) in P.
  pose proof KL as [K1 [K2 [K3 K4]]]. destruct W as [[k [Hk [Hc [[L _] _]]]] _]. assert (Hp : 0 < cap m) by (rewrite Hc; apply Z.pow_pos_nonneg; lia).
  unfold iterate. rewrite iterate_from_spec by lia. destruct (Z.eqb_spec 0 (cap m)); [lia|].
  assert (EC : contents (tab m) = map (fun i => kv (get dk dv (tab m) i)) (occupied_from dk dv (tab m) (cap m) 0)).
  { unfold contents. rewrite (tab_as_map hash dk dv k Hk eqb K1 K2 K3 K4 (tab m) L) at 1. unfold occupied_from. change (Z.to_nat 0) with O. rewrite Nat.sub_0_r, Hc.
    rewrite <- (map_map Z.of_nat (fun i => get dk dv (tab m) i)). rewrite filter_map_swap, map_map. reflexivity. }
  rewrite (occupied_step dk dv (tab m) (cap m) 0) in EC by lia. rewrite map_app in EC. cbn [map].
  destruct (pl (get dk dv (tab m) 0) =? 0); cbn [map app] in *.
  - constructor. rewrite <- P, EC. reflexivity.
  - rewrite <- P, EC. reflexivity.
Qed.
Print Assumptions C19_iterate.

(** Hence iteration is right iff the first slot is in use. *)
Theorem C19_exact : forall (K V : Type) (hash : K -> Z) (eqb : K -> K -> bool) (dk : K) (dv : V) (n : Z) (ops : list (@op K V)) m0 m,
  key_laws hash eqb -> 0 < n <= 2 ^ 31 -> Forall arg_ok ops -> create dk dv n = Some m0 -> run hash eqb dk dv m0 ops = Some m ->
  (Permutation (iterate dk dv m) (spec_run eqb ops) <-> pl (get dk dv (tab m) 0) <> 0).
Proof.
  intros K V hash eqb dk dv n ops m0 m KL Hn HA E0 E. pose proof (C19_iterate K V hash eqb dk dv n ops m0 m KL Hn HA E0 E) as P.
  destruct (Z.eqb_spec (pl (get dk dv (tab m) 0)) 0) as [Q|Q]; [|tauto]. split; [|contradiction].
  intros P'. rewrite P in P'. apply Permutation_length in P'. cbn [app length] in P'. lia.
Qed.
Print Assumptions C19_exact.

(** Finding: an empty map is not empty when iterated. *)
Theorem C19_empty_refuted : exists m, create 0 0 4 = Some m /\ size m = 0 /\ iterate 0 0 m = [(0, 0)].
Proof. eexists. split; [reflexivity|]. split; vm_compute; reflexivity. Qed.
Print Assumptions C19_empty_refuted.
(** Finding: with one inserted entry that is not in slot 0, iteration yields two. *)
Theorem C19_extra_refuted : exists m0 m, create 0 0 4 = Some m0 /\ run (fun q => q) Z.eqb 0 0 m0 [InsertDup 5 7] = Some m /\ iterate 0 0 m = [(0, 0); (5, 7)].
Proof. eexists _, _. split; [reflexivity|]. split; vm_compute; reflexivity. Qed.
Print Assumptions C19_extra_refuted.

(** Non-vacuity: colliding hashes, duplicates, growth, shrinking. *)
Example C18_nonvacuous : key_laws (fun q => q / 2) Z.eqb /\ exists m0 m, create 0 0 1 = Some m0 /\
  run (fun q => q / 2) Z.eqb 0 0 m0 [InsertDup 1 10; InsertDup 1 11; InsertDup 0 12; InsertNoDup 1 13; InsertNoDup 2 14; Resize 64; InsertDup 3 15; Shrink; Rehash] = Some m /\
  count (fun q => q / 2) Z.eqb 0 0 1 m = 2%nat /\ size m = 5 /\ find (fun q => q / 2) Z.eqb 0 0 2 m <> None /\ find (fun q => q / 2) Z.eqb 0 0 4 m = None.
Proof.
  split.
  - split; [intros; apply Z.eqb_refl|]. split; [intros a b H; apply Z.eqb_eq in H; subst; apply Z.eqb_refl|].
    split; [intros a b d H1 H2; apply Z.eqb_eq in H1, H2; subst; apply Z.eqb_refl|]. intros a b H. apply Z.eqb_eq in H. subst. reflexivity.
  - eexists _, _. split; [reflexivity|]. split; [vm_compute; reflexivity|]. vm_compute. repeat split; discriminate.
Qed.
