(** * Property theorems C01-C04: small bit sets and subset enumeration.

    Specification vocabulary: the set denoted by a word [s] is [{ i | N.testbit s i = true }]; [elems s] is the list
    of its elements in increasing order (Word.v), [Sub a b] is set inclusion (BitsetProofs.v), [StronglySorted N.lt]
    is "strictly increasing". *)
From Coq Require Import NArith List Bool Lia Sorting.Sorted.
From Verif Require Import Word WordProofs Bitset BitsetProofs GosperProofs.
Import ListNotations.
Open Scope N_scope.

(** C01: every operation computes the corresponding set operation. *)
Theorem C01_access : forall s i v, W64 s -> i < 64 ->
  sbs_get s i = Some (N.testbit s i) /\
  exists s', sbs_set s i v = Some s' /\ W64 s' /\ forall j, N.testbit s' j = if j =? i then v else N.testbit s j.
Proof. intros s i v Hs Hi. exact (conj (get_spec s i Hi) (set_spec s i v Hs Hi)). Qed.
Print Assumptions C01_access.

Theorem C01_access_out_of_range : forall s i v, 64 <= i -> sbs_get s i = None /\ sbs_set s i v = None.
Proof. intros s i v Hi. unfold sbs_get, sbs_set, CAPACITY. apply N.ltb_ge in Hi. rewrite Hi. split; reflexivity. Qed.
Print Assumptions C01_access_out_of_range.

Theorem C01_construct : forall n,
  (n <= 64 -> exists s, sbs_All n = Some s /\ W64 s /\ forall j, N.testbit s j = (j <? n)) /\
  (n < 64 -> exists s, sbs_Singleton n = Some s /\ W64 s /\ forall j, N.testbit s j = (j =? n)).
Proof. intros n. exact (conj (All_spec n) (Singleton_spec n)). Qed.
Print Assumptions C01_construct.

Theorem C01_algebra : forall a b, W64 a -> W64 b ->
  (W64 (sbs_union a b) /\ forall j, N.testbit (sbs_union a b) j = N.testbit a j || N.testbit b j) /\
  (W64 (sbs_inter a b) /\ forall j, N.testbit (sbs_inter a b) j = N.testbit a j && N.testbit b j) /\
  (W64 (sbs_diff a b) /\ forall j, N.testbit (sbs_diff a b) j = N.testbit a j && negb (N.testbit b j)) /\
  (W64 (sbs_not a) /\ forall j, N.testbit (sbs_not a) j = (j <? 64) && negb (N.testbit a j)) /\
  (sbs_is_subset a b = true <-> forall j, N.testbit a j = true -> N.testbit b j = true) /\
  (sbs_empty a = true <-> forall j, N.testbit a j = false) /\
  (a = b <-> forall j, j < 64 -> N.testbit a j = N.testbit b j).
Proof.
  intros a b Ha Hb.
  exact (conj (conj (lor_lt a b 64 Ha Hb) (union_spec a b))
        (conj (conj (land_lt a b 64 Ha) (inter_spec a b))
        (conj (conj (land_lt a (not64 b) 64 Ha) (fun j => diff_spec a b j Ha Hb))
        (conj (conj (not64_W64 a Ha) (fun j => not_spec a j Ha))
        (conj (subset_spec a b) (conj (empty_spec a) (eq_spec a b Ha Hb))))))).
Qed.
Print Assumptions C01_algebra.

Theorem C01_size : forall s, W64 s -> sbs_size s = N.of_nat (length (elems s)) /\ NoDup (elems s) /\
  forall i, In i (elems s) <-> N.testbit s i = true.
Proof.
  intros s Hs. exact (conj (size_spec s Hs) (conj (StronglySorted_lt_NoDup _ (elems_sorted s)) (fun i => in_elems s i Hs))).
Qed.
Print Assumptions C01_size.

(** [hi()] is the singleton of the maximum (fails on the empty set); [mask_to_lo] contains everything up to and
    including the minimum, [singleton_to_lo_mask] everything strictly below the only element. *)
Theorem C01_extremes : forall s, W64 s -> s <> 0 ->
  (exists h, N.testbit s h = true /\ (forall j, N.testbit s j = true -> j <= h) /\ h < 64 /\ sbs_hi s = Some (2 ^ h)) /\
  (exists lo, N.testbit s lo = true /\ (forall j, N.testbit s j = true -> lo <= j) /\
     it_deref s = Some lo /\ it_as_set s = 2 ^ lo /\
     (exists m, sbs_mask_to_lo s = Some m /\ forall j, N.testbit m j = (j <=? lo)) /\
     (sbs_is_singleton s = true -> exists m, sbs_singleton_to_lo_mask s = Some m /\ forall j, N.testbit m j = (j <? lo))).
Proof.
  intros s Hs Hz. split; [exact (hi_spec s Hs Hz)|]. exists (ctz s).
  split; [exact (testbit_ctz s Hz)|]. split.
  - intros j Hj. destruct (N.le_gt_cases (ctz s) j) as [H|H]; [exact H|].
    rewrite (testbit_below_ctz s j Hz H) in Hj. discriminate.
  - split; [unfold it_deref; apply N.eqb_neq in Hz; rewrite Hz; reflexivity|].
    split; [exact (blsi_pow2 s Hs Hz)|].
    exact (conj (mask_to_lo_spec s Hs Hz) (singleton_mask_spec s Hs)).
Qed.
Print Assumptions C01_extremes.

Theorem C01_iteration : forall s, W64 s ->
  iterate 65 s = Some (elems s) /\ riterate 65 s = Some (rev (elems s)) /\ StronglySorted N.lt (elems s).
Proof. intros s Hs. exact (conj (iterate_ok s Hs) (conj (riterate_ok s Hs) (elems_sorted s))). Qed.
Print Assumptions C01_iteration.

(** [++] and [--]: the number denoted by the bits; rejected at the full set and the empty set. *)
Theorem C01_increment : forall s, W64 s ->
  sbs_incr s = (if s =? 2 ^ 64 - 1 then None else Some (s + 1)) /\ sbs_decr s = (if s =? 0 then None else Some (s - 1)).
Proof.
  intros s HW. split.
  - unfold sbs_incr. destruct (N.eqb_spec s (2 ^ 64 - 1)) as [->|Ne]; [reflexivity|].
    destruct (N.eqb_spec (not64 s) 0) as [E|E].
    + exfalso. apply Ne. unfold not64 in E. apply N.lxor_eq in E. rewrite E. reflexivity.
    + f_equal. unfold add64. apply wrap_small. unfold W64 in *. lia.
  - unfold sbs_decr. destruct (N.eqb_spec s 0) as [->|Ne]; [reflexivity|]. f_equal. now apply sub64_1.
Qed.
Print Assumptions C01_increment.
(** Arguments out of range, and the empty set where an element is needed, are rejected. *)
Theorem C01_rejects : forall n s, W64 s ->
  (64 < n -> sbs_All n = None) /\ (64 <= n -> sbs_Singleton n = None) /\
  sbs_hi 0 = None /\ sbs_mask_to_lo 0 = None /\ it_deref 0 = None /\ rit_deref 0 = None /\
  (sbs_size s <> 1 -> sbs_singleton_to_lo_mask s = None).
Proof.
  intros n s HW. unfold sbs_All, sbs_Singleton, CAPACITY. split; [|split; [|split; [reflexivity|split; [reflexivity|split; [reflexivity|split; [reflexivity|]]]]]].
  - intros H. apply N.leb_gt in H. now rewrite H.
  - intros H. apply N.ltb_ge in H. now rewrite H.
  - intros H. unfold sbs_singleton_to_lo_mask, sbs_is_singleton. apply N.eqb_neq in H. now rewrite H.
Qed.
Print Assumptions C01_rejects.

Example C01_nonvacuous : W64 (2 ^ 63 + 5) /\ elems (2 ^ 63 + 5) = [0; 2; 63] /\ riterate 65 (2 ^ 63 + 5) = Some [63; 2; 0]
  /\ sbs_hi (2 ^ 63 + 5) = Some (2 ^ 63) /\ sbs_diff (2 ^ 63 + 5) 4 = 2 ^ 63 + 1.
Proof. repeat split; vm_compute; reflexivity. Qed.

(** C02: the loop [for (O = least_subset(S); O != stop; O = next_subset(O, S))] visits exactly the non-empty subsets of
    [S] numerically below [stop], in strictly increasing order (hence each once); for [stop = S] these are all
    non-empty strict subsets, and [S] itself is followed by the empty set. *)
Theorem C02_subsets : forall S, W64 S -> S <> 0 ->
  exists fuel l, subset_loop fuel (least_subset S) S S = Some l /\ StronglySorted N.lt l /\
    (forall t, In t l <-> Sub t S /\ t <> 0 /\ t <> S) /\ next_subset S S = 0.
Proof.
  intros S HW Hz. destruct (subset_loop_spec S S HW (Sub_refl S) Hz) as [fuel [l [H1 [H2 H3]]]].
  exists fuel, l. split; [exact H1|]. split; [exact H2|]. split; [|exact (next_subset_full S HW)].
  intros t. rewrite H3. split; intros [A [B C]]; (split; [exact A|split; [exact B|]]).
  - intros ->. exact (N.lt_irrefl _ C).
  - pose proof (Sub_le _ _ A). lia.
Qed.
Print Assumptions C02_subsets.

(** Starting at any subset, the next subset is the numerically least larger one: nothing is skipped. *)
Theorem C02_successor : forall sub S, W64 S -> Sub sub S -> sub <> S ->
  Sub (next_subset sub S) S /\ sub < next_subset sub S /\ (forall t, Sub t S -> sub < t -> next_subset sub S <= t).
Proof. exact next_subset_props. Qed.
Print Assumptions C02_successor.

(** Subsets are visited before their supersets: inclusion implies numeric order (the visiting order). *)
Theorem C02_subsets_first : forall a b, Sub a b -> a <> b -> a < b.
Proof. intros a b H Hne. pose proof (Sub_le _ _ H). lia. Qed.
Print Assumptions C02_subsets_first.

(** Stopping at the singleton of the highest element (as the enumerators avoiding symmetric pairs do) visits exactly one
    of [t] and [S \ t] for every non-trivial split of [S], namely the one without the highest element. *)
Theorem C02_half : forall S h, W64 S -> S <> 0 -> sbs_hi S = Some h ->
  exists fuel l, subset_loop fuel (least_subset S) S h = Some l /\ StronglySorted N.lt l /\
    (forall t, In t l <-> Sub t S /\ t <> 0 /\ t < h) /\
    (forall t, Sub t S -> t <> 0 -> t <> S -> (In t l <-> ~ In (sbs_diff S t) l)).
Proof.
  intros S h HW Hz Hh. destruct (hi_spec S HW Hz) as [k [Hk1 [Hk2 [Hk3 Hk4]]]]. rewrite Hk4 in Hh. injection Hh as <-.
  assert (Hsub : Sub (2 ^ k) S).
  { intros j Hj. rewrite testbit_pow2 in Hj. apply N.eqb_eq in Hj. rewrite Hj. exact Hk1. }
  assert (Hnz : 2 ^ k <> 0) by (pose proof (pow2_pos k); lia).
  destruct (subset_loop_spec S (2 ^ k) HW Hsub Hnz) as [fuel [l [H1 [H2 H3]]]].
  exists fuel, l. split; [exact H1|]. split; [exact H2|]. split; [exact H3|].
  intros t Ht Htz HtS. rewrite !H3.
  assert (Hchar : forall x, Sub x S -> (x < 2 ^ k <-> N.testbit x k = false)).
  { intros x Hx. split; intros Hxk.
    - apply (testbit_high x k k Hxk). lia.
    - apply lt_pow2_testbit. intros i Hi. destruct (N.testbit x i) eqn:E; [|reflexivity].
      pose proof (Hk2 i (Hx i E)). assert (i = k) by lia. congruence. }
  pose proof (Sub_W64 _ _ Ht HW) as HtW.
  assert (Hd : Sub (sbs_diff S t) S).
  { intros j Hj. rewrite diff_spec in Hj by assumption. apply andb_prop in Hj. tauto. }
  assert (Hdz : sbs_diff S t <> 0).
  { intros E. apply HtS. apply N.bits_inj. intros j. destruct (N.testbit t j) eqn:Etj; [symmetry; apply Ht; exact Etj|].
    assert (E2 : N.testbit (sbs_diff S t) j = false) by (rewrite E; apply N.bits_0).
    rewrite diff_spec, Etj, andb_true_r in E2 by assumption. congruence. }
  rewrite (Hchar t Ht), (Hchar _ Hd), diff_spec, Hk1 by assumption. cbn [andb].
  destruct (N.testbit t k); cbn [negb]; intuition congruence.
Qed.
Print Assumptions C02_half.

Example C02_nonvacuous : subset_loop 10 (least_subset (2 ^ 63 + 6)) (2 ^ 63 + 6) (2 ^ 63 + 6)
  = Some [2; 4; 6; 2 ^ 63; 2 ^ 63 + 2; 2 ^ 63 + 4] /\
  subset_loop 10 (least_subset 7) 7 4 = Some [1; 2; 3].
Proof. split; vm_compute; reflexivity. Qed.

Lemma ksubset_spec : forall k n t, n < 64 -> popcount t = k /\ t < 2 ^ n <->
  N.of_nat (length (elems t)) = k /\ (forall j, N.testbit t j = true -> j < n) /\ W64 t.
Proof.
  intros k n t Hn. split.
  - intros [Hp Ht].
    assert (W64 t). { unfold W64. assert (2 ^ n <= 2 ^ 64) by (apply N.pow_le_mono_r; lia). lia. }
    split; [rewrite <- popcount_elems by assumption; exact Hp|]. split; [|assumption].
    intros j Hj. destruct (N.lt_ge_cases j n) as [X|X]; [exact X|]. rewrite (testbit_high t n j Ht X) in Hj. discriminate.
  - intros [Hc [Hj HW]]. split; [rewrite popcount_elems by assumption; exact Hc|].
    apply lt_pow2_testbit. intros i Hi. destruct (N.testbit t i) eqn:E; [|reflexivity]. specialize (Hj i E). lia.
Qed.

(** C03: [for (auto S = GospersHack::enumerate_all(k, n); S; ++S)] visits exactly the [k]-element subsets of
    [{0..n-1}] in increasing order (BMI2 build).  [N.of_nat (length (elems t)) = k] is cardinality. *)
Theorem C03_gosper_bmi2 : forall k n, 1 <= k -> k <= n -> n < 64 ->
  exists g fuel l, gh_enumerate_all k n = Some g /\ gh_loop gh_next_bmi2 fuel g = Some l /\
    StronglySorted N.lt l /\
    forall t, In t l <-> N.of_nat (length (elems t)) = k /\ (forall j, N.testbit t j = true -> j < n) /\ W64 t.
Proof.
  intros k n Hk Hkn Hn. destruct (gh_all_spec k n Hk Hkn Hn) as [g [fuel [l [H1 [H2 [H3 H4]]]]]].
  exists g, fuel, l. split; [exact H1|]. split; [exact H2|]. split; [exact H3|].
  intros t. rewrite H4. apply ksubset_spec. exact Hn.
Qed.
Print Assumptions C03_gosper_bmi2.

(** Enumerating the remaining subsets from a given one ([enumerate_from]). *)
Theorem C03_gosper_from : forall s n, n < 64 -> s <> 0 -> s < 2 ^ n ->
  exists g fuel l, gh_enumerate_from s n = Some g /\ gh_loop gh_next_bmi2 fuel g = Some l /\ StronglySorted N.lt l /\
    forall t, In t l <-> popcount t = popcount s /\ s <= t /\ t < 2 ^ n.
Proof.
  intros s n Hn Hs Hlt. destruct (gh_loop_from s n Hn Hs) as [fuel [l [H1 [H2 H3]]]].
  exists {| gh_set := s; gh_limit := shl64 1 n |}, fuel, l. split; [|exact (conj H1 (conj H2 H3))].
  unfold gh_enumerate_from. rewrite W64_shl1 by exact Hn. apply N.ltb_lt in Hn. rewrite Hn.
  apply N.lt_le_incl, N.leb_le in Hlt. rewrite Hlt. reflexivity.
Qed.
Print Assumptions C03_gosper_from.

(** The portable build (no BMI2) enumerates the [k]-element subsets exactly when [n <= 32], [k = 1] or [k = n]. *)
Theorem C03_gosper_portable : forall k n, 1 <= k -> k <= n -> n < 64 ->
  (exists g fuel l, gh_enumerate_all k n = Some g /\ gh_loop gh_next_portable fuel g = Some l /\
    StronglySorted N.lt l /\
    forall t, In t l <-> N.of_nat (length (elems t)) = k /\ (forall j, N.testbit t j = true -> j < n) /\ W64 t)
  <-> n <= 32 \/ k = 1 \/ k = n.
Proof.
  intros k n Hk Hkn Hn. split.
  - intros (g & fuel & l & Eg & El & _ & Hin). destruct (N.le_gt_cases n 32) as [A|A]; [left; exact A|right].
    destruct (N.eq_dec k 1) as [B|B]; [left; exact B|right]. destruct (N.eq_dec k n) as [C|C]; [exact C|exfalso].
    destruct (portable_wrong k n ltac:(lia) ltac:(lia) ltac:(lia) Hn g fuel l Eg El) as (t & T1 & T2). apply Hin in T1. destruct T1 as (T1 & _ & T3).
    apply T2. now rewrite popcount_elems.
  - intros C. destruct (gh_all_portable k n Hk Hkn Hn C) as [g [fuel [l [H1 [H2 [H3 H4]]]]]].
    exists g, fuel, l. split; [exact H1|]. split; [exact H2|]. split; [exact H3|]. intros t. rewrite H4. apply ksubset_spec. exact Hn.
Qed.
Print Assumptions C03_gosper_portable.

(** For instance, [__builtin_popcount] truncates its argument to 32 bits, so from the 2-element subset {31,32}
    the portable build steps to the 1-element subset {33}. *)
Theorem C03_gosper_portable_refuted : exists s, s < 2 ^ 34 /\ sbs_size s = 2 /\ sbs_size (gh_next_portable s) = 1.
Proof. exists (2 ^ 31 + 2 ^ 32). vm_compute. repeat split. Qed.
Print Assumptions C03_gosper_portable_refuted.

(** Finding: for [k = 0] (admitted by the API, which only requires [k <= n]) the enumeration never ends. *)
Theorem C03_zero_refuted : forall n fuel, n < 64 ->
  exists g, gh_enumerate_all 0 n = Some g /\ gh_loop gh_next_bmi2 fuel g = None /\ gh_loop gh_next_portable fuel g = None.
Proof. exact gh_zero_loops. Qed.
Print Assumptions C03_zero_refuted.

Example C03_nonvacuous : exists g, gh_enumerate_all 2 4 = Some g /\ gh_loop gh_next_bmi2 10 g = Some [3; 5; 6; 9; 10; 12].
Proof. exists {| gh_set := 3; gh_limit := 16 |}. split; vm_compute; reflexivity. Qed.

(** C04: the subset enumerator yields exactly the [k]-element subsets of an arbitrary set, each once. *)
Theorem C04_subset_enumerator : forall set k, W64 set -> sbs_size set < 64 -> 1 <= k -> k <= sbs_size set ->
  exists g fuel l, se_make set k = Some g /\ se_loop gh_next_bmi2 set fuel g = Some l /\ NoDup l /\
    forall T, In T l <-> (forall j, N.testbit T j = true -> N.testbit set j = true) /\ sbs_size T = k.
Proof. exact se_spec. Qed.
Print Assumptions C04_subset_enumerator.

(** The portable build: exactly when the set has at most 32 elements, or [k] is 1 or the size of the set. *)
Theorem C04_portable : forall set k, W64 set -> sbs_size set < 64 -> 1 <= k -> k <= sbs_size set ->
  (exists g fuel l, se_make set k = Some g /\ se_loop gh_next_portable set fuel g = Some l /\ NoDup l /\
    forall T, In T l <-> (forall j, N.testbit T j = true -> N.testbit set j = true) /\ sbs_size T = k)
  <-> sbs_size set <= 32 \/ k = 1 \/ k = sbs_size set.
Proof.
  unfold sbs_size. intros set k HW H64 Hk Hkn. split.
  - intros (g & fuel & l & Eg & El & _ & Hin). destruct (N.le_gt_cases (popcount set) 32) as [A|A]; [left; exact A|right].
    destruct (N.eq_dec k 1) as [B|B]; [left; exact B|right]. destruct (N.eq_dec k (popcount set)) as [C|C]; [exact C|exfalso].
    unfold se_make in Eg. rewrite se_loop_map in El. destruct (gh_loop gh_next_portable fuel g) as [l0|] eqn:E0; [|discriminate]. injection El as <-.
    destruct (portable_wrong k (popcount set) ltac:(lia) ltac:(lia) ltac:(lia) H64 g fuel l0 Eg E0) as (t & T1 & T2).
    apply T2. rewrite <- (pdep_popcount t set); [|exact HW|eapply portable_below; [exact Eg|exact E0|exact T1]]. apply (Hin (pdep64 t set)). apply in_map_iff. exists t. auto.
  - intros C. exact (se_portable set k HW H64 Hk Hkn C).
Qed.
Print Assumptions C04_portable.
(** A set of 64 elements is rejected. *)
Theorem C04_rejects : forall set k, W64 set -> 64 <= sbs_size set \/ sbs_size set < k -> se_make set k = None.
Proof.
  intros set k HW H. unfold se_make, gh_enumerate_all. destruct (N.leb_spec k (sbs_size set)), (N.ltb_spec (sbs_size set) 64); try reflexivity. lia.
Qed.
Print Assumptions C04_rejects.

Example C04_nonvacuous : exists g, se_make (2 ^ 40 + 2 ^ 9 + 1) 2 = Some g /\
  se_loop gh_next_bmi2 (2 ^ 40 + 2 ^ 9 + 1) 10 g = Some [2 ^ 9 + 1; 2 ^ 40 + 1; 2 ^ 40 + 2 ^ 9].
Proof. exists {| gh_set := 3; gh_limit := 8 |}. split; vm_compute; reflexivity. Qed.
