(** * Lemmas about 64-bit words. *)
From Coq Require Import NArith List Bool Lia ZifyBool ZifyN Sorting.Sorted.
From Verif Require Import Word.
Import ListNotations.
Open Scope N_scope.
Arguments N.pow : simpl never.
Arguments N.ones : simpl never.
Arguments N.mul : simpl never.
Arguments N.add : simpl never.
Arguments N.sub : simpl never.

Lemma pow2_pos n : 0 < 2 ^ n.
Proof. apply N.neq_0_lt_0, N.pow_nonzero; lia. Qed.

(** ** Bits and bounds *)

Lemma testbit_high x n i : x < 2 ^ n -> n <= i -> N.testbit x i = false.
Proof.
  intros Hx Hi. destruct (N.eq_dec x 0) as [->|Hz]; [apply N.bits_0|].
  apply N.bits_above_log2. apply N.lt_le_trans with n; [|exact Hi].
  apply N.log2_lt_pow2; lia.
Qed.

Lemma lt_pow2_testbit x n : (forall i, n <= i -> N.testbit x i = false) -> x < 2 ^ n.
Proof.
  intros H. destruct (N.eq_dec x 0) as [->|Hz]; [apply pow2_pos|].
  apply N.log2_lt_pow2; [lia|].
  destruct (N.lt_ge_cases (N.log2 x) n) as [Hl|Hl]; [exact Hl|].
  specialize (H _ Hl). rewrite N.bit_log2 in H by exact Hz. discriminate.
Qed.

Lemma W64_testbit_high x i : W64 x -> 64 <= i -> N.testbit x i = false.
Proof. apply testbit_high. Qed.

Lemma word_ext a b : W64 a -> W64 b -> (forall i, i < 64 -> N.testbit a i = N.testbit b i) -> a = b.
Proof.
  intros Ha Hb H. apply N.bits_inj. intros i.
  destruct (N.lt_ge_cases i 64) as [Hi|Hi]; [auto|].
  rewrite !W64_testbit_high; auto.
Qed.

Lemma land_lt a b n : a < 2 ^ n -> N.land a b < 2 ^ n.
Proof.
  intros Ha. apply lt_pow2_testbit. intros i Hi. rewrite N.land_spec.
  rewrite (testbit_high a n i) by assumption. reflexivity.
Qed.
Lemma land_lt_r a b n : b < 2 ^ n -> N.land a b < 2 ^ n.
Proof. rewrite N.land_comm. apply land_lt. Qed.
Lemma lor_lt a b n : a < 2 ^ n -> b < 2 ^ n -> N.lor a b < 2 ^ n.
Proof.
  intros Ha Hb. apply lt_pow2_testbit. intros i Hi. rewrite N.lor_spec.
  rewrite (testbit_high a n i), (testbit_high b n i) by assumption. reflexivity.
Qed.
Lemma lxor_lt a b n : a < 2 ^ n -> b < 2 ^ n -> N.lxor a b < 2 ^ n.
Proof.
  intros Ha Hb. apply lt_pow2_testbit. intros i Hi. rewrite N.lxor_spec.
  rewrite (testbit_high a n i), (testbit_high b n i) by assumption. reflexivity.
Qed.
Lemma ldiff_lt a b n : a < 2 ^ n -> N.ldiff a b < 2 ^ n.
Proof.
  intros Ha. apply lt_pow2_testbit. intros i Hi. rewrite N.ldiff_spec.
  rewrite (testbit_high a n i) by assumption. reflexivity.
Qed.
Lemma ones_lt n : N.ones n < 2 ^ n.
Proof. rewrite N.ones_equiv. pose proof (pow2_pos n). lia. Qed.

Lemma testbit_ones n i : N.testbit (N.ones n) i = (i <? n).
Proof.
  destruct (N.ltb_spec i n) as [H|H].
  - apply N.ones_spec_low; exact H.
  - apply N.ones_spec_high; exact H.
Qed.

Lemma testbit_pow2 n i : N.testbit (2 ^ n) i = (i =? n).
Proof. rewrite N.pow2_bits_eqb. apply N.eqb_sym. Qed.

Lemma wrap_W64 x : W64 (wrap x).
Proof. apply N.mod_lt. discriminate. Qed.
Lemma wrap_small x : W64 x -> wrap x = x.
Proof. apply N.mod_small. Qed.
Lemma not64_W64 x : W64 x -> W64 (not64 x).
Proof. intros H. apply lxor_lt; [exact H|apply ones_lt]. Qed.
Lemma testbit_wrap x i : N.testbit (wrap x) i = (i <? 64) && N.testbit x i.
Proof.
  unfold wrap. destruct (N.ltb_spec i 64) as [H|H].
  - rewrite N.mod_pow2_bits_low by exact H. reflexivity.
  - rewrite N.mod_pow2_bits_high by exact H. reflexivity.
Qed.
Lemma testbit_not64 x i : W64 x -> N.testbit (not64 x) i = (i <? 64) && negb (N.testbit x i).
Proof.
  intros Hx. unfold not64. rewrite N.lxor_spec, testbit_ones.
  destruct (N.ltb_spec i 64) as [H|H].
  - destruct (N.testbit x i); reflexivity.
  - rewrite W64_testbit_high by assumption. reflexivity.
Qed.
Lemma not64_sub x : W64 x -> not64 x = 2 ^ 64 - 1 - x.
Proof.
  intros Hx. unfold not64.
  assert (H : N.lxor x (N.ones 64) = N.lnot x 64) by reflexivity. rewrite H.
  destruct (N.eq_dec x 0) as [->|Hz].
  - rewrite N.lnot_0_l. rewrite N.ones_equiv. lia.
  - rewrite N.lnot_sub_low.
    + rewrite N.ones_equiv. lia.
    + apply N.log2_lt_pow2; [lia|exact Hx].
Qed.
Lemma sub64_W64 a b : W64 (sub64 a b).
Proof. apply wrap_W64. Qed.
Lemma sub64_ge a b : W64 a -> b <= a -> sub64 a b = a - b.
Proof.
  unfold W64, sub64. intros Ha Hb. rewrite (wrap_small b) by (unfold W64; lia).
  replace (a + (2 ^ 64 - b)) with ((a - b) + 1 * 2 ^ 64) by lia.
  unfold wrap. rewrite N.mod_add by discriminate. apply N.mod_small. lia.
Qed.
Lemma sub64_lt a b : W64 b -> a < b -> sub64 a b = 2 ^ 64 + a - b.
Proof.
  unfold W64, sub64. intros Hb Hab. rewrite (wrap_small b) by (unfold W64; lia).
  unfold wrap. rewrite N.mod_small by lia. lia.
Qed.
Lemma neg64_eq a : W64 a -> a <> 0 -> neg64 a = 2 ^ 64 - a.
Proof. intros Ha Hz. unfold neg64. rewrite sub64_lt; [lia|exact Ha|lia]. Qed.
Lemma neg64_not a : W64 a -> a <> 0 -> neg64 a = not64 (a - 1).
Proof.
  intros Ha Hz. rewrite neg64_eq by assumption. unfold W64 in *. rewrite not64_sub by (unfold W64; lia). lia.
Qed.
Lemma neg64_0 : neg64 0 = 0.
Proof. reflexivity. Qed.

(** Disjoint union is addition. *)
Lemma lor_add a b : N.land a b = 0 -> N.lor a b = a + b.
Proof. intros H. rewrite <- N.lxor_lor by exact H. symmetry. apply N.add_nocarry_lxor. exact H. Qed.

(** ** Lowest set bit *)

Lemma pos_ctz_decomp p : exists y, Npos p = (2 * y + 1) * 2 ^ pos_ctz p.
Proof.
  induction p as [p IH|p IH|]; cbn [pos_ctz].
  - exists (Npos p). rewrite N.pow_0_r. lia.
  - destruct IH as [y Hy]. exists y. rewrite N.pow_succ_r'.
    replace (N.pos p~0) with (2 * N.pos p) by lia. rewrite Hy at 1. lia.
  - exists 0. rewrite N.pow_0_r. reflexivity.
Qed.
Lemma ctz_decomp x : x <> 0 -> exists y, x = (2 * y + 1) * 2 ^ ctz x.
Proof. destruct x as [|p]; [congruence|]. intros _. apply pos_ctz_decomp. Qed.

(** Bits of [hi * 2^k + lo] with [lo < 2^k]. *)
Lemma testbit_concat hi lo k i : lo < 2 ^ k ->
  N.testbit (hi * 2 ^ k + lo) i = if i <? k then N.testbit lo i else N.testbit hi (i - k).
Proof.
  intros Hlo.
  assert (Hd : N.land (hi * 2 ^ k) lo = 0).
  { apply N.bits_inj. intros j. rewrite N.land_spec, N.bits_0.
    destruct (N.lt_ge_cases j k) as [H|H].
    - rewrite N.mul_pow2_bits_low by exact H. reflexivity.
    - rewrite (testbit_high lo k j) by assumption. apply andb_false_r. }
  rewrite <- lor_add by exact Hd. rewrite N.lor_spec.
  destruct (N.ltb_spec i k) as [H|H].
  - rewrite N.mul_pow2_bits_low by exact H. reflexivity.
  - rewrite N.mul_pow2_bits_high by exact H. rewrite (testbit_high lo k i) by assumption. apply orb_false_r.
Qed.

Lemma testbit_ctz x : x <> 0 -> N.testbit x (ctz x) = true.
Proof.
  intros Hx. destruct (ctz_decomp x Hx) as [y Hy]. rewrite Hy at 1.
  rewrite N.mul_pow2_bits_high by lia. rewrite N.sub_diag. apply N.testbit_odd_0.
Qed.
Lemma testbit_below_ctz x i : x <> 0 -> i < ctz x -> N.testbit x i = false.
Proof.
  intros Hx Hi. destruct (ctz_decomp x Hx) as [y Hy]. rewrite Hy.
  apply N.mul_pow2_bits_low. exact Hi.
Qed.
Lemma ctz_unique x k : N.testbit x k = true -> (forall i, i < k -> N.testbit x i = false) -> ctz x = k.
Proof.
  intros Hk Hb. assert (Hx : x <> 0) by (intros ->; rewrite N.bits_0 in Hk; discriminate).
  destruct (N.lt_trichotomy (ctz x) k) as [H|[H|H]]; [|exact H|].
  - pose proof (testbit_ctz x Hx) as Ht. rewrite Hb in Ht by exact H. discriminate.
  - rewrite (testbit_below_ctz x k) in Hk by assumption. discriminate.
Qed.
Lemma ctz_lt x n : x <> 0 -> x < 2 ^ n -> ctz x < n.
Proof.
  intros Hx Hn. destruct (N.lt_ge_cases (ctz x) n) as [H|H]; [exact H|].
  pose proof (testbit_ctz x Hx) as Ht. rewrite (testbit_high x n) in Ht by assumption. discriminate.
Qed.

(** [x - 1]: clears the lowest one and sets everything below. *)
Lemma testbit_pred x i : x <> 0 ->
  N.testbit (x - 1) i = if i <? ctz x then true else if i =? ctz x then false else N.testbit x i.
Proof.
  intros Hx. destruct (ctz_decomp x Hx) as [y Hy]. set (k := ctz x) in *.
  pose proof (pow2_pos k) as Hp.
  assert (E1 : x - 1 = (2 * y) * 2 ^ k + (2 ^ k - 1)) by (rewrite Hy; lia).
  assert (E2 : x = (2 * y + 1) * 2 ^ k + 0) by lia.
  rewrite E1, testbit_concat by lia.
  destruct (N.ltb_spec i k) as [H|H].
  - replace (2 ^ k - 1) with (N.ones k) by (rewrite N.ones_equiv; lia).
    apply N.ones_spec_low; exact H.
  - destruct (N.eqb_spec i k) as [->|Hne].
    + rewrite N.sub_diag. apply N.testbit_even_0.
    + rewrite E2, testbit_concat by exact Hp.
      destruct (N.ltb_spec i k) as [H'|_]; [lia|].
      destruct (i - k) as [|p] eqn:E; [lia|]. 
      replace (N.pos p) with (N.succ (N.pos p - 1)) by lia.
      rewrite N.testbit_even_succ, N.testbit_odd_succ by lia. reflexivity.
Qed.

(** [x + 1]: sets the lowest zero and clears everything below; [k] is the index of the lowest zero. *)
Lemma testbit_succ x k i : N.testbit x k = false -> (forall j, j < k -> N.testbit x j = true) ->
  N.testbit (x + 1) i = if i <? k then false else if i =? k then true else N.testbit x i.
Proof.
  intros Hk Hb.
  assert (E : x mod 2 ^ k = N.ones k).
  { apply N.bits_inj. intros j. rewrite testbit_ones. destruct (N.ltb_spec j k) as [H|H].
    - rewrite N.mod_pow2_bits_low by exact H. auto.
    - apply N.mod_pow2_bits_high. exact H. }
  pose proof (N.div_mod x (2 ^ k) ltac:(pose proof (pow2_pos k); lia)) as Hdm. rewrite E, N.ones_equiv in Hdm.
  set (q := x / 2 ^ k) in *.
  assert (Hq : N.testbit q 0 = false).
  { unfold q. rewrite N.div_pow2_bits. rewrite N.add_0_l. exact Hk. }
  assert (Hq2 : exists r, q = 2 * r).
  { rewrite N.bit0_odd in Hq. rewrite <- N.negb_even in Hq. destruct (N.even q) eqn:Ev; [|discriminate].
    apply N.even_spec in Ev. destruct Ev as [r Hr]. exists r. exact Hr. }
  destruct Hq2 as [r Hr]. pose proof (pow2_pos k) as Hp.
  assert (E1 : x + 1 = (2 * r + 1) * 2 ^ k + 0) by lia.
  assert (E2 : x = (2 * r) * 2 ^ k + (2 ^ k - 1)) by lia.
  rewrite E1, testbit_concat by exact Hp.
  destruct (N.ltb_spec i k) as [H|H]; [apply N.bits_0|].
  destruct (N.eqb_spec i k) as [->|Hne].
  - rewrite N.sub_diag. apply N.testbit_odd_0.
  - rewrite E2, testbit_concat by lia. destruct (N.ltb_spec i k) as [H'|_]; [lia|].
    destruct (i - k) as [|p] eqn:Ep; [lia|].
    replace (N.pos p) with (N.succ (N.pos p - 1)) by lia.
    rewrite N.testbit_even_succ, N.testbit_odd_succ by lia. reflexivity.
Qed.

Lemma exists_low_zero n : forall x, x < 2 ^ n -> x <> 2 ^ n - 1 ->
  exists k, k < n /\ N.testbit x k = false /\ forall j, j < k -> N.testbit x j = true.
Proof.
  intros x Hx Hne.
  assert (Hnz : N.lxor x (N.ones n) <> 0).
  { intros H. apply N.lxor_eq in H. rewrite N.ones_equiv in H. pose proof (pow2_pos n). lia. }
  exists (ctz (N.lxor x (N.ones n))).
  pose proof (testbit_ctz _ Hnz) as H1.
  assert (Hlt : ctz (N.lxor x (N.ones n)) < n).
  { apply ctz_lt; [exact Hnz|]. apply lxor_lt; [exact Hx|apply ones_lt]. }
  rewrite N.lxor_spec, testbit_ones in H1.
  destruct (N.ltb_spec (ctz (N.lxor x (N.ones n))) n) as [H|H]; [|lia].
  split; [exact Hlt|]. split.
  - destruct (N.testbit x (ctz (N.lxor x (N.ones n)))); [discriminate|reflexivity].
  - intros j Hj. pose proof (testbit_below_ctz _ j Hnz Hj) as H2.
    rewrite N.lxor_spec, testbit_ones in H2. destruct (N.ltb_spec j n) as [H3|H3]; [|lia].
    destruct (N.testbit x j); [reflexivity|discriminate].
Qed.

(** [x & (x-1)] resets the lowest one. *)
Lemma testbit_blsr x i : x <> 0 -> N.testbit (N.land x (x - 1)) i = N.testbit x i && negb (i =? ctz x).
Proof.
  intros Hx. rewrite N.land_spec, testbit_pred by exact Hx.
  destruct (N.ltb_spec i (ctz x)) as [H|H].
  - rewrite testbit_below_ctz by assumption. reflexivity.
  - destruct (N.eqb_spec i (ctz x)) as [->|Hne]; cbn [negb]; [reflexivity|].
    destruct (N.testbit x i); reflexivity.
Qed.
(** [x & -x] isolates the lowest one. *)
Lemma blsi_pow2 x : W64 x -> x <> 0 -> N.land x (neg64 x) = 2 ^ ctz x.
Proof.
  intros Hw Hx. rewrite neg64_not by assumption.
  assert (Hl : ctz x < 64) by (apply ctz_lt; assumption).
  apply N.bits_inj. intros i. rewrite N.land_spec, testbit_pow2.
  rewrite testbit_not64 by (unfold W64 in *; lia). rewrite testbit_pred by exact Hx.
  destruct (N.ltb_spec i (ctz x)) as [H|H].
  - rewrite testbit_below_ctz by assumption. symmetry. cbn [andb]. apply N.eqb_neq. lia.
  - destruct (N.eqb_spec i (ctz x)) as [->|Hne].
    + rewrite testbit_ctz by exact Hx. destruct (N.ltb_spec (ctz x) 64); [reflexivity|lia].
    + destruct (N.testbit x i); [|reflexivity]. cbn. apply andb_false_r.
Qed.
(** [x ^ (x-1)] is the mask up to and including the lowest one. *)
Lemma testbit_blsmsk x i : x <> 0 -> N.testbit (N.lxor x (x - 1)) i = (i <=? ctz x).
Proof.
  intros Hx. rewrite N.lxor_spec, testbit_pred by exact Hx.
  destruct (N.ltb_spec i (ctz x)) as [H|H].
  - rewrite testbit_below_ctz by assumption. symmetry. apply N.leb_le. lia.
  - destruct (N.eqb_spec i (ctz x)) as [->|Hne].
    + rewrite testbit_ctz by exact Hx. symmetry. apply N.leb_le. lia.
    + rewrite xorb_nilpotent. symmetry. apply N.leb_gt. lia.
Qed.

(** ** Highest set bit *)
Lemma log2_lt64 x : W64 x -> x <> 0 -> N.log2 x < 64.
Proof. intros Hw Hx. apply N.log2_lt_pow2; [lia|exact Hw]. Qed.

(** ** elems *)

Lemma in_idx64 i : In i idx64 <-> i < 64.
Proof.
  unfold idx64. rewrite in_map_iff. split.
  - intros [n [<- Hn]]. apply in_seq in Hn. lia.
  - intros H. exists (N.to_nat i). split; [apply N2Nat.id|]. apply in_seq. lia.
Qed.
Lemma in_elems x i : W64 x -> In i (elems x) <-> N.testbit x i = true.
Proof.
  intros Hx. unfold elems. rewrite filter_In, in_idx64. split; [tauto|].
  intros H. split; [|exact H]. destruct (N.lt_ge_cases i 64) as [Hi|Hi]; [exact Hi|].
  rewrite W64_testbit_high in H by assumption. discriminate.
Qed.

Lemma StronglySorted_filter {A} (R : A -> A -> Prop) f l : StronglySorted R l -> StronglySorted R (filter f l).
Proof.
  induction 1 as [|a l Hs IH Hf]; cbn; [constructor|]. destruct (f a); [|exact IH].
  constructor; [exact IH|]. rewrite Forall_forall in *. intros y Hy. apply filter_In in Hy. apply Hf, Hy.
Qed.
Lemma sorted_idx_seq n : forall s, StronglySorted N.lt (map N.of_nat (seq s n)).
Proof.
  induction n as [|n IH]; intros s; cbn; constructor; [apply IH|].
  apply Forall_forall. intros y Hy. apply in_map_iff in Hy. destruct Hy as [m [<- Hm]]. apply in_seq in Hm. lia.
Qed.
Lemma elems_sorted x : StronglySorted N.lt (elems x).
Proof. apply StronglySorted_filter, sorted_idx_seq. Qed.

Lemma StronglySorted_lt_NoDup l : StronglySorted N.lt l -> NoDup l.
Proof.
  induction 1 as [|a l Hs IH Hf]; constructor; [|exact IH].
  intros Hin. rewrite Forall_forall in Hf. specialize (Hf _ Hin). lia.
Qed.
Lemma sorted_ext l1 : forall l2, StronglySorted N.lt l1 -> StronglySorted N.lt l2 ->
  (forall i, In i l1 <-> In i l2) -> l1 = l2.
Proof.
  induction l1 as [|a l1 IH]; intros l2 H1 H2 Heq.
  - destruct l2 as [|b l2]; [reflexivity|]. exfalso. apply (Heq b). left; reflexivity.
  - destruct l2 as [|b l2]; [exfalso; apply (Heq a); left; reflexivity|].
    apply StronglySorted_inv in H1. apply StronglySorted_inv in H2.
    destruct H1 as [H1 F1], H2 as [H2 F2]. rewrite Forall_forall in F1, F2.
    assert (a = b).
    { destruct (proj1 (Heq a) (or_introl eq_refl)) as [E|E]; [congruence|].
      destruct (proj2 (Heq b) (or_introl eq_refl)) as [E'|E']; [congruence|].
      specialize (F1 _ E'). specialize (F2 _ E). lia. }
    subst b. f_equal. apply IH; auto. intros i. split; intros Hi.
    + destruct (proj1 (Heq i) (or_intror Hi)) as [E|E]; [|exact E]. subst i. specialize (F1 _ Hi). lia.
    + destruct (proj2 (Heq i) (or_intror Hi)) as [E|E]; [|exact E]. subst i. specialize (F2 _ Hi). lia.
Qed.

Lemma filter_length_le {A} (f : A -> bool) l : (length (filter f l) <= length l)%nat.
Proof. induction l as [|a l IH]; cbn; [lia|]. destruct (f a); cbn; lia. Qed.
Lemma length_idx64 : length idx64 = 64%nat.
Proof. reflexivity. Qed.
Lemma length_elems_le x : (length (elems x) <= 64)%nat.
Proof. unfold elems. rewrite <- length_idx64. apply filter_length_le. Qed.
Lemma elems_0 : elems 0 = [].
Proof. reflexivity. Qed.
Lemma elems_def x : elems x = filter (N.testbit x) (map N.of_nat (seq 0 64)).
Proof. reflexivity. Qed.
Global Opaque idx64 elems.

Lemma blsr_W64 x : W64 x -> W64 (N.land x (x - 1)).
Proof. apply land_lt. Qed.

(** Peeling the least element. *)
Lemma elems_cons x : W64 x -> x <> 0 -> elems x = ctz x :: elems (N.land x (x - 1)).
Proof.
  intros Hw Hx. apply sorted_ext.
  - apply elems_sorted.
  - constructor; [apply elems_sorted|]. apply Forall_forall. intros i Hi.
    rewrite in_elems in Hi by (apply blsr_W64; exact Hw). rewrite testbit_blsr in Hi by exact Hx.
    apply andb_prop in Hi. destruct Hi as [H1 H2].
    destruct (N.lt_trichotomy (ctz x) i) as [H|[H|H]]; [exact H|subst i; rewrite N.eqb_refl in H2; discriminate|].
    rewrite testbit_below_ctz in H1 by assumption. discriminate.
  - intros i. cbn [In]. rewrite !in_elems by (try apply blsr_W64; exact Hw). rewrite testbit_blsr by exact Hx.
    destruct (N.eqb_spec i (ctz x)) as [->|Hne].
    + rewrite testbit_ctz by exact Hx. tauto.
    + rewrite andb_true_r. split; [tauto|]. intros [E|E]; [congruence|exact E].
Qed.

(** ** popcount *)
Lemma popcount_0 : popcount 0 = 0. Proof. reflexivity. Qed.
Lemma popcount_double x : popcount (2 * x) = popcount x.
Proof. destruct x; reflexivity. Qed.
Lemma popcount_succ_double x : popcount (2 * x + 1) = popcount x + 1.
Proof. destruct x as [|p]; [reflexivity|]. change (N.succ (pos_popcount p) = pos_popcount p + 1). lia. Qed.

(** popcount counts the set bits among any sufficiently long prefix of indices *)
Fixpoint count_bits (n : nat) (x : N) : N :=
  match n with
  | O => 0
  | S n' => count_bits n' x + (if N.testbit x (N.of_nat n') then 1 else 0)
  end.
Lemma count_bits_shift n x : count_bits (S n) x = (if N.odd x then 1 else 0) + count_bits n (N.div2 x).
Proof.
  induction n as [|n IH].
  - cbn [count_bits]. rewrite N.bit0_odd. destruct (N.odd x); reflexivity.
  - cbn [count_bits] in *. rewrite IH.
    replace (N.of_nat (S n)) with (N.succ (N.of_nat n)) by lia.
    rewrite N.testbit_succ_r_div2 by lia. destruct (N.testbit (N.div2 x) (N.of_nat n)), (N.odd x); lia.
Qed.
Lemma popcount_count n : forall x, x < 2 ^ N.of_nat n -> popcount x = count_bits n x.
Proof.
  induction n as [|n IH]; intros x Hx.
  - change (2 ^ N.of_nat 0) with 1 in Hx. assert (x = 0) by lia. subst. reflexivity.
  - rewrite count_bits_shift. rewrite <- IH.
    + pose proof (N.div2_odd x) as E. rewrite E at 1. destruct (N.odd x); cbn [N.b2n].
      * rewrite popcount_succ_double. lia.
      * rewrite N.add_0_r, popcount_double. lia.
    + rewrite N.div2_div. apply N.div_lt_upper_bound; [lia|].
      replace (N.of_nat (S n)) with (N.succ (N.of_nat n)) in Hx by lia. rewrite N.pow_succ_r' in Hx. exact Hx.
Qed.
Lemma count_bits_filter n x :
  count_bits n x = N.of_nat (length (filter (N.testbit x) (map N.of_nat (seq 0 n)))).
Proof.
  induction n as [|n IH]; [reflexivity|].
  rewrite seq_S, map_app, filter_app, app_length. cbn [count_bits map filter plus].
  rewrite IH. destruct (N.testbit x (N.of_nat n)); cbn [length]; lia.
Qed.
Lemma popcount_elems x : W64 x -> popcount x = N.of_nat (length (elems x)).
Proof.
  intros Hx. rewrite (popcount_count 64) by exact Hx. rewrite elems_def. apply count_bits_filter.
Qed.
Lemma popcount_blsr x : W64 x -> x <> 0 -> popcount x = popcount (N.land x (x - 1)) + 1.
Proof.
  intros Hw Hx. rewrite !popcount_elems by (try apply blsr_W64; exact Hw).
  rewrite (elems_cons x) by assumption. cbn [length]. lia.
Qed.
Lemma popcount_le64 x : W64 x -> popcount x <= 64.
Proof.
  intros Hw. rewrite popcount_elems by exact Hw. pose proof (length_elems_le x). lia.
Qed.
Lemma popcount_zero x : popcount x = 0 <-> x = 0.
Proof.
  split; [|intros ->; reflexivity]. destruct x as [|p]; [reflexivity|]. cbn. intros H. exfalso.
  induction p as [p IH|p IH|]; cbn in H; [lia|exact (IH H)|lia].
Qed.
