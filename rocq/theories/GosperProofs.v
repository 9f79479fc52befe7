(** * Gosper's hack in the portable build (no BMI2): when does it enumerate the k-element subsets? *)
From Coq Require Import NArith List Bool Lia ZifyBool ZifyN Sorting.Sorted.
From Verif Require Import Word WordProofs Bitset BitsetProofs.
Import ListNotations.
Open Scope N_scope.
Arguments N.pow : simpl never.
Arguments N.ones : simpl never.
Arguments N.mul : simpl never.
Arguments N.add : simpl never.
Arguments N.sub : simpl never.

Definition trunc_count (a b : N) : N := if b <=? 31 then b + 1 - a else 32 - a.

Lemma popcount_trunc a b : a < b -> popcount ((2 ^ (b + 1) - 2 ^ a) mod 2 ^ 32) = trunc_count a b.
Proof.
  intros Hab. unfold trunc_count. pose proof (pow2_pos a) as Pa. destruct (N.leb_spec b 31) as [Hb|Hb].
  - assert (2 ^ (b + 1) <= 2 ^ 32) by (apply N.pow_le_mono_r; lia). rewrite N.mod_small by lia. apply popcount_block. lia.
  - destruct (N.le_gt_cases 32 a) as [Ha|Ha].
    + replace (2 ^ (b + 1) - 2 ^ a) with ((2 ^ (b + 1 - 32) - 2 ^ (a - 32)) * 2 ^ 32).
      * rewrite N.mod_mul by discriminate. replace (32 - a) with 0 by lia. reflexivity.
      * rewrite N.mul_sub_distr_r, <- !N.pow_add_r. f_equal; f_equal; lia.
    + replace (2 ^ (b + 1) - 2 ^ a) with ((2 ^ 32 - 2 ^ a) + (2 ^ (b + 1 - 32) - 1) * 2 ^ 32).
      * rewrite N.mod_add by discriminate. rewrite N.mod_small by (change (2 ^ 32) with 4294967296; lia). apply popcount_block. lia.
      * rewrite N.mul_sub_distr_r, <- N.pow_add_r. replace (b + 1 - 32 + 32) with (b + 1) by lia.
        assert (2 ^ a <= 2 ^ 32) by (apply N.pow_le_mono_r; lia). assert (2 ^ 32 <= 2 ^ (b + 1)) by (apply N.pow_le_mono_r; lia). lia.
Qed.

Lemma block_ctz H a b : a < b -> ctz (H * 2 ^ (b + 1) + (2 ^ b - 2 ^ a)) = a.
Proof.
  intros Hab. pose proof (pow2_pos a) as Pa. pose proof (pow2_pos b) as Pb.
  assert (Hb1 : 2 ^ (b + 1) = 2 * 2 ^ b) by (rewrite N.add_1_r, N.pow_succ_r'; reflexivity).
  assert (Hle : 2 ^ a < 2 ^ b) by (apply N.pow_lt_mono_r; lia).
  assert (E : 2 ^ b - 2 ^ a = N.ones (b - a) * 2 ^ a).
  { rewrite N.ones_equiv. replace (2 ^ b) with (2 ^ (b - a) * 2 ^ a) by (rewrite <- N.pow_add_r; f_equal; lia).
    pose proof (pow2_pos (b - a)). nia. }
  apply ctz_unique.
  - rewrite testbit_concat by lia. destruct (N.ltb_spec a (b + 1)); [|lia]. rewrite E, N.mul_pow2_bits_high by lia.
    rewrite N.sub_diag, testbit_ones. destruct (N.ltb_spec 0 (b - a)); [reflexivity|lia].
  - intros i Hi. rewrite testbit_concat by lia. destruct (N.ltb_spec i (b + 1)); [|lia]. rewrite E. apply N.mul_pow2_bits_low. exact Hi.
Qed.

Lemma next_values H a b : a < b -> b <= 63 -> H * 2 ^ (b + 1) + (2 ^ b - 2 ^ a) < 2 ^ 63 ->
  gh_next_bmi2 (H * 2 ^ (b + 1) + (2 ^ b - 2 ^ a)) = H * 2 ^ (b + 1) + 2 ^ b + (2 ^ (b - a - 1) - 1) /\
  gh_next_portable (H * 2 ^ (b + 1) + (2 ^ b - 2 ^ a)) = H * 2 ^ (b + 1) + 2 ^ b + (2 ^ (trunc_count a b - 2) - 1).
Proof.
  intros Hab Hb63 Hlt. pose proof (block_ctz H a b Hab) as Hctz. remember (H * 2 ^ (b + 1) + (2 ^ b - 2 ^ a)) as s eqn:E.
  pose proof (pow2_pos a) as Pa. pose proof (pow2_pos b) as Pb.
  assert (Hb1 : 2 ^ (b + 1) = 2 * 2 ^ b) by (rewrite N.add_1_r, N.pow_succ_r'; reflexivity).
  assert (Hle : 2 ^ a < 2 ^ b) by (apply N.pow_lt_mono_r; lia).
  assert (Hs : s <> 0) by lia.
  assert (HW : W64 s) by (unfold W64; lia).
  unfold gh_next_bmi2, gh_next_portable. cbv zeta. rewrite blsi_pow2 by assumption. rewrite Hctz.
  assert (Er : add64 s (2 ^ a) = H * 2 ^ (b + 1) + 2 ^ b).
  { unfold add64. rewrite wrap_small.
    - rewrite E. lia.
    - unfold W64. assert (2 ^ a <= 2 ^ 63) by (apply N.pow_le_mono_r; lia). lia. }
  assert (Em : N.lxor (H * 2 ^ (b + 1) + 2 ^ b) s = 2 ^ (b + 1) - 2 ^ a) by (rewrite E; apply xor_block; exact Hab).
  rewrite Er, Em.
  assert (Hmw : W64 (2 ^ (b + 1) - 2 ^ a)).
  { unfold W64. assert (2 ^ (b + 1) <= 2 ^ 64) by (apply N.pow_le_mono_r; lia). lia. }
  rewrite pext_self by exact Hmw. rewrite popcount_block by lia. rewrite popcount_trunc by exact Hab.
  assert (Esh : forall m, N.shiftr (N.ones m) 2 = N.ones (m - 2)).
  { intros m. apply N.bits_inj. intros i. rewrite N.shiftr_spec by lia. rewrite !testbit_ones.
    destruct (N.ltb_spec (i + 2) m), (N.ltb_spec i (m - 2)); try reflexivity; lia. }
  assert (Eo : forall m, m <= b -> N.lor (N.ones m) (H * 2 ^ (b + 1) + 2 ^ b) = H * 2 ^ (b + 1) + 2 ^ b + (2 ^ m - 1)).
  { intros m Hm. rewrite lor_add; [rewrite N.ones_equiv; lia|].
    apply N.bits_inj. intros i. rewrite N.land_spec, N.bits_0, testbit_ones. destruct (N.ltb_spec i m) as [Hi|Hi]; [|reflexivity].
    replace (H * 2 ^ (b + 1) + 2 ^ b) with ((2 * H + 1) * 2 ^ b) by lia. rewrite N.mul_pow2_bits_low by lia. reflexivity. }
  split.
  - rewrite Esh, Eo by lia. replace (b + 1 - a - 2) with (b - a - 1) by lia. reflexivity.
  - assert (Ht : trunc_count a b < 64 /\ trunc_count a b <= b + 1) by (unfold trunc_count; destruct (N.leb_spec b 31); lia).
    rewrite W64_shl1 by lia. rewrite sub64_1; [|apply pow_W64; lia|pose proof (pow2_pos (trunc_count a b)); lia].
    replace (2 ^ trunc_count a b - 1) with (N.ones (trunc_count a b)) by (rewrite N.ones_equiv; lia).
    rewrite Esh. apply Eo. lia.
Qed.

Lemma decomp63 s : s <> 0 -> s < 2 ^ 63 -> exists H a b, a < b /\ b <= 63 /\ s = H * 2 ^ (b + 1) + (2 ^ b - 2 ^ a).
Proof. intros Hs Hlt. destruct (gosper_value s Hs Hlt) as (H & a & b & A & B & C & _). exists H, a, b. auto. Qed.

(** Both variants agree, or both step beyond 2^32; one-element sets and runs reaching beyond: *)
Lemma next_agree s : s <> 0 -> s < 2 ^ 63 ->
  gh_next_portable s = gh_next_bmi2 s \/ (2 ^ 32 <= gh_next_portable s /\ 2 ^ 32 <= gh_next_bmi2 s /\ popcount s <> 1).
Proof.
  intros Hs Hlt. destruct (decomp63 s Hs Hlt) as (H & a & b & Hab & Hb & E).
  destruct (next_values H a b Hab Hb ltac:(lia)) as [V1 V2]. rewrite <- E in V1, V2. rewrite V1, V2. unfold trunc_count.
  pose proof (pow2_pos b). pose proof (pow2_pos a). pose proof (pow2_pos (b - a - 1)).
  destruct (N.leb_spec b 31) as [X|X].
  - left. replace (b + 1 - a - 2) with (b - a - 1) by lia. reflexivity.
  - destruct (N.eq_dec b (a + 1)) as [->|Y].
    + left. replace (32 - a - 2) with 0 by lia. replace (a + 1 - a - 1) with 0 by lia. reflexivity.
    + right. assert (2 ^ 32 <= 2 ^ b) by (apply N.pow_le_mono_r; lia). split; [lia|]. split; [lia|].
      assert (Hle : 2 ^ a < 2 ^ b) by (apply N.pow_lt_mono_r; lia).
      rewrite E, popcount_concat by (rewrite N.add_1_r, N.pow_succ_r'; lia). rewrite popcount_block by exact Hab. lia.
Qed.
Lemma portable_gt s : s <> 0 -> s < 2 ^ 63 -> s < gh_next_portable s.
Proof.
  intros Hs Hlt. destruct (decomp63 s Hs Hlt) as (H & a & b & Hab & Hb & E).
  destruct (next_values H a b Hab Hb ltac:(lia)) as [V1 V2]. rewrite <- E in V2. rewrite V2.
  pose proof (pow2_pos a). assert (Hle : 2 ^ a < 2 ^ b) by (apply N.pow_lt_mono_r; lia). lia.
Qed.

Lemma loop_agree k n : 1 <= k -> k <= n -> n < 64 -> (n <= 32 \/ k = 1 \/ k = n) -> forall fuel s, popcount s = k ->
  gh_loop gh_next_portable fuel {| gh_set := s; gh_limit := 2 ^ n |} = gh_loop gh_next_bmi2 fuel {| gh_set := s; gh_limit := 2 ^ n |}.
Proof.
  intros Hk Hkn Hn C. induction fuel as [|f IH]; intros s Ps; [reflexivity|]. cbn [gh_loop gh_set gh_limit].
  destruct (N.ltb_spec s (2 ^ n)) as [Hlt|]; [|reflexivity]. f_equal.
  assert (Hs : s <> 0) by (intros ->; cbn in Ps; lia).
  assert (H63 : s < 2 ^ 63) by (assert (2 ^ n <= 2 ^ 63) by (apply N.pow_le_mono_r; lia); lia).
  destruct (gosper_next_props s Hs H63) as [G1 [G2 G3]].
  destruct (next_agree s Hs H63) as [->|[A [B D]]]; [apply IH; congruence|].
  assert (X : 2 ^ n <= gh_next_portable s /\ 2 ^ n <= gh_next_bmi2 s).
  { destruct C as [C|[C|C]].
    - assert (2 ^ n <= 2 ^ 32) by (apply N.pow_le_mono_r; lia). lia.
    - congruence.
    - subst n. pose proof (popcount_lower s) as L. rewrite Ps in L. pose proof (portable_gt s Hs H63). lia. }
  destruct X as [X1 X2]. destruct f as [|f]; [reflexivity|]. cbn [gh_loop gh_set gh_limit].
  destruct (N.ltb_spec (gh_next_portable s) (2 ^ n)); [lia|]. destruct (N.ltb_spec (gh_next_bmi2 s) (2 ^ n)); [lia|]. reflexivity.
Qed.
Lemma gh_enumerate_all_value k n : k <= n -> n < 64 -> gh_enumerate_all k n = Some {| gh_set := N.ones k; gh_limit := 2 ^ n |}.
Proof.
  intros Hkn Hn. unfold gh_enumerate_all. destruct (N.leb_spec k n); [|lia]. destruct (N.ltb_spec n 64); [|lia]. cbn [andb].
  rewrite All_ones by lia. rewrite W64_shl1 by exact Hn. reflexivity.
Qed.
Lemma gh_all_portable k n : 1 <= k -> k <= n -> n < 64 -> (n <= 32 \/ k = 1 \/ k = n) ->
  exists g fuel l, gh_enumerate_all k n = Some g /\ gh_loop gh_next_portable fuel g = Some l /\
    StronglySorted N.lt l /\ forall t, In t l <-> popcount t = k /\ t < 2 ^ n.
Proof.
  intros Hk Hkn Hn C. destruct (gh_all_spec k n Hk Hkn Hn) as (g & fuel & l & A & B & D). exists g, fuel, l. split; [exact A|]. split; [|exact D].
  rewrite gh_enumerate_all_value in A by assumption. injection A as <-. rewrite (loop_agree k n Hk Hkn Hn C); [exact B|]. apply popcount_ones.
Qed.

Lemma in_next next f s lim l : gh_loop next f {| gh_set := s; gh_limit := lim |} = Some l -> s < lim -> next s < lim -> In (next s) l.
Proof.
  intros E A B. destruct f as [|f]; [discriminate|]. cbn [gh_loop gh_set gh_limit] in E. destruct (N.ltb_spec s lim); [|lia].
  destruct f as [|f]; [discriminate|]. cbn [gh_loop gh_set gh_limit] in E. destruct (N.ltb_spec (next s) lim); [|lia].
  destruct (gh_loop next f _) as [r|]; [|discriminate]. injection E as <-. right. left. reflexivity.
Qed.
(** The last [k]-element subset of [{0..31}]. *)
Lemma top_next k : 2 <= k -> k <= 32 -> gh_next_portable (2 ^ 32 - 2 ^ (32 - k)) = 2 ^ 32 + (2 ^ (k - 2) - 1).
Proof.
  intros Hk H32. pose proof (pow2_pos (32 - k)). destruct (next_values 0 (32 - k) 32 ltac:(lia) ltac:(lia)) as [_ V].
  - change (2 ^ 63) with 9223372036854775808. change (2 ^ 32) with 4294967296. lia.
  - rewrite !N.mul_0_l, !N.add_0_l in V. rewrite V. unfold trunc_count. destruct (N.leb_spec 32 31); [lia|].
    replace (32 - (32 - k) - 2) with (k - 2) by lia. reflexivity.
Qed.
Lemma reaches_top k n : 2 <= k -> k <= 32 -> 33 <= n -> n < 64 -> forall f s l, popcount s = k -> s <= 2 ^ 32 - 2 ^ (32 - k) ->
  gh_loop gh_next_portable f {| gh_set := s; gh_limit := 2 ^ n |} = Some l -> In (2 ^ 32 + (2 ^ (k - 2) - 1)) l.
Proof.
  intros Hk H32 Hn33 Hn. set (top := 2 ^ 32 - 2 ^ (32 - k)). pose proof (pow2_pos (32 - k)) as Pk. pose proof (top_next k Hk H32) as Vt.
  assert (Pt : popcount top = k) by (unfold top; rewrite popcount_block; lia).
  assert (T32 : top < 2 ^ 32) by (unfold top; change (2 ^ 32) with 4294967296; lia).
  assert (L33 : 2 ^ 33 <= 2 ^ n) by (apply N.pow_le_mono_r; lia).
  assert (L63 : 2 ^ 32 < 2 ^ 63) by reflexivity.
  assert (Lk : 2 ^ (k - 2) <= 2 ^ 32) by (apply N.pow_le_mono_r; lia).
  assert (E33 : 2 ^ 33 = 2 * 2 ^ 32) by reflexivity.
  fold top in Vt. clearbody top. induction f as [|f IH]; intros s l Ps Le E; [discriminate|].
  assert (Hs : s <> 0) by (intros ->; cbn in Ps; lia).
  destruct (N.eq_dec s top) as [->|Ne].
  - rewrite <- Vt. apply (in_next _ _ _ _ _ E); [lia|rewrite Vt; lia].
  - cbn [gh_loop gh_set gh_limit] in E. destruct (N.ltb_spec s (2 ^ n)); [|lia].
    destruct (gh_loop gh_next_portable f _) as [r|] eqn:Er; [|discriminate]. injection E as <-. right.
    destruct (gosper_next_props s Hs ltac:(lia)) as [G1 [G2 G3]]. specialize (G3 top ltac:(congruence) ltac:(lia)).
    destruct (next_agree s Hs ltac:(lia)) as [A|[_ [B _]]]; [|lia]. rewrite A in Er. eapply IH; [|exact G3|exact Er]. congruence.
Qed.
Lemma portable_wrong k n : 2 <= k -> k < n -> 33 <= n -> n < 64 -> forall g f l, gh_enumerate_all k n = Some g -> gh_loop gh_next_portable f g = Some l ->
  exists t, In t l /\ popcount t <> k.
Proof.
  intros Hk Hkn H33 Hn g f l Eg El. rewrite gh_enumerate_all_value in Eg by lia. injection Eg as <-.
  destruct (N.le_gt_cases k 32) as [H32|H32].
  - exists (2 ^ 32 + (2 ^ (k - 2) - 1)). pose proof (pow2_pos (k - 2)). split.
    + eapply (reaches_top k n); [| | | | | |exact El]; try assumption; [apply popcount_ones|].
      rewrite N.ones_equiv. assert (2 ^ 32 = 2 ^ (32 - k) * 2 ^ k) as -> by (rewrite <- N.pow_add_r; f_equal; lia).
      pose proof (pow2_pos k). pose proof (pow2_pos (32 - k)). nia.
    + replace (2 ^ 32 + (2 ^ (k - 2) - 1)) with (1 * 2 ^ 32 + (2 ^ (k - 2) - 1)) by lia.
      assert (2 ^ (k - 2) <= 2 ^ 32) by (apply N.pow_le_mono_r; lia). rewrite popcount_concat by lia.
      replace (2 ^ (k - 2) - 1) with (N.ones (k - 2)) by (rewrite N.ones_equiv; lia). rewrite popcount_ones. change (popcount 1) with 1. lia.
  - assert (E1 : N.ones k = 0 * 2 ^ (k + 1) + (2 ^ k - 2 ^ 0)) by (rewrite N.ones_equiv, N.mul_0_l; change (2 ^ 0) with 1; lia).
    assert (L63 : N.ones k < 2 ^ 63).
    { rewrite N.ones_equiv. assert (2 ^ k <= 2 ^ 63) by (apply N.pow_le_mono_r; lia). pose proof (pow2_pos k). lia. }
    assert (V : gh_next_portable (N.ones k) = 2 ^ k + (2 ^ 30 - 1)).
    { rewrite E1. destruct (next_values 0 0 k ltac:(lia) ltac:(lia)) as [_ V]; [rewrite <- E1; exact L63|]. rewrite V. rewrite N.mul_0_l, N.add_0_l.
      unfold trunc_count. destruct (N.leb_spec k 31); [lia|]. reflexivity. }
    assert (L30 : 2 ^ 30 <= 2 ^ k) by (apply N.pow_le_mono_r; lia).
    assert (Ln : 2 * 2 ^ k <= 2 ^ n) by (rewrite <- N.pow_succ_r'; apply N.pow_le_mono_r; lia). pose proof (pow2_pos 30) as P30.
    exists (gh_next_portable (N.ones k)). split.
    + apply (in_next _ _ _ _ _ El); [rewrite N.ones_equiv; lia|rewrite V; lia].
    + rewrite V. replace (2 ^ k + (2 ^ 30 - 1)) with (1 * 2 ^ k + (2 ^ 30 - 1)) by lia. rewrite popcount_concat by lia.
      change (popcount 1) with 1. change (popcount (2 ^ 30 - 1)) with 30. lia.
Qed.

Lemma loop_below next f : forall s lim l, gh_loop next f {| gh_set := s; gh_limit := lim |} = Some l -> forall t, In t l -> t < lim.
Proof.
  induction f as [|f IH]; intros s lim l E t I; [discriminate|]. cbn [gh_loop gh_set gh_limit] in E.
  destruct (N.ltb_spec s lim) as [L|L]; [|injection E as <-; destruct I].
  destruct (gh_loop next f _) as [r|] eqn:Er; [|discriminate]. injection E as <-. destruct I as [<-|I]; [exact L|]. eapply IH; eauto.
Qed.
Lemma portable_below k n g f l t : gh_enumerate_all k n = Some g -> gh_loop gh_next_portable f g = Some l -> In t l -> t < 2 ^ n.
Proof.
  intros Eg El I. unfold gh_enumerate_all in Eg. destruct (N.leb_spec k n); [|discriminate]. destruct (N.ltb_spec n 64); [|discriminate]. cbn [andb] in Eg.
  destruct (sbs_All k); [|discriminate]. injection Eg as <-. rewrite W64_shl1 in El by assumption. exact (loop_below _ _ _ _ _ El t I).
Qed.
Lemma se_portable set k : W64 set -> popcount set < 64 -> 1 <= k -> k <= popcount set -> (popcount set <= 32 \/ k = 1 \/ k = popcount set) ->
  exists g fuel l, se_make set k = Some g /\ se_loop gh_next_portable set fuel g = Some l /\ NoDup l /\
    forall T, In T l <-> Sub T set /\ popcount T = k.
Proof.
  intros Hw H64 Hk Hks C. destruct (se_spec set k Hw H64 Hk Hks) as (g & fuel & l & A & B & D). exists g, fuel, l. split; [exact A|]. split; [|exact D].
  rewrite se_loop_map in *. unfold se_make in A. unfold sbs_size in A. rewrite gh_enumerate_all_value in A by assumption. injection A as <-.
  rewrite (loop_agree k (popcount set) Hk Hks H64 C); [exact B|apply popcount_ones].
Qed.
