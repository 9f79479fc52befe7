(** * C05, C06, C41, C44: arithmetic helpers. *)
From Coq Require Import NArith ZArith List Bool Lia FinFun.
From Verif Require Import Word WordProofs Arith.
Import ListNotations.
Open Scope N_scope.
Arguments N.pow : simpl never.
Arguments N.testbit : simpl never.

(** [r] is the least number satisfying [P] that is not below [n]. *)
Definition least_above (P : N -> Prop) (n r : N) : Prop := P r /\ n <= r /\ forall r', P r' -> n <= r' -> r <= r'.
Definition power_of_two (x : N) : Prop := exists k, x = 2 ^ k.
Definition multiple_of (m x : N) : Prop := exists k, x = k * m.

Lemma wr_small w x : x < 2 ^ w -> wr w x = x.
Proof. apply N.mod_small. Qed.
Lemma wr_lt w x : wr w x < 2 ^ w.
Proof. apply N.mod_lt, N.pow_nonzero. lia. Qed.
Lemma wsub_ge w a b : a < 2 ^ w -> b <= a -> wsub w a b = a - b.
Proof.
  intros Ha Hb. unfold wsub. rewrite wr_small by lia. replace (a + (2 ^ w - b)) with (a - b + 1 * 2 ^ w) by lia.
  rewrite N.mod_add by (apply N.pow_nonzero; lia). apply N.mod_small. lia.
Qed.
Lemma wsub_lt w a b : b < 2 ^ w -> a < b -> wsub w a b = 2 ^ w + a - b.
Proof.
  intros Hb Ha. unfold wsub. rewrite wr_small by lia. rewrite N.mod_small by lia. lia.
Qed.
Lemma wsub_range w a b : wsub w a b < 2 ^ w.
Proof. unfold wsub. apply N.mod_lt, N.pow_nonzero. lia. Qed.
Lemma pow2_nz w : 2 ^ w <> 0. Proof. apply N.pow_nonzero. lia. Qed.

(** ** C05 *)
Lemma land_pred_pow2 n : n <> 0 -> (N.land n (n - 1) = 0 <-> power_of_two n).
Proof.
  intros Hn. split.
  - intros H. exists (ctz n). apply N.bits_inj. intros i. rewrite testbit_pow2.
    pose proof (testbit_blsr n i Hn) as X. rewrite H, N.bits_0 in X.
    destruct (N.eqb_spec i (ctz n)) as [E|Hne]; [rewrite E; apply testbit_ctz; exact Hn|]. cbn [negb] in X. rewrite andb_true_r in X. congruence.
  - intros [k ->]. apply N.bits_inj_0. intros i. rewrite testbit_blsr by apply pow2_nz. rewrite testbit_pow2.
    destruct (N.eqb_spec i k) as [->|Hne]; [|reflexivity]. cbn [andb].
    rewrite (ctz_unique (2 ^ k) k); [rewrite N.eqb_refl; reflexivity|rewrite testbit_pow2; apply N.eqb_refl|].
    intros j Hj. rewrite testbit_pow2. apply N.eqb_neq. lia.
Qed.

Theorem C05_is_pow_2 : forall w n, n < 2 ^ w -> (is_pow_2 w n = true <-> power_of_two n).
Proof.
  intros w n Hn. unfold is_pow_2. destruct (N.eqb_spec n 0) as [->|Hz].
  - split; [discriminate|]. intros [k Hk]. symmetry in Hk. apply pow2_nz in Hk. destruct Hk.
  - rewrite wsub_ge by lia. rewrite N.eqb_eq. apply land_pred_pow2. exact Hz.
Qed.
Print Assumptions C05_is_pow_2.

(** 32- and 64-bit types: exact whenever the result is representable, an assertion failure otherwise. *)
Theorem C05_ceil_to_pow_2 : forall w n, w = 32 \/ w = 64 -> n < 2 ^ w ->
  match ceil_to_pow_2 w n with
  | Some r => least_above power_of_two n r
  | None => forall r, least_above power_of_two n r -> 2 ^ w <= r
  end.
Proof.
  intros w n Hw Hn. unfold ceil_to_pow_2.
  destruct (N.leb_spec n 1) as [H1|H1].
  - split; [exists 0; reflexivity|]. split; [exact H1|]. intros r' [k ->] _. pose proof (pow2_nz k). lia.
  - assert (Hbw : builtin_width w = w) by (destruct Hw as [-> | ->]; reflexivity). rewrite Hbw.
    assert (Hm : N.max w 32 = w) by (destruct Hw as [-> | ->]; reflexivity). rewrite Hm.
    unfold builtin_clz. destruct (N.eqb_spec (n - 1) 0) as [H0|H0]; [lia|].
    set (l := N.log2 (n - 1)).
    assert (Hlog : 2 ^ l <= n - 1 < 2 ^ (N.succ l)) by (apply N.log2_spec; lia).
    assert (Hl : l < w).
    { unfold l. apply N.log2_lt_pow2; lia. }
    assert (Hleast : least_above power_of_two n (2 ^ (l + 1))).
    { split; [exists (l + 1); reflexivity|]. rewrite N.add_1_r. split; [lia|]. intros r' [k ->] Hk.
      apply N.pow_le_mono_r; [lia|]. apply N.le_succ_l. apply (N.pow_lt_mono_r_iff 2); lia. }
    destruct (N.eqb_spec (w - 1 - l) 0) as [Hz|Hz].
    + intros r [Hr0 [Hr1 Hr2]]. assert (El : l = w - 1) by lia. destruct Hleast as [P1 [P2 P3]].
      assert (X : r = 2 ^ (l + 1)).
      { apply N.le_antisymm; [apply Hr2; assumption|apply P3; assumption]. }
      rewrite X. replace (l + 1) with w by lia. lia.
    + destruct (N.ltb_spec w (w - 1 - l)) as [Hx|_]; [lia|].
      replace (w - (w - 1 - l)) with (l + 1) by lia. rewrite N.shiftl_1_l.
      assert (Hlw : 2 ^ (l + 1) < 2 ^ w) by (apply N.pow_lt_mono_r; lia).
      rewrite (wr_small w (2 ^ (l + 1))) by exact Hlw.
      destruct (N.ltb_spec (2 ^ (l + 1)) n) as [Hx|_]; [destruct Hleast as [_ [Hy _]]; lia|].
      assert (E2 : 2 ^ (l + 1) = 2 * 2 ^ l) by (rewrite N.add_1_r, N.pow_succ_r'; reflexivity).
      assert (Hguard : negb (wr w (N.shiftl n 1) =? 0) && negb (2 ^ (l + 1) <? wr w (N.shiftl n 1)) = false).
      { rewrite N.shiftl_mul_pow2. change (2 ^ 1) with 2.
        destruct (N.lt_ge_cases (n * 2) (2 ^ w)) as [Hs|Hs].
        - rewrite wr_small by exact Hs. apply andb_false_iff. right. apply negb_false_iff, N.ltb_lt. lia.
        - assert (n <= 2 ^ (w - 1)).
          { destruct Hleast as [_ [Hy _]]. assert (2 ^ (l + 1) <= 2 ^ (w - 1)) by (apply N.pow_le_mono_r; lia). lia. }
          assert (2 ^ w = 2 * 2 ^ (w - 1)) by (rewrite <- N.pow_succ_r'; f_equal; lia).
          assert (En : n * 2 = 2 ^ w) by lia. rewrite En. unfold wr. rewrite N.mod_same by apply pow2_nz. reflexivity. }
      rewrite Hguard.
      assert (Hp : is_pow_2 w (2 ^ (l + 1)) = true) by (apply C05_is_pow_2; [exact Hlw|exists (l + 1); reflexivity]).
      rewrite Hp. exact Hleast.
Qed.
Print Assumptions C05_ceil_to_pow_2.

(** Finding: for 8- and 16-bit types every call with [n >= 2] fails: the number of leading zeros is that of a 32-bit word. *)
Theorem C05_ceil_to_pow_2_narrow_refuted : forall w n, w = 8 \/ w = 16 -> 2 <= n < 2 ^ w -> ceil_to_pow_2 w n = None.
Proof.
  intros w n Hw Hn. unfold ceil_to_pow_2. destruct (N.leb_spec n 1) as [H1|_]; [lia|].
  assert (Hbw : builtin_width w = 32) by (destruct Hw as [-> | ->]; reflexivity). rewrite Hbw.
  unfold builtin_clz. destruct (N.eqb_spec (n - 1) 0) as [H0|H0]; [lia|].
  assert (Hl : N.log2 (n - 1) < w) by (apply N.log2_lt_pow2; lia).
  destruct (N.eqb_spec (32 - 1 - N.log2 (n - 1)) 0) as [Hz|Hz]; [reflexivity|].
  destruct (N.ltb_spec w (32 - 1 - N.log2 (n - 1))) as [Hx|Hx]; [reflexivity|].
  destruct Hw as [-> | ->]; [lia|]. replace (16 - (32 - 1 - N.log2 (n - 1))) with 0 by lia.
  change (wr 16 (N.shiftl 1 0)) with 1. destruct (N.ltb_spec 1 n); [reflexivity|lia].
Qed.
Print Assumptions C05_ceil_to_pow_2_narrow_refuted.

Lemma land_not_mask w x k : k <= w -> x < 2 ^ w -> N.land x (wnot w (2 ^ k - 1)) = x / 2 ^ k * 2 ^ k.
Proof.
  intros Hk Hx. unfold wnot. rewrite <- N.shiftr_div_pow2, <- N.shiftl_mul_pow2. apply N.bits_inj. intros i.
  replace (2 ^ k - 1) with (N.ones k) by (rewrite N.ones_equiv; lia).
  rewrite N.land_spec, N.lxor_spec, !testbit_ones.
  destruct (N.ltb_spec i k) as [H|H].
  - rewrite N.shiftl_spec_low by exact H. destruct (N.ltb_spec i w) as [H2|H2]; [cbn; apply andb_false_r|lia].
  - rewrite N.shiftl_spec_high' by exact H. rewrite N.shiftr_spec'. replace (i - k + k) with i by lia.
    destruct (N.ltb_spec i w) as [H2|H2]; cbn [xorb]; [apply andb_true_r|]. rewrite (testbit_high x w i Hx H2). reflexivity.
Qed.

Lemma ceil_div_least n p : p <> 0 -> least_above (multiple_of p) n ((n + (p - 1)) / p * p).
Proof.
  intros Hp. pose proof (N.div_mod (n + (p - 1)) p Hp) as E. pose proof (N.mod_lt (n + (p - 1)) p Hp) as L.
  set (q := (n + (p - 1)) / p) in *. split; [exists q; reflexivity|]. split; [lia|].
  intros r' [k ->] Hk. apply N.mul_le_mono_r. destruct (N.le_gt_cases q k) as [H|H]; [exact H|]. exfalso.
  assert (k + 1 <= q) by lia. assert ((k + 1) * p <= q * p) by (apply N.mul_le_mono_r; assumption). lia.
Qed.
Lemma least_above_unique P n r r' : least_above P n r -> least_above P n r' -> r = r'.
Proof. intros [A1 [A2 A3]] [B1 [B2 B3]]. apply N.le_antisymm; auto. Qed.

(** Exact when the result is representable; the assertion on the second argument is the only other way to fail.
    When the result is not representable the function silently returns 0. *)
Theorem C05_ceil_to_multiple_of_pow_2 : forall w n p, n < 2 ^ w -> p < 2 ^ w -> power_of_two p ->
  exists r, ceil_to_multiple_of_pow_2 w n p = Some r /\
    forall e, least_above (multiple_of p) n e -> r = if e <? 2 ^ w then e else 0.
Proof.
  intros w n p Hn Hp Hpow. unfold ceil_to_multiple_of_pow_2.
  assert (Hi : is_pow_2 w p = true) by (apply C05_is_pow_2; assumption). rewrite Hi. cbn [negb].
  destruct Hpow as [k ->]. pose proof (pow2_nz k) as Hnz. rewrite wsub_ge by lia.
  assert (Hk : k < w) by (apply (N.pow_lt_mono_r_iff 2); lia).
  rewrite land_not_mask by (try apply wr_lt; lia).
  rewrite N.mod_mul by exact Hnz. cbn [N.eqb negb]. eexists. split; [reflexivity|].
  intros e He. rewrite (least_above_unique _ _ _ _ He (ceil_div_least n (2 ^ k) Hnz)). clear He e.
  assert (Ew : 2 ^ w = 2 ^ (w - k) * 2 ^ k) by (rewrite <- N.pow_add_r; f_equal; lia).
  destruct (N.lt_ge_cases (n + (2 ^ k - 1)) (2 ^ w)) as [Hs|Hs].
  - rewrite wr_small by exact Hs. pose proof (N.mul_div_le (n + (2 ^ k - 1)) (2 ^ k) Hnz).
    destruct (N.ltb_spec ((n + (2 ^ k - 1)) / 2 ^ k * 2 ^ k) (2 ^ w)); [reflexivity|lia].
  - assert (H1 : wr w (n + (2 ^ k - 1)) = n + (2 ^ k - 1) - 2 ^ w).
    { unfold wr. replace (n + (2 ^ k - 1)) with (n + (2 ^ k - 1) - 2 ^ w + 1 * 2 ^ w) at 1 by lia.
      rewrite N.mod_add by apply pow2_nz. apply N.mod_small. lia. }
    rewrite H1, N.div_small by lia.
    assert (2 ^ (w - k) <= (n + (2 ^ k - 1)) / 2 ^ k) by (apply N.div_le_lower_bound; [exact Hnz|lia]).
    destruct (N.ltb_spec ((n + (2 ^ k - 1)) / 2 ^ k * 2 ^ k) (2 ^ w)) as [Hx|Hx]; [|reflexivity].
    assert (2 ^ (w - k) * 2 ^ k <= (n + (2 ^ k - 1)) / 2 ^ k * 2 ^ k) by (apply N.mul_le_mono_r; assumption). lia.
Qed.
Print Assumptions C05_ceil_to_multiple_of_pow_2.

(** Throws exactly for factor 0 (unless the value is 0); otherwise exact when representable. *)
Theorem C05_round_up_to_multiple : forall w val factor, val < 2 ^ w -> factor < 2 ^ w ->
  match round_up_to_multiple w val factor with
  | None => factor = 0 /\ val <> 0
  | Some r => (factor <> 0 \/ val = 0) /\ forall e, least_above (multiple_of factor) val e -> e < 2 ^ w -> r = e
  end.
Proof.
  intros w val factor Hv Hf. unfold round_up_to_multiple. destruct (N.eqb_spec val 0) as [->|Hz].
  - split; [right; reflexivity|]. intros e [_ [_ H]] _. specialize (H 0). assert (multiple_of factor 0) by (exists 0; reflexivity). specialize (H H0). lia.
  - destruct (N.eqb_spec factor 0) as [->|Hfz]; [tauto|]. split; [left; exact Hfz|]. intros e He Hew.
    rewrite (least_above_unique _ _ _ _ He (ceil_div_least val factor Hfz)) in *.
    pose proof (N.div_mod val factor Hfz) as E. pose proof (N.mod_lt val factor Hfz) as L.
    set (d := val / factor) in *. assert (Hd : d * factor <= val) by lia.
    rewrite (wr_small w (d * factor)) by lia.
    assert (Ee : (val + (factor - 1)) / factor = d + (if d * factor =? val then 0 else 1)).
    { destruct (N.eqb_spec (d * factor) val) as [Hx|Hx].
      - symmetry. apply (N.div_unique _ _ _ (factor - 1)); lia.
      - symmetry. apply (N.div_unique _ _ _ (val mod factor - 1)); lia. }
    assert (Es : d + (if negb (d * factor =? val) then 1 else 0) = (val + (factor - 1)) / factor).
    { rewrite Ee. destruct (d * factor =? val); reflexivity. }
    rewrite Es.
    assert ((val + (factor - 1)) / factor < 2 ^ w).
    { destruct (N.lt_ge_cases ((val + (factor - 1)) / factor) (2 ^ w)); [assumption|].
      assert (2 ^ w * 1 <= (val + (factor - 1)) / factor * factor) by (apply N.mul_le_mono; lia). lia. }
    rewrite (wr_small w ((val + (factor - 1)) / factor)) by assumption. apply wr_small. exact Hew.
Qed.
Print Assumptions C05_round_up_to_multiple.

Theorem C05_log2_floor : forall w n, w = 32 \/ w = 64 -> 0 < n < 2 ^ w ->
  exists l, log2_floor w n = Some l /\ 2 ^ l <= n < 2 ^ (l + 1).
Proof.
  intros w n Hw Hn. unfold log2_floor.
  assert (Hbw : builtin_width w = w) by (destruct Hw as [-> | ->]; reflexivity). rewrite Hbw.
  unfold builtin_clz. destruct (N.eqb_spec n 0) as [H0|H0]; [lia|].
  assert (Hl : N.log2 n < w) by (apply N.log2_lt_pow2; lia).
  assert (Hlt : w <= 64) by (destruct Hw; lia).
  assert (H64 : 64 < 2 ^ 64) by (vm_compute; reflexivity).
  rewrite (wsub_ge 64 w) by lia. rewrite wsub_ge by lia.
  replace (w - (w - 1 - N.log2 n) - 1) with (N.log2 n) by lia.
  assert (Hw2 : 64 < 2 ^ w) by (destruct Hw as [-> | ->]; vm_compute; reflexivity).
  rewrite wr_small by lia.
  eexists. split; [reflexivity|]. rewrite N.add_1_r. apply N.log2_spec. lia.
Qed.
Print Assumptions C05_log2_floor.

Theorem C05_log2_ceil : forall w n, w = 32 \/ w = 64 -> 0 < n < 2 ^ w ->
  exists l, log2_ceil w n = Some l /\ n <= 2 ^ l /\ forall k, n <= 2 ^ k -> l <= k.
Proof.
  intros w n Hw Hn. unfold log2_ceil. destruct (N.leb_spec n 1) as [H|H].
  - exists 0. split; [reflexivity|]. split; [exact H|]. lia.
  - destruct (C05_log2_floor w (n - 1) Hw ltac:(lia)) as [l [-> Hl]].
    assert (Hlw : l < w) by (apply (N.pow_lt_mono_r_iff 2); lia).
    assert (Hw2 : w < 2 ^ w) by (apply N.pow_gt_lin_r; lia).
    rewrite wr_small by lia. exists (l + 1). split; [reflexivity|]. split; [lia|].
    intros k Hk. assert (l < k) by (apply (N.pow_lt_mono_r_iff 2); lia). lia.
Qed.
Print Assumptions C05_log2_ceil.

(** Finding: on 8-bit types [log2_floor] is off: [log2_floor<uint8_t>(4) = 234]. *)
Theorem C05_log2_floor_narrow_refuted : log2_floor 8 4 = Some 234 /\ log2_floor 16 4 = Some 65522.
Proof. split; vm_compute; reflexivity. Qed.
Print Assumptions C05_log2_floor_narrow_refuted.

Theorem C05_ceil_to_next_page : forall P n, power_of_two P -> P < 2 ^ 64 -> n < 2 ^ 64 ->
  forall e, least_above (multiple_of P) n e -> ceil_to_next_page P n = if e <? 2 ^ 64 then e else 0.
Proof.
  intros P n [k ->] HP Hn e He. pose proof (pow2_nz k) as Hnz.
  assert (Hk : k < 64) by (apply (N.pow_lt_mono_r_iff 2); lia).
  rewrite (least_above_unique _ _ _ _ He (ceil_div_least n (2 ^ k) Hnz)). clear He e.
  unfold ceil_to_next_page. rewrite (wsub_ge 64 (2 ^ k) 1) by lia.
  assert (Hor : forall x, N.lor x (2 ^ k - 1) = x / 2 ^ k * 2 ^ k + (2 ^ k - 1)).
  { intros x. rewrite <- lor_add.
    - rewrite <- N.shiftr_div_pow2, <- N.shiftl_mul_pow2. replace (2 ^ k - 1) with (N.ones k) by (rewrite N.ones_equiv; lia).
      apply N.bits_inj. intros i. rewrite !N.lor_spec, testbit_ones. destruct (N.ltb_spec i k) as [H|H]; [rewrite !orb_true_r; reflexivity|].
      rewrite N.shiftl_spec_high', N.shiftr_spec' by exact H. replace (i - k + k) with i by lia. reflexivity.
    - replace (2 ^ k - 1) with (N.ones k) by (rewrite N.ones_equiv; lia). rewrite N.land_ones. apply N.mod_mul. exact Hnz. }
  rewrite Hor. destruct (N.eq_dec n 0) as [->|Hz].
  - rewrite wsub_lt by (vm_compute; reflexivity).
    assert (Ew : 2 ^ 64 = 2 ^ (64 - k) * 2 ^ k) by (rewrite <- N.pow_add_r; f_equal; lia).
    assert (Hdiv : (2 ^ 64 + 0 - 1) / 2 ^ k = 2 ^ (64 - k) - 1).
    { symmetry. pose proof (pow2_nz (64 - k)). apply (N.div_unique _ _ _ (2 ^ k - 1)); [lia|]. rewrite N.mul_sub_distr_l.
      rewrite (N.mul_comm (2 ^ k)), <- Ew. nia. }
    rewrite Hdiv. rewrite N.mul_sub_distr_r, <- Ew.
    replace (2 ^ 64 - 1 * 2 ^ k + (2 ^ k - 1) + 1) with (2 ^ 64) by lia.
    rewrite (N.div_small (0 + (2 ^ k - 1)) (2 ^ k)) by lia. vm_compute. reflexivity.
  - rewrite wsub_ge by lia.
    assert (Hq : (n + (2 ^ k - 1)) / 2 ^ k = (n - 1) / 2 ^ k + 1).
    { replace (n + (2 ^ k - 1)) with (n - 1 + 1 * 2 ^ k) by lia. apply N.div_add. exact Hnz. }
    rewrite Hq. replace ((n - 1) / 2 ^ k * 2 ^ k + (2 ^ k - 1) + 1) with (((n - 1) / 2 ^ k + 1) * 2 ^ k) by lia.
    set (q := (n - 1) / 2 ^ k + 1). destruct (N.ltb_spec (q * 2 ^ k) (2 ^ 64)) as [H|H]; [apply wr_small; exact H|].
    assert (Hle : q * 2 ^ k <= 2 ^ 64).
    { assert (Ew : 2 ^ 64 = 2 ^ (64 - k) * 2 ^ k) by (rewrite <- N.pow_add_r; f_equal; lia). rewrite Ew. apply N.mul_le_mono_r.
      assert ((n - 1) / 2 ^ k < 2 ^ (64 - k)); [|lia]. apply N.div_lt_upper_bound; [exact Hnz|]. rewrite N.mul_comm, <- Ew. lia. }
    assert (E : q * 2 ^ k = 2 ^ 64) by lia. rewrite E. reflexivity.
Qed.
Print Assumptions C05_ceil_to_next_page.

Theorem C05_is_page_aligned : forall P n, power_of_two P -> P < 2 ^ 64 -> (is_page_aligned P n = true <-> multiple_of P n).
Proof.
  intros P n [k ->] HP. pose proof (pow2_nz k) as Hnz. unfold is_page_aligned. rewrite wsub_ge by lia.
  replace (2 ^ k - 1) with (N.ones k) by (rewrite N.ones_equiv; lia). rewrite N.land_ones, N.eqb_eq. split.
  - intros H. exists (n / 2 ^ k). pose proof (N.div_mod n (2 ^ k) Hnz). lia.
  - intros [q ->]. apply N.mod_mul. exact Hnz.
Qed.
Print Assumptions C05_is_page_aligned.

Example C05_nonvacuous : ceil_to_pow_2 32 1000 = Some 1024 /\ ceil_to_pow_2 64 (2 ^ 63) = Some (2 ^ 63) /\
  ceil_to_multiple_of_pow_2 64 4097 4096 = Some 8192 /\ round_up_to_multiple 32 10 7 = Some 14 /\ log2_ceil 64 1025 = Some 11 /\
  ceil_to_next_page 4096 4097 = 8192 /\ power_of_two 4096 /\ least_above (multiple_of 4096) 4097 8192.
Proof.
  repeat (split; [vm_compute; reflexivity|]). split; [exists 12; reflexivity|].
  split; [exists 2; reflexivity|]. split; [vm_compute; discriminate|]. intros r' [j ->]. lia.
Qed.

(** ** C06 *)
Definition same_width (w : N) (l : list num) : Prop := forall a, In a l -> fst a = w /\ snd a < 2 ^ w.

Theorem C06_add : forall wa a wb b, a < 2 ^ wa -> b < 2 ^ wb ->
  add_wo_overflow (wa, a) (wb, b) = (N.max wa wb, N.min (a + b) (2 ^ N.max wa wb - 1)).
Proof.
  intros wa a wb b Ha Hb. unfold add_wo_overflow. cbn [fst snd]. pose proof (pow2_nz (N.max wa wb)).
  destruct (N.leb_spec (2 ^ N.max wa wb) (a + b)); f_equal; lia.
Qed.
Print Assumptions C06_add.
Theorem C06_mul : forall wa a wb b, a < 2 ^ wa -> b < 2 ^ wb ->
  mul_wo_overflow (wa, a) (wb, b) = (N.max wa wb, N.min (a * b) (2 ^ N.max wa wb - 1)).
Proof.
  intros wa a wb b Ha Hb. unfold mul_wo_overflow. cbn [fst snd]. pose proof (pow2_nz (N.max wa wb)).
  destruct (N.leb_spec (2 ^ N.max wa wb) (a * b)); f_equal; lia.
Qed.
Print Assumptions C06_mul.

(** The variadic versions on arguments of one type: the exact sum (product), clamped once. *)
Theorem C06_sum : forall w n0 n1 rest, same_width w (n0 :: n1 :: rest) ->
  sum_wo_overflow n0 n1 rest = (w, N.min (snd n0 + snd n1 + fold_right N.add 0 (map snd rest)) (2 ^ w - 1)).
Proof.
  intros w n0 n1 rest H. unfold sum_wo_overflow.
  destruct (H n0 ltac:(left; reflexivity)) as [W0 L0]. destruct (H n1 ltac:(right; left; reflexivity)) as [W1 L1].
  destruct n0 as [w0 v0], n1 as [w1 v1]. cbn [fst snd] in *. subst w0 w1. rewrite C06_add by assumption. rewrite N.max_id.
  assert (Hr : same_width w rest) by (intros a Ha; apply H; right; right; exact Ha). clear H L0 L1.
  generalize (v0 + v1). clear v0 v1. induction rest as [|[wb b] rest IH]; intros s; cbn [fold_left fold_right map snd].
  - f_equal. lia.
  - destruct (Hr (wb, b) ltac:(left; reflexivity)) as [Wb Lb]. cbn [fst snd] in *. subst wb. pose proof (pow2_nz w).
    rewrite C06_add by (try exact Lb; lia). rewrite N.max_id.
    replace (N.min (N.min s (2 ^ w - 1) + b) (2 ^ w - 1)) with (N.min (s + b) (2 ^ w - 1)) by lia.
    rewrite IH by (intros a Ha; apply Hr; right; exact Ha). f_equal. lia.
Qed.
Print Assumptions C06_sum.

Theorem C06_prod : forall w n0 n1 rest, same_width w (n0 :: n1 :: rest) ->
  prod_wo_overflow n0 n1 rest = (w, N.min (snd n0 * snd n1 * fold_right N.mul 1 (map snd rest)) (2 ^ w - 1)).
Proof.
  intros w n0 n1 rest H. unfold prod_wo_overflow.
  destruct (H n0 ltac:(left; reflexivity)) as [W0 L0]. destruct (H n1 ltac:(right; left; reflexivity)) as [W1 L1].
  destruct n0 as [w0 v0], n1 as [w1 v1]. cbn [fst snd] in *. subst w0 w1. rewrite C06_mul by assumption. rewrite N.max_id.
  assert (Hr : same_width w rest) by (intros a Ha; apply H; right; right; exact Ha). clear H L0 L1.
  generalize (v0 * v1). clear v0 v1. induction rest as [|[wb b] rest IH]; intros s; cbn [fold_left fold_right map snd].
  - f_equal. rewrite N.mul_1_r. reflexivity.
  - destruct (Hr (wb, b) ltac:(left; reflexivity)) as [Wb Lb]. cbn [fst snd] in *. subst wb. pose proof (pow2_nz w).
    rewrite C06_mul by (try exact Lb; lia). rewrite N.max_id.
    assert (E : N.min (N.min s (2 ^ w - 1) * b) (2 ^ w - 1) = N.min (s * b) (2 ^ w - 1)).
    { destruct (N.le_gt_cases s (2 ^ w - 1)) as [Hs|Hs]; [rewrite (N.min_l s) by lia; reflexivity|].
      rewrite (N.min_r s) by lia. destruct (N.eq_dec b 0) as [->|Hb]; [rewrite !N.mul_0_r; reflexivity|].
      assert ((2 ^ w - 1) * 1 <= (2 ^ w - 1) * b) by (apply N.mul_le_mono_l; lia).
      assert (s * 1 <= s * b) by (apply N.mul_le_mono_l; lia). lia. }
    rewrite E, IH by (intros a Ha; apply Hr; right; exact Ha). f_equal. rewrite N.mul_assoc. reflexivity.
Qed.
Print Assumptions C06_prod.

(** Finding: with arguments of different types, a clamped intermediate result of a narrower type is summed on: the result is
    neither the exact sum nor the maximum of the common type. *)
Theorem C06_sum_mixed_refuted : sum_wo_overflow (32, 2 ^ 32 - 1) (32, 5) [(64, 7)] = (64, 2 ^ 32 + 6).
Proof. vm_compute. reflexivity. Qed.
Print Assumptions C06_sum_mixed_refuted.

Lemma zmul_ok lo hi a b : (lo <= a * b <= hi)%Z -> zmul lo hi a b = Some (a * b)%Z.
Proof. intros [H1 H2]. unfold zmul. apply Z.leb_le in H1, H2. rewrite H1, H2. reflexivity. Qed.
(** [powi] on a signed type of width [w]: exact whenever the result is representable. *)
Theorem C06_powi : forall w base e r, 2 <= w -> let lo := (- 2 ^ (Z.of_N w - 1))%Z in let hi := (2 ^ (Z.of_N w - 1) - 1)%Z in
  (lo <= base <= hi)%Z -> r = (base ^ Z.of_N e)%Z -> (lo <= r <= hi)%Z -> powi lo hi base e = Some r.
Proof.
  intros w base e r Hw lo hi Hb Hr Hrange. subst r.
  assert (HM : (2 <= 2 ^ (Z.of_N w - 1))%Z).
  { change 2%Z with (2 ^ 1)%Z at 1. apply Z.pow_le_mono_r; lia. }
  destruct e as [|p]; [reflexivity|]. cbn [powi Z.of_N] in *.
  set (M := (2 ^ (Z.of_N w - 1))%Z) in *.
  assert (Hstep : forall j k, (0 <= j <= k)%Z -> (lo <= base ^ k <= hi)%Z -> (lo <= base ^ j <= hi)%Z).
  { intros j k Hjk Hk. unfold lo, hi in *. destruct (Z.eq_dec j k) as [->|Hne]; [exact Hk|].
    destruct (Z.eq_dec (Z.abs base) 1) as [E1|E1].
    - assert (Z.abs (base ^ j) = 1)%Z by (rewrite Z.abs_pow, E1; apply Z.pow_1_l; lia). lia.
    - destruct (Z.eq_dec base 0) as [->|Hz].
      + destruct (Z.eq_dec j 0) as [->|Hj]; [change (0 ^ 0)%Z with 1%Z; lia|]. rewrite Z.pow_0_l by lia. lia.
      + assert (Hlt : (Z.abs (base ^ j) < Z.abs (base ^ k))%Z).
        { rewrite !Z.abs_pow. apply Z.pow_lt_mono_r; lia. }
        lia. }
  clearbody M. revert Hrange. induction p as [q IH|q IH|]; cbn [powi_pos]; intros Hrange.
  - assert (Eq : Z.pos q~1 = (Z.pos q + Z.pos q + 1)%Z) by lia.
    rewrite IH by (apply (Hstep (Z.pos q) (Z.pos q~1)); [lia|exact Hrange]).
    assert (H2 : (lo <= base ^ Z.pos q * base ^ Z.pos q <= hi)%Z).
    { rewrite <- Z.pow_add_r by lia. apply (Hstep (Z.pos q + Z.pos q)%Z (Z.pos q~1)); [lia|exact Hrange]. }
    rewrite (zmul_ok lo hi (base ^ Z.pos q) (base ^ Z.pos q)) by exact H2.
    assert (E : (base * (base ^ Z.pos q * base ^ Z.pos q) = base ^ Z.pos q~1)%Z).
    { rewrite Eq, !Z.pow_add_r by lia. lia. }
    rewrite zmul_ok by (rewrite E; exact Hrange). rewrite E. reflexivity.
  - assert (Eq : Z.pos q~0 = (Z.pos q + Z.pos q)%Z) by lia.
    rewrite IH by (apply (Hstep (Z.pos q) (Z.pos q~0)); [lia|exact Hrange]).
    assert (E : (base ^ Z.pos q * base ^ Z.pos q = base ^ Z.pos q~0)%Z) by (rewrite Eq, Z.pow_add_r by lia; lia).
    rewrite zmul_ok by (rewrite E; exact Hrange). rewrite E. reflexivity.
  - rewrite zmul_ok; rewrite Z.mul_1_r; rewrite Z.pow_1_r in *; [reflexivity|exact Hrange].
Qed.
Print Assumptions C06_powi.

Theorem C06_powi_unsigned : forall w base e, 0 < w -> powu w base e = base ^ e mod 2 ^ w.
Proof.
  intros w base e Hw. destruct e as [|p]; cbn [powu].
  - rewrite N.pow_0_r. symmetry. apply N.mod_small. assert (2 ^ 1 <= 2 ^ w) by (apply N.pow_le_mono_r; lia). change (2 ^ 1) with 2 in H. lia.
  - induction p as [q IH|q IH|]; cbn [powu_pos]; unfold wr in *; pose proof (pow2_nz w) as Hz.
    + rewrite IH, <- N.mul_mod by exact Hz. rewrite N.mul_mod_idemp_r by exact Hz. f_equal.
      replace (Npos q~1) with (1 + Npos q + Npos q) by lia. rewrite !N.pow_add_r, N.pow_1_r. lia.
    + rewrite IH, <- N.mul_mod by exact Hz. f_equal. replace (Npos q~0) with (Npos q + Npos q) by lia. rewrite N.pow_add_r. lia.
    + rewrite N.mul_1_r, N.pow_1_r. reflexivity.
Qed.
Print Assumptions C06_powi_unsigned.

Example C06_nonvacuous : same_width 32 [(32, 2 ^ 31); (32, 2 ^ 31); (32, 1)] /\
  sum_wo_overflow (32, 2 ^ 31) (32, 2 ^ 31) [(32, 1)] = (32, 2 ^ 32 - 1) /\ prod_wo_overflow (64, 3) (64, 5) [(64, 7)] = (64, 105) /\
  powi (-2 ^ 63) (2 ^ 63 - 1) (-2) 63 = Some (-2 ^ 63)%Z /\ powi (-2 ^ 63) (2 ^ 63 - 1) 10 19 = None.
Proof.
  split; [|repeat split; vm_compute; reflexivity]. intros a. cbn [In]. intros [<-|[<-|[<-|[]]]]; cbn [fst snd]; split; reflexivity.
Qed.

(** ** C44: [setbit] sets exactly one bit. *)
Theorem C44_setbit : forall w x b n, x < 2 ^ w -> n < w ->
  exists r, setbit w x b n = Some r /\ r < 2 ^ w /\ N.testbit r n = b /\ forall i, i <> n -> N.testbit r i = N.testbit x i.
Proof.
  intros w x b n Hx Hn. unfold setbit. destruct (N.ltb_spec n w) as [_|H]; [|lia].
  assert (Hpn : 2 ^ n < 2 ^ w) by (apply N.pow_lt_mono_r; lia).
  rewrite N.shiftl_1_l, (wr_small w (2 ^ n)) by exact Hpn.
  assert (Hm : forall i, i < w -> N.testbit (wsub w 0 (if b then 1 else 0)) i = b).
  { intros i Hi. assert (1 < 2 ^ w) by (change 1 with (2 ^ 0); apply N.pow_lt_mono_r; lia). destruct b.
    - rewrite wsub_lt by lia. replace (2 ^ w + 0 - 1) with (N.ones w) by (rewrite N.ones_equiv; lia). apply N.ones_spec_low. exact Hi.
    - rewrite wsub_ge by lia. apply N.bits_0. }
  eexists. split; [reflexivity|]. split; [|split].
  - apply lxor_lt; [exact Hx|]. apply land_lt_r. exact Hpn.
  - rewrite N.lxor_spec, N.land_spec, N.lxor_spec, testbit_pow2, N.eqb_refl, andb_true_r, Hm by exact Hn.
    destruct (N.testbit x n), b; reflexivity.
  - intros i Hi. rewrite N.lxor_spec, N.land_spec, N.lxor_spec, testbit_pow2. destruct (N.eqb_spec i n); [contradiction|].
    rewrite andb_false_r. apply xorb_false_r.
Qed.
Print Assumptions C44_setbit.
Example C44_nonvacuous : setbit 8 5 true 1 = Some 7 /\ setbit 8 5 false 2 = Some 1.
Proof. split; vm_compute; reflexivity. Qed.

(** ** C41: sequence numbers of floating-point numbers *)

(** The numeric value of an IEEE-754 binary bit pattern with [w] bits and [mb] mantissa bits, in units of the smallest
    positive (subnormal) number.  Infinities get the next value after the largest finite number. *)
Definition fl_magnitude (mb x : N) : N :=
  let e := x / 2 ^ mb in let f := x mod 2 ^ mb in
  if e =? 0 then f else (2 ^ mb + f) * 2 ^ (e - 1).
Definition fl_value (w mb u : N) : Z :=
  let m := Z.of_N (fl_magnitude mb (u mod 2 ^ (w - 1))) in
  if N.testbit u (w - 1) then (- m)%Z else m.
(** Not NaN: the exponent is not all ones, or the mantissa is zero. *)
Definition not_nan (w mb u : N) : Prop := u < 2 ^ w /\ u mod 2 ^ (w - 1) <= 2 ^ (w - 1) - 2 ^ mb.
Definition float_format (w mb : N) : Prop := (w = 64 /\ mb = 52) \/ (w = 32 /\ mb = 23).

Lemma fl_magnitude_succ mb x : fl_magnitude mb x < fl_magnitude mb (x + 1).
Proof.
  unfold fl_magnitude. pose proof (pow2_nz mb) as HM. set (M := 2 ^ mb) in *.
  pose proof (N.div_mod x M HM) as E. pose proof (N.mod_lt x M HM) as L. set (e := x / M) in *. set (f := x mod M) in *.
  destruct (N.eq_dec (f + 1) M) as [Hf|Hf].
  - assert (E1 : (x + 1) / M = e + 1) by (symmetry; apply (N.div_unique _ _ _ 0); lia).
    assert (E2 : (x + 1) mod M = 0) by (symmetry; apply (N.mod_unique _ _ (e + 1)); lia).
    rewrite E1, E2. destruct (N.eqb_spec (e + 1) 0) as [H|_]; [lia|]. replace (e + 1 - 1) with e by lia.
    destruct (N.eqb_spec e 0) as [->|He]; [rewrite N.pow_0_r; lia|].
    replace (2 ^ e) with (2 * 2 ^ (e - 1)) by (rewrite <- N.pow_succ_r'; f_equal; lia).
    pose proof (pow2_nz (e - 1)) as HP. replace ((M + 0) * (2 * 2 ^ (e - 1))) with (2 * M * 2 ^ (e - 1)) by lia.
    apply N.mul_lt_mono_pos_r; lia.
  - assert (E1 : (x + 1) / M = e) by (symmetry; apply (N.div_unique _ _ _ (f + 1)); lia).
    assert (E2 : (x + 1) mod M = f + 1) by (symmetry; apply (N.mod_unique _ _ e); lia).
    rewrite E1, E2. destruct (N.eqb_spec e 0) as [He|He]; [lia|]. pose proof (pow2_nz (e - 1)). apply N.mul_lt_mono_pos_r; lia.
Qed.
Lemma fl_magnitude_mono mb x y : x < y -> fl_magnitude mb x < fl_magnitude mb y.
Proof.
  intros H. replace y with (x + 1 + (y - x - 1)) by lia. generalize (y - x - 1). clear H y. intros d.
  induction d as [|d IH] using N.peano_ind; [rewrite N.add_0_r; apply fl_magnitude_succ|].
  replace (x + 1 + N.succ d) with (x + 1 + d + 1) by lia. pose proof (fl_magnitude_succ mb (x + 1 + d)). lia.
Qed.
Lemma fl_magnitude_0 mb : fl_magnitude mb 0 = 0.
Proof. unfold fl_magnitude. rewrite N.div_0_l, N.mod_0_l by apply pow2_nz. reflexivity. Qed.

(** Value of the number with a given sequence number. *)
Definition val_of_seq (w mb q : N) : Z :=
  if 2 ^ (w - 1) <=? q then Z.of_N (fl_magnitude mb (q - 2 ^ (w - 1))) else (- Z.of_N (fl_magnitude mb (2 ^ (w - 1) - q)))%Z.
Lemma val_of_seq_mono w mb p q : p < q -> (val_of_seq w mb p < val_of_seq w mb q)%Z.
Proof.
  intros H. unfold val_of_seq.
  assert (Hm := fl_magnitude_mono mb). assert (H0 := fl_magnitude_0 mb).
  destruct (N.leb_spec (2 ^ (w - 1)) p), (N.leb_spec (2 ^ (w - 1)) q); try lia.
  - specialize (Hm (p - 2 ^ (w - 1)) (q - 2 ^ (w - 1))). lia.
  - assert (X := Hm 0 (2 ^ (w - 1) - p)). lia.
  - specialize (Hm (2 ^ (w - 1) - q) (2 ^ (w - 1) - p)). lia.
Qed.

Lemma split_top w u : 1 <= w -> u < 2 ^ w ->
  u = (if N.testbit u (w - 1) then 2 ^ (w - 1) else 0) + u mod 2 ^ (w - 1) /\ u mod 2 ^ (w - 1) < 2 ^ (w - 1).
Proof.
  intros Hw Hu. pose proof (pow2_nz (w - 1)) as HM. pose proof (N.mod_lt u (2 ^ (w - 1)) HM). split; [|assumption].
  pose proof (N.div_mod u (2 ^ (w - 1)) HM) as E.
  assert (E2 : 2 ^ w = 2 * 2 ^ (w - 1)) by (rewrite <- N.pow_succ_r'; f_equal; lia).
  assert (Hq : u / 2 ^ (w - 1) < 2) by (apply N.div_lt_upper_bound; lia).
  assert (Ht : N.testbit u (w - 1) = (u / 2 ^ (w - 1) =? 1)).
  { rewrite <- N.shiftr_div_pow2 in *. rewrite <- (N.add_0_l (w - 1)) at 1. rewrite <- N.shiftr_spec'.
    remember (N.shiftr u (w - 1)) as q. assert (q = 0 \/ q = 1) as [-> | ->] by lia; reflexivity. }
  rewrite Ht. clear Ht. remember (u / 2 ^ (w - 1)) as q. remember (u mod 2 ^ (w - 1)) as r. clear Heqq Heqr.
  destruct (N.eqb_spec q 1) as [H1|H1]; [subst q; lia|]. assert (H2 : q = 0) by lia. subst q. lia.
Qed.

Lemma seq_of w u : 1 <= w -> u < 2 ^ w ->
  sequence_number w u = (if N.testbit u (w - 1) then 2 ^ (w - 1) - u mod 2 ^ (w - 1) else 2 ^ (w - 1) + u mod 2 ^ (w - 1)).
Proof.
  intros Hw Hu. destruct (split_top w u Hw Hu) as [E L]. unfold sequence_number.
  assert (E2 : 2 ^ w = 2 * 2 ^ (w - 1)) by (rewrite <- N.pow_succ_r'; f_equal; lia).
  assert (Hl : N.land u (2 ^ (w - 1)) = if N.testbit u (w - 1) then 2 ^ (w - 1) else 0).
  { apply N.bits_inj. intros i. rewrite N.land_spec, testbit_pow2. destruct (N.eqb_spec i (w - 1)) as [->|Hi].
    - rewrite andb_true_r. destruct (N.testbit u (w - 1)); [rewrite testbit_pow2, N.eqb_refl; reflexivity|symmetry; apply N.bits_0].
    - rewrite andb_false_r. destruct (N.testbit u (w - 1)); [rewrite testbit_pow2; symmetry; apply N.eqb_neq; exact Hi|symmetry; apply N.bits_0]. }
  rewrite Hl. destruct (N.testbit u (w - 1)) eqn:Et.
  - destruct (N.eqb_spec (2 ^ (w - 1)) 0) as [H|_]; [exfalso; exact (pow2_nz _ H)|]. cbn [negb].
    assert (Ex : N.lxor u (2 ^ (w - 1)) = u mod 2 ^ (w - 1)).
    { rewrite <- N.land_ones. apply N.bits_inj. intros i. rewrite N.lxor_spec, N.land_spec, testbit_pow2, testbit_ones.
      destruct (N.eqb_spec i (w - 1)) as [->|Hi]; [rewrite Et, N.ltb_irrefl; reflexivity|].
      rewrite xorb_false_r. destruct (N.ltb_spec i (w - 1)); [rewrite andb_true_r; reflexivity|].
      rewrite (testbit_high u w i Hu) by lia. reflexivity. }
    rewrite Ex. apply wsub_ge; lia.
  - cbn [N.eqb negb]. rewrite wr_small by lia. lia.
Qed.
Lemma seq_value w mb u : 1 <= w -> u < 2 ^ w -> fl_value w mb u = val_of_seq w mb (sequence_number w u).
Proof.
  intros Hw Hu. rewrite seq_of by assumption. destruct (split_top w u Hw Hu) as [E L]. unfold fl_value, val_of_seq.
  set (x := u mod 2 ^ (w - 1)) in *. destruct (N.testbit u (w - 1)).
  - destruct (N.leb_spec (2 ^ (w - 1)) (2 ^ (w - 1) - x)).
    + assert (x = 0) by lia. replace (2 ^ (w - 1) - x - 2 ^ (w - 1)) with 0 by lia. rewrite H0, fl_magnitude_0. reflexivity.
    + replace (2 ^ (w - 1) - (2 ^ (w - 1) - x)) with x by lia. reflexivity.
  - destruct (N.leb_spec (2 ^ (w - 1)) (2 ^ (w - 1) + x)); [|lia]. replace (2 ^ (w - 1) + x - 2 ^ (w - 1)) with x by lia. reflexivity.
Qed.
Lemma val_of_seq_lt w mb p q : (val_of_seq w mb p < val_of_seq w mb q)%Z <-> p < q.
Proof.
  split; [|apply val_of_seq_mono]. intros H. destruct (N.lt_total p q) as [L|[->|L]]; [exact L|lia|].
  pose proof (val_of_seq_mono w mb q p L). lia.
Qed.

(** Strictly monotone (and equal exactly on -0 and +0, whose values are equal). *)
Theorem C41_monotone : forall w mb x y, float_format w mb -> not_nan w mb x -> not_nan w mb y ->
  ((fl_value w mb x < fl_value w mb y)%Z <-> sequence_number w x < sequence_number w y) /\
  (fl_value w mb x = fl_value w mb y <-> sequence_number w x = sequence_number w y).
Proof.
  intros w mb x y HF [Hx _] [Hy _]. assert (Hw : 1 <= w) by (destruct HF as [[-> _]|[-> _]]; lia).
  rewrite !(seq_value w mb) by assumption. split; [apply val_of_seq_lt|].
  split; [|intros ->; reflexivity]. intros H. destruct (N.lt_total (sequence_number w x) (sequence_number w y)) as [L|[E|L]]; [|exact E|];
    apply (val_of_seq_mono w mb) in L; lia.
Qed.
Print Assumptions C41_monotone.

Definition pattern_of_seq (w q : N) : N := if 2 ^ (w - 1) <=? q then q - 2 ^ (w - 1) else 2 ^ (w - 1) + (2 ^ (w - 1) - q).
Lemma pattern_seq w q : 1 <= w -> q < 2 ^ w -> 0 < q -> pattern_of_seq w q < 2 ^ w /\ sequence_number w (pattern_of_seq w q) = q /\
  (pattern_of_seq w q) mod 2 ^ (w - 1) = if 2 ^ (w - 1) <=? q then q - 2 ^ (w - 1) else 2 ^ (w - 1) - q.
Proof.
  intros Hw Hq Hq0. assert (E2 : 2 ^ w = 2 * 2 ^ (w - 1)) by (rewrite <- N.pow_succ_r'; f_equal; lia).
  unfold pattern_of_seq. destruct (N.leb_spec (2 ^ (w - 1)) q) as [H|H].
  - assert (Hl : q - 2 ^ (w - 1) < 2 ^ (w - 1)) by lia. split; [lia|]. rewrite N.mod_small by exact Hl. split; [|reflexivity].
    rewrite seq_of by lia. rewrite (testbit_high _ (w - 1)) by lia. rewrite N.mod_small by exact Hl. lia.
  - assert (Hl : 2 ^ (w - 1) - q < 2 ^ (w - 1)) by lia. split; [lia|].
    assert (Em : (2 ^ (w - 1) + (2 ^ (w - 1) - q)) mod 2 ^ (w - 1) = 2 ^ (w - 1) - q).
    { symmetry. apply (N.mod_unique _ _ 1); lia. }
    rewrite Em. split; [|reflexivity]. rewrite seq_of by lia. rewrite Em.
    destruct (split_top w (2 ^ (w - 1) + (2 ^ (w - 1) - q)) Hw ltac:(lia)) as [E _]. rewrite Em in E.
    destruct (N.testbit (2 ^ (w - 1) + (2 ^ (w - 1) - q)) (w - 1)); lia.
Qed.

Lemma seq_range w mb u : 1 <= w -> 2 ^ mb < 2 ^ (w - 1) -> not_nan w mb u ->
  2 ^ mb <= sequence_number w u <= 2 * 2 ^ (w - 1) - 2 ^ mb.
Proof.
  intros Hw Hmb [Hu1 Hu2]. rewrite seq_of by assumption.
  remember (2 ^ mb) as A. remember (2 ^ (w - 1)) as B. remember (u mod B) as C. clear HeqA HeqB HeqC.
  destruct (N.testbit u (w - 1)); lia.
Qed.

(** The difference of sequence numbers counts the representable values: [L] lists, without repetition, exactly the values
    of the non-NaN numbers between [a] and [b]. *)
Theorem C41_count : forall w mb a b, float_format w mb -> not_nan w mb a -> not_nan w mb b ->
  (fl_value w mb a <= fl_value w mb b)%Z ->
  exists L, NoDup L /\
    (forall v, In v L <-> exists u, not_nan w mb u /\ v = fl_value w mb u /\ (fl_value w mb a <= v <= fl_value w mb b)%Z) /\
    N.of_nat (length L) = sequence_number w b - sequence_number w a + 1 /\ sequence_number w a <= sequence_number w b.
Proof.
  intros w mb a b HF Ha Hb Hle. assert (Hw : 1 <= w) by (destruct HF as [[-> _]|[-> _]]; lia).
  assert (Hmb : 2 ^ mb < 2 ^ (w - 1)) by (destruct HF as [[-> ->]|[-> ->]]; vm_compute; reflexivity).
  assert (E2 : 2 ^ w = 2 * 2 ^ (w - 1)) by (rewrite <- N.pow_succ_r'; f_equal; lia).
  pose proof (seq_range w mb a Hw Hmb Ha) as Ra. pose proof (seq_range w mb b Hw Hmb Hb) as Rb. pose proof (pow2_nz mb) as Hmz.
  assert (Va : fl_value w mb a = val_of_seq w mb (sequence_number w a)) by (apply seq_value; [exact Hw|apply Ha]).
  assert (Vb : fl_value w mb b = val_of_seq w mb (sequence_number w b)) by (apply seq_value; [exact Hw|apply Hb]).
  rewrite Va, Vb in *. clear Va Vb Ha Hb HF. remember (sequence_number w a) as sa eqn:Esa. remember (sequence_number w b) as sb eqn:Esb. clear Esa Esb a b.
  assert (Hs : sa <= sb).
  { destruct (N.le_gt_cases sa sb) as [H|H]; [exact H|]. apply (val_of_seq_mono w mb) in H. lia. }
  exists (map (fun k => val_of_seq w mb (sa + N.of_nat k)) (seq 0 (N.to_nat (sb - sa + 1)))). split; [|split; [|split; [|exact Hs]]].
  - apply FinFun.Injective_map_NoDup; [|apply seq_NoDup]. intros i j Hij.
    destruct (Nat.lt_total i j) as [L|[E|L]]; [|exact E|].
    + pose proof (val_of_seq_mono w mb (sa + N.of_nat i) (sa + N.of_nat j) ltac:(lia)). lia.
    + pose proof (val_of_seq_mono w mb (sa + N.of_nat j) (sa + N.of_nat i) ltac:(lia)). lia.
  - intros v. rewrite in_map_iff. split.
    + intros [k [<- Hk]]. apply in_seq in Hk. remember (sa + N.of_nat k) as q eqn:Eq. assert (Hq : sa <= q <= sb) by lia.
      destruct (pattern_seq w q Hw ltac:(lia) ltac:(lia)) as [P1 [P2 P3]]. exists (pattern_of_seq w q).
      split; [split; [exact P1|rewrite P3; destruct (N.leb_spec (2 ^ (w - 1)) q); lia]|].
      rewrite (seq_value w mb (pattern_of_seq w q)), P2 by assumption. split; [reflexivity|].
      split.
      * destruct (N.eq_dec sa q) as [->|]; [lia|]. pose proof (val_of_seq_mono w mb sa q ltac:(lia)). lia.
      * destruct (N.eq_dec q sb) as [->|]; [lia|]. pose proof (val_of_seq_mono w mb q sb ltac:(lia)). lia.
    + intros [u [[Hu1 Hu2] [-> [V1 V2]]]]. rewrite (seq_value w mb u) in * by assumption.
      remember (sequence_number w u) as q eqn:Eq. clear Eq.
      assert (sa <= q).
      { destruct (N.le_gt_cases sa q) as [H|H]; [exact H|]. apply (val_of_seq_mono w mb) in H. lia. }
      assert (q <= sb).
      { destruct (N.le_gt_cases q sb) as [H'|H']; [exact H'|]. apply (val_of_seq_mono w mb) in H'. lia. }
      exists (N.to_nat (q - sa)). split; [f_equal; lia|]. apply in_seq. lia.
  - rewrite map_length, seq_length. lia.
Qed.
Print Assumptions C41_count.

(** Hence the range test is exact for floating-point numbers; [gt] is the comparison of values. *)
Theorem C41_range_float : forall w mb gt a b n, float_format w mb -> not_nan w mb a -> not_nan w mb b -> n < 2 ^ 64 ->
  (forall x y, gt x y = true <-> (fl_value w mb y < fl_value w mb x)%Z) ->
  exists L, NoDup L /\
    (forall v, In v L <-> exists u, not_nan w mb u /\ v = fl_value w mb u /\
       (Z.min (fl_value w mb a) (fl_value w mb b) <= v <= Z.max (fl_value w mb a) (fl_value w mb b))%Z) /\
    (range_wide_float w gt a b n = true <-> n <= N.of_nat (length L)).
Proof.
  intros w mb gt a b n HF Ha Hb Hn Hgt.
  assert (Hgen : forall a b, not_nan w mb a -> not_nan w mb b -> (fl_value w mb a <= fl_value w mb b)%Z ->
    exists L, NoDup L /\
    (forall v, In v L <-> exists u, not_nan w mb u /\ v = fl_value w mb u /\ (fl_value w mb a <= v <= fl_value w mb b)%Z) /\
    ((if n =? 0 then true else wsub 64 n 1 <=? wsub w (sequence_number w b) (sequence_number w a)) = true <-> n <= N.of_nat (length L))).
  { clear a b Ha Hb. intros a b Ha Hb Hle. destruct (C41_count w mb a b HF Ha Hb Hle) as [L [L1 [L2 [L3 L4]]]].
    exists L. split; [exact L1|]. split; [exact L2|]. rewrite L3. destruct (N.eqb_spec n 0) as [->|Hz]; [split; [lia|reflexivity]|].
    assert (Hw : 1 <= w) by (destruct HF as [[-> _]|[-> _]]; lia).
    assert (Hsb : sequence_number w b < 2 ^ w).
    { unfold sequence_number. destruct (negb _); [apply wsub_range|apply wr_lt]. }
    rewrite (wsub_ge 64 n 1) by lia. rewrite (wsub_ge w) by lia. rewrite N.leb_le. lia. }
  unfold range_wide_float. destruct (gt a b) eqn:E.
  - apply Hgt in E. destruct (Hgen b a Hb Ha ltac:(lia)) as [L HL]. exists L. rewrite Z.min_r, Z.max_l by lia. exact HL.
  - assert (E' : ~ (fl_value w mb b < fl_value w mb a)%Z) by (rewrite <- Hgt; congruence).
    destruct (Hgen a b Ha Hb ltac:(lia)) as [L HL]. exists L. rewrite Z.min_l, Z.max_r by lia. exact HL.
Qed.
Print Assumptions C41_range_float.

(** Integer types: the number of integers in the range is [|b - a| + 1]. *)
Theorem C41_range_signed : forall w a b n, 1 <= w <= 64 -> n < 2 ^ 64 ->
  (- 2 ^ (Z.of_N w - 1) <= a < 2 ^ (Z.of_N w - 1))%Z -> (- 2 ^ (Z.of_N w - 1) <= b < 2 ^ (Z.of_N w - 1))%Z ->
  (range_wide_signed w a b n = true <-> (Z.of_N n <= Z.abs (b - a) + 1)%Z).
Proof.
  intros w a b n Hw Hn.
  assert (Hgen : forall a b, (- 2 ^ (Z.of_N w - 1) <= a < 2 ^ (Z.of_N w - 1))%Z -> (- 2 ^ (Z.of_N w - 1) <= b < 2 ^ (Z.of_N w - 1))%Z ->
    (a <= b)%Z ->
    ((if n =? 0 then true else
      if Bool.eqb (a <? 0)%Z (b <? 0)%Z then wsub 64 n 1 <=? Z.to_N ((b - a) mod 2 ^ Z.of_N w)%Z
      else let a_abs := wr w (Z.to_N ((Z.lnot a) mod 2 ^ Z.of_N w)%Z + 1) in
       (n <=? a_abs) || (wsub 64 (wsub 64 n a_abs) 1 <=? Z.to_N (b mod 2 ^ Z.of_N w)%Z)) = true <-> (Z.of_N n <= b - a + 1)%Z)).
  { clear a b. intros a b Ha Hb Hab. destruct (N.eqb_spec n 0) as [->|Hz]; [split; [lia|reflexivity]|].
    assert (E2 : (2 ^ Z.of_N w = 2 * 2 ^ (Z.of_N w - 1))%Z) by (rewrite <- Z.pow_succ_r by lia; f_equal; lia).
    assert (EW : Z.of_N (2 ^ w) = (2 ^ Z.of_N w)%Z) by (rewrite N2Z.inj_pow; reflexivity).
    assert (H64 : (2 ^ (Z.of_N w - 1) <= 2 ^ 63)%Z) by (apply Z.pow_le_mono_r; lia).
    assert (E64 : Z.of_N (2 ^ 64) = (2 * 2 ^ 63)%Z) by reflexivity.
    set (M := (2 ^ (Z.of_N w - 1))%Z) in *.
    destruct (Bool.eqb (a <? 0)%Z (b <? 0)%Z) eqn:Es.
    - apply eqb_prop in Es. assert (Hr : (0 <= b - a < 2 ^ Z.of_N w)%Z) by (destruct (Z.ltb_spec a 0), (Z.ltb_spec b 0); try discriminate; lia).
      rewrite Z.mod_small by exact Hr. rewrite wsub_ge by lia. rewrite N.leb_le. lia.
    - apply eqb_false_iff in Es. assert (Ha0 : (a < 0)%Z /\ (0 <= b)%Z) by (destruct (Z.ltb_spec a 0), (Z.ltb_spec b 0); try congruence; lia).
      assert (El : Z.lnot a = (- a - 1)%Z) by (pose proof (Z.add_lnot_diag a); lia).
      rewrite El. rewrite !Z.mod_small by lia.
      assert (Ea : Z.to_N (- a - 1) + 1 = Z.to_N (- a)) by lia. rewrite Ea.
      rewrite wr_small by lia. rewrite orb_true_iff, !N.leb_le.
      destruct (N.le_gt_cases n (Z.to_N (- a))) as [Hna|Hna]; [split; [lia|]; intros _; left; exact Hna|].
      rewrite (wsub_ge 64 n) by lia. rewrite wsub_ge by lia. lia. }
  intros Ha Hb. unfold range_wide_signed. destruct (Z.ltb_spec b a) as [H|H].
  - rewrite Hgen by lia. lia.
  - rewrite Hgen by lia. lia.
Qed.
Print Assumptions C41_range_signed.

Theorem C41_range_unsigned : forall w a b n, n < 2 ^ 64 -> a < 2 ^ w -> b < 2 ^ w ->
  (range_wide_unsigned w a b n = true <-> (Z.of_N n <= Z.abs (Z.of_N b - Z.of_N a) + 1)%Z).
Proof.
  intros w a b n Hn Ha Hb. unfold range_wide_unsigned. destruct (N.ltb_spec b a) as [H|H];
    (destruct (N.eqb_spec n 0) as [->|Hz]; [split; [lia|reflexivity]|]); rewrite (wsub_ge 64 n 1), (wsub_ge w) by lia; rewrite N.leb_le; lia.
Qed.
Print Assumptions C41_range_unsigned.

(** The bit patterns of 1.0, its successor, -0.0 and +0.0. *)
Example C41_nonvacuous : float_format 64 52 /\ not_nan 64 52 (1023 * 2 ^ 52) /\ not_nan 64 52 (2 ^ 63) /\
  fl_value 64 52 (1023 * 2 ^ 52) = (2 ^ 1074)%Z /\
  sequence_number 64 (1023 * 2 ^ 52 + 1) = sequence_number 64 (1023 * 2 ^ 52) + 1 /\ sequence_number 64 (2 ^ 63) = sequence_number 64 0.
Proof.
  split; [left; split; reflexivity|]. split; [split; [reflexivity|discriminate]|]. split; [split; [reflexivity|discriminate]|].
  repeat split; vm_compute; reflexivity.
Qed.
