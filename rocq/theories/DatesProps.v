(** * C42: dates *)
From Coq Require Import ZArith List Bool Lia.
From Verif Require Import Dates.
Import ListNotations.
Local Open Scope Z_scope.

(** ** Specification *)
Definition month_length (m : Z) : Z := if m =? 2 then 29 else if (m =? 4) || (m =? 6) || (m =? 9) || (m =? 11) then 30 else 31.
Definition calendar_date (y m d : Z) : Prop := y <> 0 /\ 1 <= m <= 12 /\ 1 <= d <= month_length m.
Definition before (a b : Z * Z * Z) : Prop :=
  let '(y, m, d) := a in let '(y', m', d') := b in y < y' \/ y = y' /\ (m < m' \/ m = m' /\ d < d').

(** ** Proofs *)
Lemma sema_spec y m d : sema_accepts y m d = true <-> calendar_date y m d.
Proof.
  unfold sema_accepts, calendar_date, month_length. rewrite !andb_true_iff, !negb_true_iff, !orb_false_iff, Z.eqb_neq, Z.ltb_ge, Z.gtb_ltb, Z.ltb_ge.
  assert (forall a b, a && b = false <-> (a = true -> b = false)) as A by (intros [] []; cbn; intuition). rewrite !A. rewrite !orb_true_iff, !Z.eqb_eq, Z.ltb_ge, !Z.gtb_ltb, !Z.ltb_ge.
  split.
  - intros [[H1 [H2 H3]] [[[H4 H5] H6] H7]]. split; [exact H1|]. split; [lia|]. split; [lia|].
    destruct (Z.eqb_spec m 2); [apply H5; assumption|]. destruct (Z.eqb_spec m 4), (Z.eqb_spec m 6), (Z.eqb_spec m 9), (Z.eqb_spec m 11); cbn [orb]; try (apply H6; lia). apply H7. lia.
  - intros [H1 [H2 H3]]. split; [split; [exact H1|split; lia]|].
    destruct (Z.eqb_spec m 2); [repeat split; intros; lia|]. destruct (Z.eqb_spec m 4), (Z.eqb_spec m 6), (Z.eqb_spec m 9), (Z.eqb_spec m 11); cbn [orb] in H3; repeat split; intros; lia.
Qed.
Theorem C42_validation : forall y m d, sema_accepts y m d = true <-> calendar_date y m d.
Proof. exact sema_spec. Qed.
Lemma lor_disjoint a b k : 0 <= k -> 0 <= b < 2 ^ k -> Z.lor (a * 2 ^ k) b = a * 2 ^ k + b.
Proof.
  intros Hk Hb. symmetry. rewrite Z.add_nocarry_lxor, Z.lxor_lor; [reflexivity| |]; (apply Z.bits_inj'; intros i Hi; rewrite Z.land_spec, Z.bits_0; rewrite Z.mul_pow2_bits by exact Hk;
    destruct (Z.lt_ge_cases i k); [rewrite Z.testbit_neg_r by lia; reflexivity|]; replace (Z.testbit b i) with false; [apply andb_false_r|];
    symmetry; destruct (Z.eq_dec b 0) as [->|]; [apply Z.bits_0|]; apply Z.bits_above_log2; [lia|]; apply Z.log2_lt_pow2; [lia|]; apply Z.lt_le_trans with (2 ^ k); [lia|apply Z.pow_le_mono_r; lia]).
Qed.
Lemma encode_value y m d : - 2 ^ 22 <= y < 2 ^ 22 -> 0 <= m < 16 -> 0 <= d < 32 -> encode y m d = y * 512 + m * 32 + d.
Proof.
  intros Hy Hm Hd. unfold encode. rewrite !Z.shiftl_mul_pow2 by lia. change (2 ^ 9) with 512. change (2 ^ 5) with 32.
  assert (E1 : uint32 (uint32 y * 512) = ((y mod 2 ^ 23) * 2 ^ 4) * 2 ^ 5).
  { unfold uint32. rewrite Z.mul_mod_idemp_l by lia. change (2 ^ 32) with (2 ^ 23 * 512). rewrite Z.mul_mod_distr_r by lia. change (2 ^ 4) with 16. change (2 ^ 5) with 32. lia. }
  rewrite E1. replace (m * 32) with (m * 2 ^ 5) by (change (2 ^ 5) with 32; lia).
  assert (E2 : Z.lor ((y mod 2 ^ 23) * 2 ^ 4 * 2 ^ 5) (m * 2 ^ 5) = ((y mod 2 ^ 23) * 2 ^ 4 + m) * 2 ^ 5).
  { rewrite <- !Z.shiftl_mul_pow2 with (n := 5) by lia. rewrite <- Z.shiftl_lor. f_equal. apply lor_disjoint; lia. }
  rewrite E2. rewrite lor_disjoint by lia. change (2 ^ 4) with 16. change (2 ^ 5) with 32. unfold int32.
  destruct (Z.lt_ge_cases y 0) as [N|P].
  - replace (y mod 2 ^ 23) with (y + 2 ^ 23) by (rewrite <- (Z.mod_add y 1) by lia; symmetry; rewrite Z.mul_1_l; apply Z.mod_small; lia).
    replace (((y + 2 ^ 23) * 16 + m) * 32 + d + 2 ^ 31) with ((y * 512 + m * 32 + d + 2 ^ 31) + 1 * 2 ^ 32) by lia. rewrite Z.mod_add by lia. rewrite Z.mod_small by lia. lia.
  - rewrite (Z.mod_small y) by lia. rewrite Z.mod_small by lia. lia.
Qed.
Lemma calendar_range y m d : calendar_date y m d -> 0 <= m < 16 /\ 0 <= d < 32.
Proof. intros [_ [Hm Hd]]. unfold month_length in Hd. destruct (m =? 2), ((m =? 4) || (m =? 6) || (m =? 9) || (m =? 11)); lia. Qed.
Theorem C42_round_trip : forall y m d, calendar_date y m d -> - 2 ^ 22 <= y < 2 ^ 22 ->
  year_of (encode y m d) = y /\ month_of (encode y m d) = m /\ day_of (encode y m d) = d.
Proof.
  intros y m d H Hy. destruct (calendar_range _ _ _ H) as [Hm Hd]. rewrite encode_value by assumption. unfold year_of, month_of, day_of.
  rewrite !Z.shiftr_div_pow2 by lia. change 15 with (Z.ones 4). change 31 with (Z.ones 5). rewrite !Z.land_ones by lia. change (2 ^ 9) with 512. change (2 ^ 5) with 32. change (2 ^ 4) with 16.
  split; [symmetry; apply Z.div_unique with (r := m * 32 + d); lia|]. split.
  - assert (E : (y * 512 + m * 32 + d) / 32 = y * 16 + m) by (symmetry; apply Z.div_unique with (r := d); lia). rewrite E. symmetry. apply Z.mod_unique with (q := y); lia.
  - symmetry. apply Z.mod_unique with (q := y * 16 + m); lia.
Qed.
Theorem C42_order : forall y m d y' m' d', calendar_date y m d -> calendar_date y' m' d' -> - 2 ^ 22 <= y < 2 ^ 22 -> - 2 ^ 22 <= y' < 2 ^ 22 ->
  (encode y m d < encode y' m' d' <-> before (y, m, d) (y', m', d')) /\ (encode y m d = encode y' m' d' <-> (y, m, d) = (y', m', d')).
Proof.
  intros y m d y' m' d' H H' Hy Hy'. destruct (calendar_range _ _ _ H) as [Hm Hd]. destruct (calendar_range _ _ _ H') as [Hm' Hd']. rewrite !encode_value by assumption. unfold before. clear - Hm Hd Hm' Hd'.
  split; [lia|]. split; [|congruence]. intros E. assert (y = y') by lia. assert (m = m') by lia. assert (d = d') by lia. congruence.
Qed.

(** printing and reading back *)
Lemma digits_fuel_ok f : forall n, 0 <= n < 10 ^ Z.of_nat f -> Forall (fun c => is_digit c = true) (digits_fuel f n) /\ (f <> O -> digits_fuel f n <> []) /\ forall l acc, scan_digits (digits_fuel f n ++ l) acc = scan_digits l (acc * 10 ^ Z.of_nat (length (digits_fuel f n)) + n).
Proof.
  assert (D : forall c, 0 <= c < 10 -> is_digit (48 + c) = true) by (intros c Hc; unfold is_digit; rewrite andb_true_iff, !Z.leb_le; lia).
  induction f as [|f IH]; intros n Hn.
  - cbn in Hn. assert (n = 0) by lia. subst n. cbn [digits_fuel app length]. split; [constructor|]. split; [congruence|]. intros l acc. f_equal. cbn. lia.
  - cbn [digits_fuel]. destruct (Z.ltb_spec n 10) as [L|L].
    + split; [constructor; [apply D; lia|constructor]|]. split; [intros _; discriminate|]. intros l acc. cbn [app scan_digits length]. rewrite D by lia. f_equal. change (10 ^ Z.of_nat 1) with 10. lia.
    + assert (Hq : 0 <= n / 10 < 10 ^ Z.of_nat f). { rewrite Nat2Z.inj_succ, Z.pow_succ_r in Hn by lia. split; [apply Z.div_pos; lia|]. apply Z.div_lt_upper_bound; lia. }
      destruct (IH _ Hq) as [F [_ S]]. pose proof (Z.mod_pos_bound n 10 ltac:(lia)) as Hr. split; [apply Forall_app; split; [exact F|constructor; [apply D; lia|constructor]]|].
      split; [intros _ E; apply app_eq_nil in E; destruct E; discriminate|]. intros l acc. rewrite <- app_assoc, S. cbn [app scan_digits]. rewrite D by lia. f_equal.
      rewrite app_length. cbn [length]. rewrite Nat.add_1_r, Nat2Z.inj_succ, Z.pow_succ_r by lia. pose proof (Z.div_mod n 10 ltac:(lia)). lia.
Qed.
Lemma scan_zeros k l : forall acc, acc = 0 -> scan_digits (repeat 48 k ++ l) acc = scan_digits l 0.
Proof. induction k as [|k IH]; intros acc ->; cbn [repeat app scan_digits]; [reflexivity|]. change (is_digit 48) with true. cbn iota. apply IH. reflexivity. Qed.
Lemma pad_ok w n l : 0 <= n < 10 ^ 20 -> (match l with c :: _ => is_digit c = false | [] => True end) -> scan_unsigned (pad w (digits n) ++ l) = Some (n, l).
Proof.
  intros Hn Hl. destruct (digits_fuel_ok 20 n ltac:(exact Hn)) as [F [N S]]. specialize (N ltac:(discriminate)). fold (digits n) in F, N, S.
  assert (E : scan_digits (pad w (digits n) ++ l) 0 = (n, l)).
  { unfold pad. rewrite <- app_assoc, scan_zeros by reflexivity. rewrite S. rewrite Z.mul_0_l, Z.add_0_l. destruct l as [|c l]; cbn [scan_digits]; [reflexivity|]. rewrite Hl. reflexivity. }
  unfold pad in E |- *. unfold scan_unsigned. destruct (w - length (digits n))%nat as [|k]; cbn [repeat app] in E |- *.
  - destruct (digits n) as [|c ds]; [congruence|]. inversion F; subst. cbn [app] in E |- *. rewrite H1. rewrite E. reflexivity.
  - change (is_digit 48) with true. cbn iota. rewrite E. reflexivity.
Qed.
Lemma put_int_ok w n l : - 10 ^ 20 < n < 10 ^ 20 -> (match l with c :: _ => is_digit c = false | [] => True end) -> scan_int (put_int w n ++ l) = Some (n, l).
Proof.
  intros Hn Hl. unfold put_int. destruct (Z.ltb_spec n 0) as [L|L].
  - cbn [app scan_int]. change (45 =? 45) with true. cbn iota. rewrite pad_ok by (auto; lia). cbn [option_map fst snd]. do 2 f_equal. lia.
  - pose proof (pad_ok w n l ltac:(lia) Hl) as P. unfold scan_int. destruct (pad w (digits n) ++ l) as [|c r] eqn:E; [discriminate|].
    assert (Hc : is_digit c = true) by (unfold scan_unsigned in P; destruct (is_digit c); [reflexivity|discriminate]). unfold is_digit in Hc. apply andb_prop in Hc. rewrite !Z.leb_le in Hc.
    destruct (Z.eqb_spec c 45); [lia|]. destruct (Z.eqb_spec c 43); [lia|]. exact P.
Qed.
(** Every date printed between [d'] and ['] is read back as the same date. *)
Theorem C42_print_parse : forall y m d, calendar_date y m d -> - 2 ^ 22 <= y < 2 ^ 22 -> eval_date ([100; 39] ++ print_date (encode y m d) ++ [39]) = Some (encode y m d).
Proof.
  intros y m d H Hy. destruct (C42_round_trip y m d H Hy) as [E1 [E2 E3]]. destruct (calendar_range _ _ _ H) as [Hm Hd]. unfold eval_date, print_date. rewrite E1, E2, E3. unfold scan_date.
  assert (SC : forall c l, scan_char c (c :: l) = Some l) by (intros c l; cbn [scan_char]; rewrite Z.eqb_refl; reflexivity).
  cbn [app]. rewrite !SC. rewrite <- !app_assoc. cbn [app].
  rewrite put_int_ok by (auto; lia). rewrite SC. rewrite <- ?app_assoc. cbn [app]. rewrite put_int_ok by (auto; lia). rewrite SC.
  rewrite put_int_ok by (auto; lia). reflexivity.
Qed.
(** The text printed, character by character: a minus sign for years before 1, four digits, dash, two digits, dash, two digits. *)
Definition two_digits (n : Z) : list Z := [48 + n / 10; 48 + n mod 10].
Definition four_digits (n : Z) : list Z := [48 + n / 1000; 48 + n / 100 mod 10; 48 + n / 10 mod 10; 48 + n mod 10].
Lemma put_two n : 0 <= n < 100 -> put_int 2 n = two_digits n.
Proof.
  intros H. unfold put_int. replace (n <? 0) with false by (symmetry; apply Z.ltb_ge; lia). unfold digits, two_digits. cbn [digits_fuel].
  destruct (Z.ltb_spec n 10) as [L|L]; [rewrite (Z.div_small n 10), (Z.mod_small n 10) by lia; reflexivity|].
  assert (n / 10 < 10) by (apply Z.div_lt_upper_bound; lia). replace (n / 10 <? 10) with true by (symmetry; apply Z.ltb_lt; lia). reflexivity.
Qed.
Lemma four_digits_ok n : 0 <= n < 10000 -> pad 4 (digits n) = four_digits n.
Proof.
  intros H. unfold digits, four_digits. cbn [digits_fuel]. assert (D : forall a b, 0 <= a -> 0 < b -> 0 <= a / b) by (intros; apply Z.div_pos; lia).
  pose proof (D n 10 ltac:(lia) ltac:(lia)) as P1. pose proof (D n 100 ltac:(lia) ltac:(lia)) as P2. assert (E1 : n / 10 / 10 = n / 100) by (rewrite Z.div_div by lia; reflexivity). assert (E2 : n / 100 / 10 = n / 1000) by (rewrite Z.div_div by lia; reflexivity).
  destruct (Z.ltb_spec n 10) as [L|L].
  { rewrite (Z.div_small n 1000), (Z.div_small n 100), (Z.div_small n 10), (Z.mod_small n 10) by lia. reflexivity. }
  destruct (Z.ltb_spec (n / 10) 10) as [L1|L1].
  { assert (n < 100) by (apply Z.nle_gt; intros X; assert (10 <= n / 10) by (apply Z.div_le_lower_bound; lia); lia).
    rewrite (Z.div_small n 1000), (Z.div_small n 100), (Z.mod_small (n / 10) 10) by lia. reflexivity. }
  rewrite E1. destruct (Z.ltb_spec (n / 100) 10) as [L2|L2].
  { assert (n < 1000) by (apply Z.nle_gt; intros X; assert (10 <= n / 100) by (apply Z.div_le_lower_bound; lia); lia).
    rewrite (Z.div_small n 1000), (Z.mod_small (n / 100) 10) by lia. reflexivity. }
  rewrite E2. assert (n / 1000 < 10) by (apply Z.div_lt_upper_bound; lia). replace (n / 1000 <? 10) with true by (symmetry; apply Z.ltb_lt; lia). reflexivity.
Qed.
Theorem C42_print_format : forall y m d, calendar_date y m d -> -9999 <= y <= 9999 ->
  print_date (encode y m d) = (if y <? 0 then [45] else []) ++ four_digits (Z.abs y) ++ [45] ++ two_digits m ++ [45] ++ two_digits d.
Proof.
  intros y m d H Hy. destruct (C42_round_trip y m d H ltac:(lia)) as [E1 [E2 E3]]. destruct (calendar_range _ _ _ H) as [Hm Hd]. unfold print_date. rewrite E1, E2, E3.
  rewrite !put_two by lia. assert (y <> 0) by (destruct H; assumption). unfold put_int. rewrite Z.gtb_ltb.
  destruct (Z.ltb_spec y 0) as [L|L].
  - replace (0 <? y) with false by (symmetry; apply Z.ltb_ge; lia). cbn [Nat.sub]. rewrite Z.abs_neq by lia. rewrite four_digits_ok by lia. reflexivity.
  - replace (0 <? y) with true by (symmetry; apply Z.ltb_lt; lia). rewrite Z.abs_eq by lia. rewrite four_digits_ok by lia. reflexivity.
Qed.
(** Reading that text gives the date. *)
Theorem C42_parse_format : forall y m d, calendar_date y m d -> -9999 <= y <= 9999 ->
  scan_date ([100; 39] ++ (if y <? 0 then [45] else []) ++ four_digits (Z.abs y) ++ [45] ++ two_digits m ++ [45] ++ two_digits d ++ [39]) = Some (y, m, d).
Proof.
  intros y m d H Hy. pose proof (C42_print_parse y m d H ltac:(lia)) as P. rewrite (C42_print_format y m d H Hy) in P. rewrite <- !app_assoc in P. unfold eval_date in P.
  destruct (scan_date _) as [[[y' m'] d']|] eqn:E; [|discriminate].
  assert (SC : forall c l, scan_char c (c :: l) = Some l) by (intros c l; cbn [scan_char]; rewrite Z.eqb_refl; reflexivity).
  destruct (calendar_range _ _ _ H) as [Hm Hd]. pose proof (C42_print_format y m d H Hy) as F. destruct (C42_round_trip y m d H ltac:(lia)) as [E1 [E2 E3]]. unfold print_date in F. rewrite E1, E2, E3 in F.
  assert (X : [100; 39] ++ (if y <? 0 then [45] else []) ++ four_digits (Z.abs y) ++ [45] ++ two_digits m ++ [45] ++ two_digits d ++ [39] =
     100 :: 39 :: put_int (if y >? 0 then 4 else 5) y ++ 45 :: put_int 2 m ++ 45 :: put_int 2 d ++ [39]).
  { change (100 :: 39 :: ?l) with ([100; 39] ++ l). f_equal. transitivity (((if y <? 0 then [45] else []) ++ four_digits (Z.abs y) ++ [45] ++ two_digits m ++ [45] ++ two_digits d) ++ [39]); [rewrite <- !app_assoc; reflexivity|].
    rewrite <- F. rewrite <- !app_assoc. reflexivity. }
  rewrite <- E. rewrite X. unfold scan_date. rewrite !SC. rewrite put_int_ok by (auto; lia). rewrite SC. rewrite put_int_ok by (auto; lia). rewrite SC. rewrite put_int_ok by (auto; lia). reflexivity.
Qed.
Example C42_inhabited : calendar_date 2024 2 29 /\ calendar_date (-1) 12 31 /\ encode (-1) 12 31 < encode 1 1 1 /\
  print_date (encode (-1) 12 31) = [45; 48; 48; 48; 49; 45; 49; 50; 45; 51; 49] /\ print_date (encode 987 6 5) = [48; 57; 56; 55; 45; 48; 54; 45; 48; 53].
Proof. split; [unfold calendar_date, month_length; cbn; lia|]. split; [unfold calendar_date, month_length; cbn; lia|]. repeat split; reflexivity. Qed.
(** The validation does not know leap years: besides the dates of the Gregorian calendar (with no year 0) it accepts exactly the 29th of February of every other year. *)
Definition leap_year (y : Z) : Prop := y mod 4 = 0 /\ (y mod 100 <> 0 \/ y mod 400 = 0).
Definition gregorian_date (y m d : Z) : Prop := y <> 0 /\ 1 <= m <= 12 /\ 1 <= d /\
  (m = 2 -> d <= 29 /\ (d = 29 -> leap_year y)) /\ (m = 4 \/ m = 6 \/ m = 9 \/ m = 11 -> d <= 30) /\ d <= 31.
Theorem C42_validation_exact : forall y m d, sema_accepts y m d = true <-> gregorian_date y m d \/ (y <> 0 /\ m = 2 /\ d = 29 /\ ~ leap_year y).
Proof.
  intros y m d. rewrite sema_spec. unfold calendar_date, gregorian_date.
  assert (DL : leap_year y \/ ~ leap_year y) by (unfold leap_year; destruct (Z.eq_dec (y mod 4) 0), (Z.eq_dec (y mod 100) 0), (Z.eq_dec (y mod 400) 0); tauto).
  unfold month_length. destruct (Z.eqb_spec m 2) as [E|E].
  - split; [intros (H1 & H2 & H3)|intros [(H1 & H2 & H3 & H4 & H5 & H6)|(H1 & H2 & H3 & _)]].
    + destruct DL as [L|L].
      * left. split; [exact H1|]. split; [lia|]. split; [lia|]. split; [intros _; split; [lia|intros _; exact L]|]. split; intros; lia.
      * destruct (Z.eq_dec d 29) as [D|D]; [right; repeat split; assumption|]. left. split; [exact H1|]. split; [lia|]. split; [lia|]. split; [intros _; split; [lia|intros D'; contradiction]|]. split; intros; lia.
    + specialize (H4 E). split; [exact H1|]. lia.
    + split; [exact H1|]. lia.
  - split; [intros (H1 & H2 & H3)|intros [(H1 & H2 & H3 & H4 & H5 & H6)|(H1 & H2 & H3 & _)]]; [left| |contradiction].
    + split; [exact H1|]. split; [lia|]. split; [lia|]. split; [intros; contradiction|].
      destruct (Z.eqb_spec m 4), (Z.eqb_spec m 6), (Z.eqb_spec m 9), (Z.eqb_spec m 11); cbn [orb] in H3; split; intros; lia.
    + split; [exact H1|]. split; [lia|]. destruct (Z.eqb_spec m 4), (Z.eqb_spec m 6), (Z.eqb_spec m 9), (Z.eqb_spec m 11); cbn [orb]; lia.
Qed.
Theorem C42_refuted_leap_year : sema_accepts 2023 2 29 = true.
Proof. reflexivity. Qed.
(** Years outside 23 bits collide (the lexer only admits four digits). *)
Theorem C42_refuted_large_years : encode (2 ^ 23 + 1) 1 1 = encode 1 1 1.
Proof. reflexivity. Qed.
