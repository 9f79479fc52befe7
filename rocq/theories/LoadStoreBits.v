(** * C54: bits and bytes of the memory *)
From Coq Require Import List Bool ZArith Arith Lia.
From Verif Require Import LoadStore LoadStoreSpec.
Import ListNotations.
Local Open Scope Z_scope.

Definition put_bit (m : memory) (a : Z) (b : bool) : memory := set_byte m (a / 8) (setbit (m (a / 8)) b (a mod 8)).
(** Writing a value of type [t] at bit address [a] *)
Definition put (t : type) (m : memory) (a : Z) (v : val) : memory :=
  match t with
  | TBool => put_bit m a (as_b v)
  | TI8 => write_le m (a / 8) 1 (as_i v)
  | TI16 => write_le m (a / 8) 2 (as_i v)
  | TI32 | TF32 => write_le m (a / 8) 4 (as_i v)
  | TI64 | TF64 => write_le m (a / 8) 8 (as_i v)
  | TChar n => write_str m (a / 8) n (as_s v)
  | TVarchar n => write_str m (a / 8) (S n) (as_s v)
  | TBitmap => m
  end.

(** ** All bytes *)
Definition byte_range : list Z := map Z.of_nat (seq 0 256).
Definition bit_range : list Z := map Z.of_nat (seq 0 8).
Lemma in_range n z : 0 <= z < Z.of_nat n -> In z (map Z.of_nat (seq 0 n)).
Proof. intros H. apply in_map_iff. exists (Z.to_nat z). split; [lia|]. apply in_seq. lia. Qed.
Lemma in_byte z : 0 <= z < 256 -> In z byte_range.
Proof. intros. apply (in_range 256). lia. Qed.
Lemma in_bit z : 0 <= z < 8 -> In z bit_range.
Proof. intros. apply (in_range 8). lia. Qed.
Definition byte_facts : bool :=
  forallb (fun z => forallb (fun b =>
    (Z.lor (signed 1 z) (2 ^ b) mod 256 =? setbit z true b) &&
    (Z.land (signed 1 z) (Z.lnot (2 ^ b)) mod 256 =? setbit z false b) &&
    Bool.eqb (negb (Z.land z (2 ^ b mod 256) =? 0)) (Z.testbit z b) &&
    Bool.eqb (negb (Z.land (signed 1 z) (2 ^ b) =? 0)) (Z.testbit z b) &&
    forallb (fun v => (0 <=? setbit z v b) && (setbit z v b <? 256) &&
      forallb (fun j => Bool.eqb (Z.testbit (setbit z v b) j) (if j =? b then v else Z.testbit z j)) bit_range) [true; false]) bit_range) byte_range.
Lemma byte_facts_ok : byte_facts = true.
Proof. vm_compute. reflexivity. Qed.
Lemma byte_fact z b : 0 <= z < 256 -> 0 <= b < 8 ->
  Z.lor (signed 1 z) (2 ^ b) mod 256 = setbit z true b /\ Z.land (signed 1 z) (Z.lnot (2 ^ b)) mod 256 = setbit z false b /\
  negb (Z.land z (2 ^ b mod 256) =? 0) = Z.testbit z b /\ negb (Z.land (signed 1 z) (2 ^ b) =? 0) = Z.testbit z b /\
  forall v, 0 <= setbit z v b < 256 /\ forall j, 0 <= j < 8 -> Z.testbit (setbit z v b) j = if j =? b then v else Z.testbit z j.
Proof.
  intros Hz Hb. pose proof byte_facts_ok as H. unfold byte_facts in H. rewrite forallb_forall in H. specialize (H z (in_byte z Hz)). rewrite forallb_forall in H. specialize (H b (in_bit b Hb)).
  rewrite !andb_true_iff in H. destruct H as ((((A & B) & C) & D) & F). apply Z.eqb_eq in A, B. apply eqb_prop in C, D. rewrite forallb_forall in F.
  split; [exact A|]. split; [exact B|]. split; [exact C|]. split; [exact D|]. intros v. assert (Hv : In v [true; false]) by (destruct v; cbn; auto). specialize (F v Hv). rewrite !andb_true_iff in F. destruct F as ((F1 & F2) & F3).
  apply Z.leb_le in F1. apply Z.ltb_lt in F2. split; [lia|]. intros j Hj. rewrite forallb_forall in F3. apply eqb_prop. exact (F3 j (in_bit j Hj)).
Qed.

Lemma mod8 a : 0 <= a mod 8 < 8.
Proof. apply Z.mod_pos_bound. lia. Qed.
Lemma set_byte_ok m a b : bytes_ok m -> 0 <= b < 256 -> bytes_ok (set_byte m a b).
Proof. intros H Hb x. unfold set_byte. destruct (x =? a); [exact Hb|apply H]. Qed.
Lemma get_set_byte m a b x : get_bit (set_byte m a b) x = if x / 8 =? a then Z.testbit b (x mod 8) else get_bit m x.
Proof. unfold get_bit, set_byte. destruct (x / 8 =? a); reflexivity. Qed.

Lemma put_bit_ok m a b : bytes_ok m -> bytes_ok (put_bit m a b).
Proof. intros H. apply set_byte_ok; [exact H|]. apply byte_fact; [apply H|apply mod8]. Qed.
Lemma get_put_bit m a b x : bytes_ok m -> get_bit (put_bit m a b) x = if x =? a then b else get_bit m x.
Proof.
  intros H. unfold put_bit. rewrite get_set_byte. pose proof (Z.div_mod x 8 ltac:(lia)). pose proof (Z.div_mod a 8 ltac:(lia)). pose proof (mod8 x). pose proof (mod8 a).
  destruct (byte_fact (m (a / 8)) (a mod 8) (H _) (mod8 a)) as (_ & _ & _ & _ & F). destruct (F b) as [_ F2].
  destruct (Z.eqb_spec (x / 8) (a / 8)) as [E|E].
  - rewrite F2 by lia. destruct (Z.eqb_spec (x mod 8) (a mod 8)); destruct (Z.eqb_spec x a); try reflexivity; try lia. unfold get_bit. rewrite E. reflexivity.
  - destruct (Z.eqb_spec x a) as [->|]; [congruence|reflexivity].
Qed.

(** ** Bytes from bits *)
Lemma byte_bits x y : 0 <= x < 256 -> 0 <= y < 256 -> (forall j, 0 <= j < 8 -> Z.testbit x j = Z.testbit y j) -> x = y.
Proof.
  intros Hx Hy H. rewrite <- (Z.mod_small x (2 ^ 8)), <- (Z.mod_small y (2 ^ 8)) by (change (2 ^ 8) with 256; lia). apply Z.bits_inj'. intros n Hn.
  destruct (Z_lt_ge_dec n 8); [rewrite !Z.mod_pow2_bits_low by lia; apply H; lia|rewrite !Z.mod_pow2_bits_high by lia; reflexivity].
Qed.
Lemma same_byte m m' a : bytes_ok m -> bytes_ok m' -> (forall x, 8 * a <= x < 8 * a + 8 -> get_bit m x = get_bit m' x) -> m a = m' a.
Proof.
  intros H H' E. apply byte_bits; [apply H|apply H'|]. intros j Hj. specialize (E (j + a * 8) ltac:(lia)). unfold get_bit in E. rewrite Z.div_add, Z.mod_add in E by lia. rewrite (Z.div_small j 8), (Z.mod_small j 8) in E by lia. exact E.
Qed.

Lemma write_le_ok w : forall m a v, bytes_ok m -> bytes_ok (write_le m a w v).
Proof. induction w as [|w IH]; intros m a v H; cbn; [exact H|]. apply IH. apply set_byte_ok; [exact H|]. apply Z.mod_pos_bound. lia. Qed.
Lemma write_le_out w : forall m a v x, x < a \/ a + Z.of_nat w <= x -> write_le m a w v x = m x.
Proof. induction w as [|w IH]; intros m a v x H; cbn [write_le]; [reflexivity|]. rewrite IH by lia. unfold set_byte. destruct (Z.eqb_spec x a); [lia|reflexivity]. Qed.
Lemma read_write_le w : forall m a v, read_le (write_le m a w v) a w = v mod 2 ^ (8 * Z.of_nat w).
Proof.
  induction w as [|w IH]; intros m a v; cbn [write_le read_le]; [symmetry; apply Z.mod_1_r|]. rewrite write_le_out by lia. unfold set_byte at 1. rewrite Z.eqb_refl. rewrite IH.
  replace (2 ^ (8 * Z.of_nat (S w))) with (256 * 2 ^ (8 * Z.of_nat w)) by (replace (8 * Z.of_nat (S w)) with (8 + 8 * Z.of_nat w) by lia; rewrite Z.pow_add_r by lia; reflexivity).
  rewrite Z.rem_mul_r by (try lia; apply Z.pow_pos_nonneg; lia). reflexivity.
Qed.
Lemma signed_mod w z : (0 < w)%nat -> - 2 ^ (8 * Z.of_nat w - 1) <= z < 2 ^ (8 * Z.of_nat w - 1) -> signed w (z mod 2 ^ (8 * Z.of_nat w)) = z.
Proof.
  intros Hw Hz. unfold signed. set (k := 8 * Z.of_nat w) in *. assert (E : 2 ^ k = 2 * 2 ^ (k - 1)) by (rewrite <- Z.pow_succ_r by lia; f_equal; lia). rewrite E in *. set (h := 2 ^ (k - 1)) in *. assert (0 < h) by (apply Z.pow_pos_nonneg; lia). clearbody h. clear E.
  destruct (Z_lt_ge_dec z 0).
  - assert (M : z mod (2 * h) = z + 2 * h) by (symmetry; apply (Z.mod_unique z (2 * h) (-1)); [left|]; lia). rewrite M. destruct (Z.ltb_spec (z + 2 * h) h); lia.
  - rewrite Z.mod_small by lia. destruct (Z.ltb_spec z h); lia.
Qed.
Lemma read_le_ext w : forall m m' a, (forall x, a <= x < a + Z.of_nat w -> m x = m' x) -> read_le m a w = read_le m' a w.
Proof. induction w as [|w IH]; intros m m' a H; cbn; [reflexivity|]. rewrite (H a) by lia. rewrite (IH m m' (a + 1)); [reflexivity|]. intros x Hx. apply H. lia. Qed.
Lemma read_str_ext w : forall m m' a, (forall x, a <= x < a + Z.of_nat w -> m x = m' x) -> read_str m a w = read_str m' a w.
Proof. induction w as [|w IH]; intros m m' a H; cbn; [reflexivity|]. rewrite (H a) by lia. rewrite (IH m m' (a + 1)); [reflexivity|]. intros x Hx. apply H. lia. Qed.
Lemma read_str_length m n : forall a, (length (read_str m a n) <= n)%nat.
Proof. induction n as [|n IH]; intros a; cbn; [lia|]. destruct (m a =? 0); cbn; [lia|]. specialize (IH (a + 1)). lia. Qed.

Lemma write_str_ok w : forall m a s, bytes_ok m -> Forall (fun c => 0 <= c < 256) s -> bytes_ok (write_str m a w s).
Proof.
  induction w as [|w IH]; intros m a s H F; cbn; [exact H|]. destruct s as [|c s]; apply IH; auto.
  - apply set_byte_ok; [exact H|lia].
  - inversion F; subst. apply set_byte_ok; [exact H|assumption].
  - inversion F; assumption.
Qed.
Lemma write_str_out w : forall m a s x, x < a \/ a + Z.of_nat w <= x -> write_str m a w s x = m x.
Proof. induction w as [|w IH]; intros m a s x H; cbn [write_str]; [reflexivity|]. destruct s; rewrite IH by lia; unfold set_byte; destruct (Z.eqb_spec x a); (lia || reflexivity). Qed.
Lemma read_write_str w : forall m a s n, (n <= w)%nat -> (length s <= n)%nat -> Forall (fun c => 0 < c < 256) s -> read_str (write_str m a w s) a n = s.
Proof.
  induction w as [|w IH]; intros m a s n Hn Hs F.
  - destruct n; [|lia]. destruct s; [reflexivity|cbn in Hs; lia].
  - destruct n as [|n]; [destruct s; [reflexivity|cbn in Hs; lia]|]. cbn [write_str read_str]. destruct s as [|c s].
    + rewrite write_str_out by lia. unfold set_byte at 1. rewrite !Z.eqb_refl. reflexivity.
    + inversion F as [|? ? Hc F']; subst. rewrite write_str_out by lia. unfold set_byte at 1 2. rewrite !Z.eqb_refl. destruct (Z.eqb_spec c 0); [lia|]. f_equal. apply IH; [lia|cbn in Hs; lia|assumption].
Qed.

(** ** Values *)
Lemma put_ok t m a v : bytes_ok m -> chars_ok v -> bytes_ok (put t m a v).
Proof.
  intros H C. destruct t; cbn [put]; auto using put_bit_ok, write_le_ok; apply write_str_ok; auto; destruct v; cbn; auto.
Qed.
Lemma get_out m m' a w x : (forall y, y < a \/ a + w <= y -> m' y = m y) -> x < 8 * a \/ 8 * a + 8 * w <= x -> get_bit m' x = get_bit m x.
Proof. intros H Hx. unfold get_bit. rewrite H; [reflexivity|]. pose proof (Z.div_mod x 8 ltac:(lia)). pose proof (mod8 x). lia. Qed.
Lemma put_frame t m a v x : bytes_ok m -> (is_boolean t = false -> a mod 8 = 0) -> x < a \/ a + bits t <= x -> get_bit (put t m a v) x = get_bit m x.
Proof.
  intros H A Hx. pose proof (Z.div_mod a 8 ltac:(lia)) as D. destruct t; cbn [put bits] in *; try specialize (A eq_refl);
    try (eapply get_out; [intros y Hy; apply write_le_out; exact Hy|lia]); try (eapply get_out; [intros y Hy; apply write_str_out; exact Hy|lia]); [|reflexivity].
  rewrite get_put_bit by exact H. destruct (Z.eqb_spec x a); [lia|reflexivity].
Qed.
Lemma value_put t m a v : bytes_ok m -> has_type t v -> value_at t (put t m a v) a = v.
Proof.
  intros H T. destruct t; cbn [has_type put value_at] in *; try contradiction; destruct v; try contradiction; cbn [as_i as_b as_s].
  - rewrite get_put_bit, Z.eqb_refl by exact H. reflexivity.
  - rewrite read_write_le, signed_mod by (first [lia|exact T]). reflexivity.
  - rewrite read_write_le, signed_mod by (first [lia|exact T]). reflexivity.
  - rewrite read_write_le, signed_mod by (first [lia|exact T]). reflexivity.
  - rewrite read_write_le, signed_mod by (first [lia|exact T]). reflexivity.
  - rewrite read_write_le, Z.mod_small by exact T. reflexivity.
  - rewrite read_write_le, signed_mod by (first [lia|exact T]). reflexivity.
  - rewrite read_write_str by (first [lia|apply T]). reflexivity.
  - rewrite read_write_str by (first [lia|apply T]). reflexivity.
Qed.
Lemma value_ext t m m' a : bytes_ok m -> bytes_ok m' -> (is_boolean t = false -> a mod 8 = 0) -> (forall x, a <= x < a + bits t -> get_bit m x = get_bit m' x) -> value_at t m a = value_at t m' a.
Proof.
  intros H H' A E. pose proof (Z.div_mod a 8 ltac:(lia)) as D.
  assert (B : is_boolean t = false -> forall x, a / 8 <= x < a / 8 + bits t / 8 -> m x = m' x).
  { intros T x Hx. specialize (A T). apply same_byte; auto. intros y Hy. apply E. pose proof (Z.div_mod (bits t) 8 ltac:(lia)). assert (bits t mod 8 = 0); [|lia]. clear - T. destruct t; cbn [bits]; try discriminate T; try reflexivity; rewrite Z.mul_comm; apply Z.mod_mul; lia. }
  destruct t; cbn [value_at bits] in *; try specialize (B eq_refl); try reflexivity;
    try (rewrite (read_le_ext _ m m'); [reflexivity|]; intros x Hx; apply B; change (8 / 8) with 1; change (16 / 8) with 2; change (32 / 8) with 4; change (64 / 8) with 8; lia).
  - rewrite E by lia. reflexivity.
  - rewrite (read_str_ext _ m m'); [reflexivity|]. intros x Hx; apply B. rewrite (Z.mul_comm 8), Z.div_mul by lia. lia.
  - rewrite (read_str_ext _ m m'); [reflexivity|]. intros x Hx; apply B. rewrite (Z.mul_comm 8), Z.div_mul by lia. lia.
Qed.
