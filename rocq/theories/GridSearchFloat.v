(** * Proofs about the grid search: linear spaces *)
From Coq Require Import ZArith Reals Lra Lia Bool.
From Flocq Require Import Core Relative.
From Verif Require Import GridSearch GridSearchSpec.
Local Open Scope R_scope.

Notation fmt := (generic_format radix2 (FLX_exp 53)).
#[export] Instance prec53 : Prec_gt_0 53 := eq_refl.
#[export] Instance valid53 : Valid_exp (FLX_exp 53) := FLX_exp_valid 53.

Lemma fmt_scaled : forall (m e : Z), (Z.abs m < 2 ^ 53)%Z -> fmt (IZR m * bpow radix2 e).
Proof.
  intros m e H. apply generic_format_FLX. exists (Float radix2 m e); [reflexivity|]. exact H.
Qed.
Lemma fmt_int : forall z, (Z.abs z < 2 ^ 53)%Z -> fmt (IZR z).
Proof. intros z H. replace (IZR z) with (IZR z * bpow radix2 0) by (simpl; ring). now apply fmt_scaled. Qed.
Lemma fmt_quarter : forall z, (Z.abs z < 2 ^ 53)%Z -> fmt (IZR z / 4).
Proof. intros z H. replace (IZR z / 4) with (IZR z * bpow radix2 (-2)) by (simpl; lra). now apply fmt_scaled. Qed.

Lemma RZ_le x y : x <= y -> RZ x <= RZ y.
Proof. apply round_le; typeclasses eauto. Qed.
Lemma RN_le x y : x <= y -> RN x <= RN y.
Proof. apply round_le; typeclasses eauto. Qed.
Lemma RZ_fmt x : fmt x -> RZ x = x.
Proof. apply round_generic; typeclasses eauto. Qed.
Lemma RN_fmt x : fmt x -> RN x = x.
Proof. apply round_generic; typeclasses eauto. Qed.
Lemma RZ_int z : (Z.abs z < 2 ^ 53)%Z -> RZ (IZR z) = IZR z.
Proof. intros. apply RZ_fmt. now apply fmt_int. Qed.
Lemma RN_int z : (Z.abs z < 2 ^ 53)%Z -> RN (IZR z) = IZR z.
Proof. intros. apply RN_fmt. now apply fmt_int. Qed.

Lemma RZ_bounds x : 0 <= x -> x * (1 - / 4503599627370496) <= RZ x <= x.
Proof.
  intros Hx. split.
  - destruct (Req_dec x 0) as [->|N].
    + rewrite Rmult_0_l. replace 0 with (RZ 0) at 1; [apply Rle_refl|]. apply RZ_int. reflexivity.
    + pose proof (relative_error_FLX radix2 53 eq_refl Ztrunc x N) as H. fold (RZ x) in H.
      rewrite (Rabs_pos_eq x Hx) in H. apply Rabs_lt_inv in H as [H _].
      simpl in H. lra.
  - unfold RZ. rewrite round_ZR_DN by assumption. apply round_DN_pt. typeclasses eauto.
Qed.

Lemma RN_error x : 0 <= x -> Rabs (RN x - x) <= / 9007199254740992 * x.
Proof.
  intros Hx. pose proof (relative_error_N_FLX radix2 53 eq_refl (fun z => negb (Z.even z)) x) as H.
  fold (RN x) in H. rewrite (Rabs_pos_eq x Hx) in H. simpl in H. lra.
Qed.

Lemma std_round_le x y : x <= y -> (std_round x <= std_round y)%Z.
Proof. apply Zrnd_le. apply valid_rnd_NA. Qed.
Lemma std_round_int z : std_round (IZR z) = z.
Proof. apply Zrnd_IZR. apply valid_rnd_NA. Qed.

(** Everything about [round(n * step)], for [d = hi - lo] and [k = num_steps] *)
Section delta.
  Variables (d k : Z).
  Hypothesis Hd : (0 <= d <= 2 ^ 50)%Z.
  Hypothesis Hk : (0 < k)%Z.
  Definition stp := RZ (IZR d / IZR k).
  Definition dlt (n : Z) := std_round (RN (IZR n * stp)).

  Lemma quot_nonneg : 0 <= IZR d / IZR k.
  Proof using Hd Hk.
    apply Rmult_le_pos; [apply IZR_le; lia|]. apply Rlt_le, Rinv_0_lt_compat, IZR_lt. lia.
  Qed.
  Lemma stp_nonneg : 0 <= stp.
  Proof using Hd Hk.
    unfold stp. replace 0 with (RZ 0); [apply RZ_le, quot_nonneg|]. apply RZ_int. reflexivity.
  Qed.

  Lemma exact_bounds n : (0 <= n <= k)%Z -> 0 <= IZR n * (IZR d / IZR k) <= IZR d.
  Proof using Hd Hk.
    intros Hn. pose proof quot_nonneg as Q. split.
    - apply Rmult_le_pos; [apply IZR_le; lia|assumption].
    - apply Rle_trans with (IZR k * (IZR d / IZR k)).
      + apply Rmult_le_compat_r; [assumption|]. apply IZR_le. lia.
      + right. field. apply not_0_IZR. lia.
  Qed.

  Lemma product_bounds n : (0 <= n <= k)%Z ->
    IZR n * (IZR d / IZR k) - / 4 <= IZR n * stp <= IZR n * (IZR d / IZR k).
  Proof using Hd Hk.
    intros Hn. pose proof (RZ_bounds _ quot_nonneg) as [B1 B2]. fold stp in B1, B2.
    pose proof (exact_bounds n Hn) as [E1 E2].
    assert (N0 : 0 <= IZR n) by (apply IZR_le; lia).
    assert (D : IZR d <= 1125899906842624) by (apply IZR_le; lia).
    split; [|now apply Rmult_le_compat_l].
    apply Rle_trans with (IZR n * (IZR d / IZR k * (1 - / 4503599627370496))); [|now apply Rmult_le_compat_l].
    rewrite <- Rmult_assoc. set (y := IZR n * (IZR d / IZR k)) in *. clearbody y. lra.
  Qed.

  Lemma dlt_range n : (0 <= n <= k)%Z -> (0 <= dlt n <= d)%Z.
  Proof using Hd Hk.
    intros Hn. pose proof (product_bounds n Hn) as [_ P]. pose proof (exact_bounds n Hn) as [_ E].
    unfold dlt. split.
    - rewrite <- (std_round_int 0). apply std_round_le.
      rewrite <- (RN_int 0) by reflexivity. apply RN_le. apply Rmult_le_pos; [apply IZR_le; lia|apply stp_nonneg].
    - rewrite <- (std_round_int d). apply std_round_le.
      rewrite <- (RN_int d) by lia. apply RN_le. lra.
  Qed.

  Lemma dlt_mono n m : (n <= m)%Z -> (dlt n <= dlt m)%Z.
  Proof using Hd Hk.
    intros H. apply std_round_le, RN_le. apply Rmult_le_compat_r; [apply stp_nonneg|]. now apply IZR_le.
  Qed.

  Lemma dlt_zero : dlt 0 = 0%Z.
  Proof using. unfold dlt. rewrite Rmult_0_l, (RN_int 0) by reflexivity. apply std_round_int. Qed.

  Lemma dlt_end : dlt k = d.
  Proof using Hd Hk.
    unfold dlt. apply Znearest_imp.
    pose proof (product_bounds k ltac:(lia)) as [P1 P2].
    replace (IZR k * (IZR d / IZR k)) with (IZR d) in * by (field; apply not_0_IZR; lia).
    destruct (Z.eq_dec d 0) as [E|N].
    { assert (Z0 : IZR k * stp = 0).
      { pose proof stp_nonneg. assert (0 <= IZR k) by (apply IZR_le; lia).
        assert (0 <= IZR k * stp) by (apply Rmult_le_pos; assumption). rewrite E in P2. lra. }
      rewrite Z0, (RN_int 0), E by reflexivity. rewrite Rminus_0_r, Rabs_R0. lra. }
    assert (L : IZR d - / 4 <= RN (IZR k * stp)).
    { replace (IZR d - / 4) with (IZR (4 * d - 1) / 4) by (rewrite minus_IZR, mult_IZR; field).
      rewrite <- (RN_fmt (IZR (4 * d - 1) / 4)) by (apply fmt_quarter; lia). apply RN_le.
      rewrite minus_IZR, mult_IZR. lra. }
    assert (U : RN (IZR k * stp) <= IZR d).
    { rewrite <- (RN_int d) by lia. now apply RN_le. }
    apply Rabs_lt. lra.
  Qed.

  Lemma dlt_near n : (0 <= n <= k)%Z -> (Z.abs (dlt n * k - n * d) < k)%Z.
  Proof using Hd Hk.
    intros Hn. pose proof (product_bounds n Hn) as [P1 P2]. pose proof (exact_bounds n Hn) as [E1 E2].
    assert (D : IZR d <= 1125899906842624) by (apply IZR_le; lia).
    assert (N : 0 <= IZR n * stp) by (apply Rmult_le_pos; [apply IZR_le; lia | apply stp_nonneg]).
    pose proof (RN_error _ N) as R1.
    pose proof (Znearest_half (Z.leb 0) (RN (IZR n * stp))) as R2.
    assert (R2' : Rabs (RN (IZR n * stp) - IZR (dlt n)) <= / 2) by exact R2. clear R2.
    apply Rabs_le_inv in R1, R2'.
    assert (X : Rabs (IZR (dlt n) - IZR n * (IZR d / IZR k)) < 1).
    { apply Rabs_lt. set (y := IZR n * (IZR d / IZR k)) in *. set (z := IZR n * stp) in *. set (r := RN z) in *.
      clearbody y z r. lra. }
    apply lt_IZR. rewrite abs_IZR, minus_IZR, !mult_IZR.
    assert (K : 0 < IZR k) by (apply IZR_lt; lia).
    replace (IZR (dlt n) * IZR k - IZR n * IZR d) with (IZR k * (IZR (dlt n) - IZR n * (IZR d / IZR k)))
      by (field; lra).
    rewrite Rabs_mult, (Rabs_pos_eq (IZR k)) by lra.
    apply Rlt_le_trans with (IZR k * 1); [now apply Rmult_lt_compat_l|lra].
  Qed.

  Lemma dlt_exact n q : d = (k * q)%Z -> (0 <= n <= k)%Z -> dlt n = (n * q)%Z.
  Proof using Hd Hk.
    intros E Hn. assert (Hq : (0 <= q)%Z) by (clear - Hd Hk E; nia). assert (Hq' : (q <= d)%Z) by (clear - Hq Hk E; nia).
    assert (Hnq : (0 <= n * q <= d)%Z).
    { rewrite E. split; [apply Z.mul_nonneg_nonneg; lia | apply Z.mul_le_mono_nonneg_r; lia]. }
    unfold dlt, stp. replace (IZR d / IZR k) with (IZR q).
    2:{ rewrite E, mult_IZR. field. apply not_0_IZR. lia. }
    rewrite RZ_int by lia. rewrite <- mult_IZR. rewrite RN_int; [apply std_round_int|].
    lia.
  Qed.
End delta.

(** Conversions of values that fit *)
Lemma convert_holds t z : (0 < bits t)%Z -> holds (bits t) (sgn t) z -> convert t z = z.
Proof.
  intros Hb H. unfold convert, holds in *. destruct t as [b s]. cbn [bits sgn] in *. destruct s; cbn [andb].
  - assert (P : (2 ^ b = 2 * 2 ^ (b - 1))%Z) by (rewrite <- Z.pow_succ_r by lia; f_equal; lia).
    set (p := (2 ^ b)%Z) in *. set (h := (2 ^ (b - 1))%Z) in *. clearbody p h.
    destruct (Z_lt_ge_dec z 0).
    + assert (M : (z mod p = z + p)%Z) by (symmetry; apply (Z.mod_unique _ _ (-1)); lia).
      rewrite M. destruct (Z.leb_spec h (z + p)); lia.
    + rewrite Z.mod_small by lia. destruct (Z.leb_spec h z); lia.
  - apply Z.mod_small. lia.
Qed.

Lemma convert_mod t z : convert t (z mod 2 ^ bits t)%Z = convert t z.
Proof.
  unfold convert. destruct (Z.eq_dec (2 ^ bits t) 0) as [E|N].
  - rewrite E. now rewrite !Zmod_0_r.
  - now rewrite Z.mod_mod.
Qed.
Lemma convert_plus t a b : convert t (a + b mod 2 ^ bits t)%Z = convert t (a + b).
Proof.
  rewrite <- convert_mod, <- (convert_mod t (a + b)).
  destruct (Z.eq_dec (2 ^ bits t) 0) as [E|N]; [rewrite E; now rewrite !Zmod_0_r|].
  now rewrite Z.add_mod_idemp_r.
Qed.
Lemma convert_minus t a b : convert t (a - b mod 2 ^ bits t)%Z = convert t (a - b).
Proof.
  rewrite <- convert_mod, <- (convert_mod t (a - b)).
  destruct (Z.eq_dec (2 ^ bits t) 0) as [E|N]; [rewrite E; now rewrite !Zmod_0_r|].
  now rewrite Zminus_mod_idemp_r.
Qed.

Lemma holds_between b s l h v : holds b s l -> holds b s h -> (l <= v <= h)%Z -> holds b s v.
Proof. unfold holds. destruct s; lia. Qed.

Lemma at_int_eq t l h k a S n : (0 < bits t)%Z -> holds (bits t) (sgn t) l -> holds (bits t) (sgn t) h ->
  (Z.abs l <= 2 ^ 49)%Z -> (Z.abs h <= 2 ^ 49)%Z -> (0 < k)%Z -> make_linear l h k a = Some S -> (0 <= n <= k)%Z ->
  (0 <= h - l <= 2 ^ 50)%Z /\ delta_at S n = dlt (h - l) k n /\
  at_int t S n = Some (if a then l + dlt (h - l) k n else h - dlt (h - l) k n)%Z.
Proof.
  intros Hb Hl Hh Al Ah Hk HS Hn. unfold make_linear in HS.
  destruct (Z.ltb_spec h l); [discriminate|]. destruct (Z.eqb_spec k 0); [lia|].
  injection HS as <-. split; [lia|].
  assert (E : RZ (RZ (RZ (IZR h) - RZ (IZR l)) / IZR k) = stp (h - l) k).
  { unfold stp. rewrite (RZ_int h), (RZ_int l) by lia. rewrite <- minus_IZR, RZ_int by lia. reflexivity. }
  assert (D : delta_at (mklinear l h k (RZ (RZ (RZ (IZR h) - RZ (IZR l)) / IZR k)) a) n = dlt (h - l) k n).
  { unfold delta_at, dlt. cbn [step]. now rewrite E. }
  split; [exact D|]. unfold at_int. rewrite D. cbn [steps ascending lo hi].
  destruct (Z.ltb_spec k n); [lia|].
  pose proof (dlt_range (h - l) k ltac:(lia) Hk n Hn) as R. unfold to_unsigned.
  destruct a; [rewrite convert_plus | rewrite convert_minus]; f_equal; apply convert_holds; try assumption;
    (apply (holds_between _ _ l h); [assumption..|lia]).
Qed.

(** ** Floating-point spaces *)
Lemma clamp_bounds v l h : l <= h -> l <= clamp v l h <= h.
Proof.
  intros H. unfold clamp. case Rlt_bool_spec; intros; [lra|]. case Rlt_bool_spec; intros; lra.
Qed.
Lemma clamp_le v w l h : l <= h -> v <= w -> clamp v l h <= clamp w l h.
Proof.
  intros H Hv. unfold clamp. repeat (case Rlt_bool_spec; intros); lra.
Qed.
Lemma clamp_id v l h : l <= v <= h -> clamp v l h = v.
Proof. intros H. unfold clamp. repeat (case Rlt_bool_spec; intros); lra. Qed.

(** Rounding numbers whose binade is known *)
Lemma round_binade rnd {V : Valid_rnd rnd} e x : bpow radix2 (e - 1) <= x < bpow radix2 e ->
  round radix2 (FLX_exp 53) rnd x = IZR (rnd (x * bpow radix2 (53 - e))) * bpow radix2 (e - 53).
Proof.
  intros H. unfold round, scaled_mantissa, cexp, F2R. cbn [Fnum Fexp].
  rewrite (mag_unique_pos radix2 x e H). unfold FLX_exp. now replace (- (e - 53))%Z with (53 - e)%Z by ring.
Qed.

Lemma RZ_top : RZ (IZR (2 ^ 64 - 1)) = IZR (2 ^ 64 - 2048).
Proof.
  unfold RZ. rewrite (round_binade _ 64).
  2:{ simpl; lra. }
  replace (Ztrunc _) with (2 ^ 53 - 1)%Z; [simpl; lra|].
  symmetry. rewrite Ztrunc_floor by (simpl; lra). apply Zfloor_imp. simpl. lra.
Qed.

Lemma RZ_tenth : RZ (1 / 10) = 7205759403792793 / 72057594037927936.
Proof.
  unfold RZ. rewrite (round_binade _ (-3)).
  2:{ simpl; lra. }
  replace (Ztrunc _) with 7205759403792793%Z; [simpl; lra|].
  symmetry. rewrite Ztrunc_floor by (simpl; lra). apply Zfloor_imp. simpl. lra.
Qed.
Lemma RN_ten : RN (10 * (7205759403792793 / 72057594037927936)) = 9007199254740991 / 9007199254740992.
Proof.
  unfold RN. rewrite (round_binade _ 0).
  2:{ simpl; lra. }
  replace (ZnearestE _) with 9007199254740991%Z; [simpl; lra|].
  symmetry. apply Znearest_imp. apply Rabs_lt. simpl. lra.
Qed.
