(** * Floating-point facts about the learned index's predictions: a predicted position never exceeds the number of entries. *)
From Coq Require Import List Bool ZArith Lia.
From Coq.Floats Require Import SpecFloat.
From Verif Require Import Index.
Import ListNotations.
Local Open Scope Z_scope.

(** Every result of an operation has at most 53 significant bits. *)
Definition small (x : f_t) : Prop := match x with S754_finite _ m _ => Zpos m < 2 ^ 53 | _ => True end.

Lemma digits_bounds p : 2 ^ (Zpos (digits2_pos p) - 1) <= Zpos p < 2 ^ Zpos (digits2_pos p).
Proof.
  induction p as [p IH|p IH|]; cbn [digits2_pos]; try (cbn; lia).
  - rewrite Pos2Z.inj_succ. replace (Z.succ (Zpos (digits2_pos p)) - 1) with (Zpos (digits2_pos p) - 1 + 1) by lia.
    rewrite Z.pow_succ_r, Z.pow_add_r by lia. change (2 ^ 1) with 2. lia.
  - rewrite Pos2Z.inj_succ. replace (Z.succ (Zpos (digits2_pos p)) - 1) with (Zpos (digits2_pos p) - 1 + 1) by lia.
    rewrite Z.pow_succ_r, Z.pow_add_r by lia. change (2 ^ 1) with 2. lia.
Qed.
Lemma iter_pos_iter {A} (f : A -> A) n x : iter_pos f n x = Pos.iter f x n.
Proof.
  revert x. induction n as [n IH|n IH|]; intros x; cbn [iter_pos Pos.iter]; [|rewrite !IH; reflexivity|reflexivity].
  rewrite !IH. rewrite <- !Pos.iter_swap. reflexivity.
Qed.
Lemma shr_1_m r : 0 <= shr_m r -> shr_m (shr_1 r) = shr_m r / 2.
Proof.
  destruct r as [m r s]. cbn [shr_m shr_1]. intros H. destruct m as [|[p|p|]|p]; try reflexivity; try lia; cbn [shr_m].
  - symmetry. change (Zpos p~1) with (2 * Zpos p + 1). rewrite Z.mul_comm, Z.div_add_l by lia. cbn. lia.
  - symmetry. change (Zpos p~0) with (2 * Zpos p). rewrite Z.mul_comm, Z.div_mul by lia. reflexivity.
Qed.
Lemma shr_iter_m n : forall r, 0 <= shr_m r -> shr_m (Nat.iter n shr_1 r) = shr_m r / 2 ^ Z.of_nat n.
Proof.
  induction n as [|n IH]; intros r H; [cbn; rewrite Z.div_1_r; reflexivity|].
  change (Nat.iter (S n) shr_1 r) with (shr_1 (Nat.iter n shr_1 r)). rewrite shr_1_m, IH by (rewrite ?IH; try assumption; apply Z.div_pos; lia || (apply Z.pow_pos_nonneg; lia)).
  rewrite Z.div_div by (try lia; apply Z.pow_pos_nonneg; lia). f_equal. rewrite Nat2Z.inj_succ, Z.pow_succ_r by lia. lia.
Qed.
Lemma shr_m_of_loc m l : shr_m (shr_record_of_loc m l) = m.
Proof. destruct l as [|[]]; reflexivity. Qed.
(** After [shr_fexp] the mantissa fits into 53 bits. *)
Lemma shr_fexp_bound m e l : 0 <= m -> 0 <= shr_m (fst (shr_fexp f_prec f_emax m e l)) < 2 ^ 53.
Proof.
  intros Hm. unfold shr_fexp, shr. set (k := fexp f_prec f_emax (Zdigits2 m + e) - e).
  assert (Hk : Zdigits2 m - 53 <= k) by (unfold k, fexp, f_prec; lia).
  assert (Hd : m < 2 ^ Z.max 0 (Zdigits2 m)).
  { destruct m as [|p|p]; [cbn; lia| |lia]. cbn [Zdigits2]. rewrite Z.max_r by lia. apply digits_bounds. }
  clearbody k. destruct k as [|p|p]; cbn [fst].
  - rewrite shr_m_of_loc. split; [exact Hm|]. eapply Z.lt_le_trans; [exact Hd|]. apply Z.pow_le_mono_r; lia.
  - rewrite iter_pos_iter. rewrite Pos2Nat.inj_iter. change (nat_rect (fun _ => shr_record) (shr_record_of_loc m l) (fun _ => shr_1) (Pos.to_nat p)) with (Nat.iter (Pos.to_nat p) shr_1 (shr_record_of_loc m l)).
    rewrite shr_iter_m by (rewrite shr_m_of_loc; exact Hm). rewrite shr_m_of_loc.
    rewrite positive_nat_Z. assert (0 < 2 ^ Zpos p) by (apply Z.pow_pos_nonneg; lia). split; [apply Z.div_pos; lia|].
    apply Z.div_lt_upper_bound; [lia|]. eapply Z.lt_le_trans; [exact Hd|]. rewrite <- Z.pow_add_r by lia. apply Z.pow_le_mono_r; lia.
  - rewrite shr_m_of_loc. split; [exact Hm|]. eapply Z.lt_le_trans; [exact Hd|]. apply Z.pow_le_mono_r; lia.
Qed.
Lemma round_pos m l : 0 <= m -> 0 <= round_nearest_even m l.
Proof. intros H. unfold round_nearest_even. destruct l as [|[]]; try lia. destruct (Z.even m); lia. Qed.
Lemma aux_small s m e l : 0 <= m -> small (binary_round_aux f_prec f_emax s m e l).
Proof.
  intros Hm. unfold binary_round_aux. pose proof (shr_fexp_bound m e l Hm) as B1. destruct (shr_fexp f_prec f_emax m e l) as [r1 e1]. cbn [fst] in B1.
  pose proof (shr_fexp_bound _ e1 loc_Exact (round_pos _ (loc_of_shr_record r1) (proj1 B1))) as B2.
  destruct (shr_fexp f_prec f_emax (round_nearest_even _ _) e1 loc_Exact) as [r2 e2]. cbn [fst] in B2.
  destruct (shr_m r2) as [|p|p]; try exact I. destruct (e2 <=? f_emax - f_prec); [|exact I]. exact (proj2 B2).
Qed.
Lemma round_small s m e : small (binary_round f_prec f_emax s m e).
Proof. unfold binary_round. destruct (shl_align _ _ _) as [mz ez]. apply aux_small. lia. Qed.
Lemma normalize_small m e z : small (binary_normalize f_prec f_emax m e z).
Proof. destruct m; [exact I|apply round_small|apply round_small]. Qed.
Lemma ofZ_small z : small (f_ofZ z).
Proof. apply normalize_small. Qed.
Lemma mul_small x y : small (f_mul x y).
Proof. unfold f_mul, SFmul. destruct x, y; try exact I. apply aux_small. lia. Qed.
Lemma div_small x y : small (f_div x y).
Proof.
  unfold f_div, SFdiv. destruct x, y; try exact I. unfold SFdiv_core_binary.
  set (sh := match _ with | 0 => _ | _ => _ end). assert (Hs : 0 <= sh).
  { unfold sh. destruct (e - e0 - _); try lia. apply Z.shiftl_nonneg. lia. }
  clearbody sh. pose proof (Z_div_mod sh (Zpos m0) ltac:(lia)) as D. destruct (Z.div_eucl sh (Zpos m0)) as [q r]. apply aux_small. nia.
Qed.
Lemma add_small x y : small x -> small y -> small (f_add x y).
Proof.
  intros Hx Hy. unfold f_add, SFadd. destruct x, y; try exact I; try assumption; try (destruct (Bool.eqb _ _); exact I). apply normalize_small.
Qed.
Lemma sub_small x y : small x -> small y -> small (f_sub x y).
Proof.
  intros Hx Hy. unfold f_sub, SFsub. destruct x, y; try exact I; try assumption; try (destruct (Bool.eqb _ _); exact I). apply normalize_small.
Qed.
Lemma fma_small x y z : small z -> small (f_fma x y z).
Proof.
  intros Hz. unfold f_fma. destruct x, y; try (apply add_small; [apply mul_small|exact Hz]).
  destruct z; try (apply add_small; [apply mul_small|exact Hz]); apply normalize_small.
Qed.

(** Integers below 2^53 are exact. *)
Lemma pos_shift m d : Zpos (shift_pos d m) = Zpos m * 2 ^ Zpos d.
Proof. rewrite shift_pos_correct, Z.mul_comm. reflexivity. Qed.

Lemma digits_unique p k : 0 < k -> 2 ^ (k - 1) <= Zpos p < 2 ^ k -> Zpos (digits2_pos p) = k.
Proof.
  intros Hk H. pose proof (digits_bounds p) as D. assert (A : k - 1 < Zpos (digits2_pos p)) by (apply (Z.pow_lt_mono_r_iff 2); lia).
  assert (B : Zpos (digits2_pos p) - 1 < k) by (apply (Z.pow_lt_mono_r_iff 2); lia). lia.
Qed.
Lemma aux_exact s m e : Zpos (digits2_pos m) = 53 -> -1074 <= e <= 971 -> binary_round_aux f_prec f_emax s (Zpos m) e loc_Exact = S754_finite s m e.
Proof.
  intros Hd He. unfold binary_round_aux.
  assert (S0 : shr_fexp f_prec f_emax (Zpos m) e loc_Exact = ({| shr_m := Zpos m; shr_r := false; shr_s := false |}, e)).
  { unfold shr_fexp. cbn [Zdigits2]. rewrite Hd. replace (fexp f_prec f_emax (53 + e) - e) with 0 by (unfold fexp, emin, f_prec, f_emax; lia). reflexivity. }
  rewrite S0. cbn [shr_m loc_of_shr_record round_nearest_even]. rewrite S0. cbn [shr_m]. unfold f_emax, f_prec. destruct (Z.leb_spec e (1024 - 53)); [reflexivity|lia].
Qed.
Lemma ofZ_exact p : Zpos p < 2 ^ 53 -> exists m, f_ofZ (Zpos p) = S754_finite false m (Zpos (digits2_pos p) - 53) /\
  Zpos m = Zpos p * 2 ^ (53 - Zpos (digits2_pos p)) /\ 2 ^ 52 <= Zpos m /\ Zpos (digits2_pos p) <= 53.
Proof.
  intros Hp. pose proof (digits_bounds p) as D. assert (L : Zpos (digits2_pos p) <= 53).
  { assert (Zpos (digits2_pos p) - 1 < 53) by (apply (Z.pow_lt_mono_r_iff 2); lia). lia. }
  set (d := Zpos (digits2_pos p)) in *. assert (D1 : 1 <= d) by (unfold d; lia).
  assert (M : 2 ^ 52 <= Zpos p * 2 ^ (53 - d) < 2 ^ 53).
  { assert (0 < 2 ^ (53 - d)) by (apply Z.pow_pos_nonneg; lia).
    replace (2 ^ 52) with (2 ^ (d - 1) * 2 ^ (53 - d)) by (rewrite <- Z.pow_add_r by lia; f_equal; lia).
    replace (2 ^ 53) with (2 ^ d * 2 ^ (53 - d)) by (rewrite <- Z.pow_add_r by lia; f_equal; lia). nia. }
  unfold f_ofZ. cbn [binary_normalize]. unfold binary_round. fold d. replace (fexp f_prec f_emax (d + 0)) with (d - 53) by (unfold fexp, emin, f_prec, f_emax; lia).
  unfold shl_align. destruct (d - 53 - 0) as [|q|q] eqn:Q.
  - exists p. replace (53 - d) with 0 in * by lia. rewrite Z.pow_0_r, Z.mul_1_r in *. split; [|split; [reflexivity|split; lia]].
    replace (d - 53) with 0 by lia. apply aux_exact; [fold d; lia|lia].
  - lia.
  - exists (shift_pos q p). assert (E : Zpos (shift_pos q p) = Zpos p * 2 ^ (53 - d)) by (rewrite pos_shift; do 2 f_equal; lia).
    split; [|split; [exact E|split; lia]]. apply aux_exact; [|lia]. apply digits_unique; [lia|]. rewrite E. exact M.
Qed.

(** The clamped value converted to an integer lies between 0 and the bound. *)
Lemma clamp_to_size v n p : small v -> 0 <= n < 2 ^ 53 -> f_to_size (f_clamp v f_zero (f_ofZ n)) = Some p -> 0 <= p <= n.
Proof.
  intros Hv Hn H.
  assert (T : forall m e, Zpos m < 2 ^ 53 -> 0 <= (if e <? 0 then Zpos m / 2 ^ (- e) else Zpos m * 2 ^ e)).
  { intros m e _. destruct (Z.ltb_spec e 0); [apply Z.div_pos; [lia|apply Z.pow_pos_nonneg; lia]|apply Z.mul_nonneg_nonneg; [lia|apply Z.pow_nonneg; lia]]. }
  unfold f_clamp in H. destruct (SFltb v f_zero) eqn:E1; [cbn in H; injection H as <-; lia|].
  destruct n as [|n|n]; [| |lia].
  - change (f_ofZ 0) with f_zero in H. destruct (SFltb f_zero v) eqn:E2; [cbn in H; injection H as <-; lia|].
    destruct v as [s|[]| |[] m e]; try discriminate. cbn in H. injection H as <-. lia.
  - destruct (ofZ_exact n ltac:(lia)) as [hm [Eh [Em [Lm Ld]]]]. rewrite Eh in H. set (d := Zpos (digits2_pos n)) in *.
    assert (Vh : f_to_size (S754_finite false hm (d - 53)) = Some (Zpos n)).
    { cbn [f_to_size]. f_equal. destruct (Z.ltb_spec (d - 53) 0).
      - rewrite Em. replace (- (d - 53)) with (53 - d) by lia. apply Z.div_mul. assert (0 < 2 ^ (53 - d)) by (apply Z.pow_pos_nonneg; lia). lia.
      - rewrite Em. replace (53 - d) with 0 by lia. replace (d - 53) with 0 by lia. lia. }
    destruct (SFltb (S754_finite false hm (d - 53)) v) eqn:E2; [rewrite Vh in H; injection H as <-; lia|].
    destruct v as [s|[]| |[] m e]; try discriminate; [cbn in H; injection H as <-; lia|]. cbn [f_to_size] in H. injection H as H. subst p.
    split; [apply T; exact Hv|]. unfold SFltb, SFcompare in E2. cbn [small] in Hv.
    assert (C : e < d - 53 \/ e = d - 53 /\ Zpos m <= Zpos hm).
    { destruct (Z.compare_spec (d - 53) e) as [C|C|C]; [right|discriminate|left; lia]. split; [lia|]. change (Pcompare hm m Eq) with (Pos.compare hm m) in E2.
      destruct (Pos.compare_spec hm m) as [C3|C3|C3]; [subst; lia|discriminate|lia]. }
    assert (He : e <= 0) by lia.
    (* m * 2^e <= hm * 2^(d-53) = n, all scaled by 2^(-e) *)
    assert (G : Zpos m <= Zpos n * 2 ^ (- e)).
    { destruct C as [C|[-> C]].
      - assert (2 ^ 53 <= Zpos n * 2 ^ (- e)); [|lia]. replace (- e) with ((53 - d) + (d - 53 - e)) by lia. rewrite Z.pow_add_r, Z.mul_assoc, <- Em by lia.
        assert (2 ^ 1 <= 2 ^ (d - 53 - e)) by (apply Z.pow_le_mono_r; lia). change (2 ^ 1) with 2 in *. nia.
      - replace (- (d - 53)) with (53 - d) by lia. lia. }
    destruct (Z.ltb_spec e 0).
    + apply Z.div_le_upper_bound; [apply Z.pow_pos_nonneg; lia|lia].
    + replace e with 0 in * by lia. cbn in G |- *. lia.
Qed.

(** ** The models' coefficients are results of operations *)
Definition small_model (m : model) : Prop := small (slope m) /\ small (intercept m).
Lemma zero_small : small f_zero. Proof. exact I. Qed.
Lemma spline_small keys o cf : small_model (train_linear_spline keys o cf).
Proof.
  unfold train_linear_spline. destruct (_ =? 0); [split; exact I|]. destruct (_ =? 1); [split; [exact I|apply mul_small]|].
  split; cbn [slope intercept]; [destruct (f_is_zero _); [exact I|apply mul_small]|apply sub_small; apply mul_small].
Qed.
Lemma regress_small keys o : forall i st, small (snd (fst (fst st))) -> small (snd (fst (fst (regress keys o i st)))).
Proof.
  induction keys as [|x keys IH]; intros i [[[mx my] c] m2] H; [exact H|]. cbn [regress]. apply IH. cbn [fst snd] in *.
  apply add_small; [exact H|apply div_small].
Qed.
Lemma regression_small keys o : small_model (train_linear_regression keys o).
Proof.
  unfold train_linear_regression. destruct (_ =? 0); [split; exact I|]. destruct (_ =? 1); [split; [exact I|apply ofZ_small]|].
  pose proof (regress_small keys o 0 (f_zero, f_zero, f_zero, f_zero) I) as R. destruct (regress _ _ _ _) as [[[mx my] c] m2]. cbn [fst snd] in R.
  destruct (f_is_zero _); [split; [exact I|exact R]|]. split; cbn [slope intercept]; [apply div_small|apply sub_small; [exact R|apply mul_small]].
Qed.
Lemma Forall_repeat {A} (P : A -> Prop) x n : P x -> Forall P (repeat x n).
Proof. intros H. apply Forall_forall. intros y Hy. apply repeat_spec in Hy. subst y. exact H. Qed.
Lemma train_loop_small m0 nm keys rest : forall i s id acc s' id' acc', Forall small_model acc ->
  train_loop m0 nm keys rest i s id acc = Some (s', id', acc') -> Forall small_model acc'.
Proof.
  induction rest as [|k rest IH]; intros i s id acc s' id' acc' Ha H; cbn [train_loop] in H; [injection H as _ _ <-; exact Ha|].
  destruct (f_to_size _) as [ps|]; [|discriminate]. destruct (id <? ps); [|eapply IH; eassumption]. eapply IH; [|exact H].
  apply Forall_app. split; [exact Ha|]. constructor; [apply regression_small|]. apply Forall_repeat. apply regression_small.
Qed.
Lemma train_small ms keys ms' : Forall small_model ms -> train ms keys = Some ms' -> Forall small_model ms'.
Proof.
  intros Hm H. unfold train in H. destruct (f_to_size _) as [r|]; [|discriminate].
  destruct (train_loop _ _ _ _ _ _ _ _) as [[[s id] acc]|] eqn:E; [|discriminate]. injection H as <-.
  apply train_loop_small in E; [|apply Forall_app; split; [exact Hm|constructor; [apply spline_small|constructor]]].
  apply Forall_app. split; [exact E|]. constructor; [apply regression_small|]. apply Forall_repeat. apply regression_small.
Qed.
(** A predicted position never exceeds the number of entries. *)
Lemma predict_bound ms n k p : Forall small_model ms -> 0 <= n < 2 ^ 53 -> predict ms n k = Some p -> 0 <= p <= n.
Proof.
  intros Hm Hn H. unfold predict in H. destruct (nth_error ms 0) as [m0|]; [|discriminate]. destruct (f_to_size (f_add _ _)) as [j|]; [|discriminate].
  destruct (nth_error ms (Z.to_nat j)) as [m1|] eqn:E; [|discriminate]. eapply clamp_to_size; [|exact Hn|exact H].
  unfold eval. apply fma_small. rewrite Forall_forall in Hm. apply (Hm m1). eapply nth_error_In. exact E.
Qed.
