(** * C60: a grid search visits every grid point exactly once *)
From Coq Require Import List Arith NArith ZArith Reals Lra Lia Bool Sorted.
From Flocq Require Import Core.
From Verif Require Import GridSearch GridSearchSpec GridSearchProofs GridSearchFloat.
Import ListNotations.

(** ** The search *)
(** The callback is called with the points of the grid, in lexicographic order; the search ends. *)
Theorem C60_search : forall V (spaces : list (space V)), spaces <> [] ->
  exists enough, forall fuel, enough <= fuel ->
  search fuel spaces = Some (grid (map (fun s => map (at_ s) (seq 0 (S (num_steps s)))) spaces)).
Proof.
  intros V spaces Hne. exists (length (grid (map axis (map num_steps spaces)))). intros fuel Hf.
  now apply search_calls.
Qed.

(** Whatever the callback is called with, independently of the number of iterations granted. *)
Theorem C60_deterministic : forall V (spaces : list (space V)) fuel calls, search fuel spaces = Some calls ->
  calls = grid (map (fun s => map (at_ s) (seq 0 (S (num_steps s)))) spaces).
Proof.
  intros V spaces fuel calls H. destruct spaces as [|s0 sp] eqn:E; [discriminate|]. rewrite <- E in *.
  destruct (C60_search V spaces) as (enough & HE); [now rewrite E|].
  assert (H' : search (max fuel enough) spaces = Some calls).
  { rewrite E in *. unfold search in *. eapply search_loop_more; [eassumption|lia]. }
  rewrite HE in H' by lia. congruence.
Qed.

(** Every combination of positions is visited exactly once, in lexicographic order, and there are
    [(n1 + 1) * ... * (nk + 1)] of them. *)
Theorem C60_each_once : forall steps : list nat, steps <> [] ->
  exists fuel calls, search fuel (map (fun n => mkspace n (fun i => i)) steps) = Some calls /\
    (forall t, In t calls <-> Forall2 (fun n x => x <= n) steps t) /\
    NoDup calls /\ StronglySorted lex calls /\
    length calls = fold_right (fun n acc => (n + 1) * acc) 1 steps.
Proof.
  intros steps Hne. set (spaces := map (fun n => mkspace n (fun i : nat => i)) steps).
  destruct (C60_search nat spaces) as (fuel & HE); [unfold spaces; destruct steps; [congruence|discriminate]|].
  assert (G : map (fun s : space nat => map (at_ s) (seq 0 (S (num_steps s)))) spaces = map axis steps).
  { unfold spaces. rewrite map_map. apply map_ext. intros n. cbn [at_ num_steps]. now rewrite map_id. }
  exists fuel, (grid (map axis steps)). rewrite <- G. split; [now apply HE|]. rewrite G. clear.
  split; [|split; [|split]].
  - intros t. rewrite in_grid. split.
    + revert t. induction steps as [|n steps IH]; intros t H; inversion H as [|? x ? t' Hx Ht]; subst; constructor.
      * now apply axis_in.
      * now apply IH.
    + induction 1 as [|n x steps' t' Hx Ht IH]; cbn; constructor; [now apply axis_in|assumption].
  - apply sorted_nodup, grid_sorted.
  - apply grid_sorted.
  - rewrite grid_length. induction steps as [|n steps IH]; [reflexivity|]. cbn [map fold_right]. rewrite IH.
    unfold axis. rewrite seq_length. f_equal. lia.
Qed.

(** [num_points] is the number of calls, if this number fits into an [unsigned] ... *)
Theorem C60_num_points : forall steps : list N, Forall (fun s => s < 2 ^ 32)%N steps ->
  (fold_right (fun s n => (s + 1) * n) 1 steps < 2 ^ 32)%N ->
  num_points steps = fold_right (fun s n => (s + 1) * n)%N 1%N steps.
Proof. intros steps HF HL. rewrite num_points_mod by assumption. now apply N.mod_small. Qed.
(** ... and the number modulo [2^32] otherwise, although the result is a [size_t]: a grid of 65536 x 65536 points
    has "0 points". *)
Theorem C60_refuted_num_points : num_points [65535; 65535]%N = 0%N.
Proof. reflexivity. Qed.

(** [sequence] lists the values at all positions ... *)
Theorem C60_sequence : forall V (at_ : N -> V) (k : N), (k < 2 ^ 32 - 1)%N -> exists enough, forall fuel, enough <= fuel ->
  sequence fuel at_ k = Some (map (fun j => at_ (N.of_nat j)) (seq 0 (N.to_nat k + 1))).
Proof.
  intros V at_ k Hk. exists (N.to_nat k + 2). intros fuel Hf. unfold sequence. rewrite sequence_loop_ok by lia.
  rewrite N.sub_0_r. replace (N.to_nat (k + 1)) with (N.to_nat k + 1) by lia. reflexivity.
Qed.
(** ... but does not end for the largest number of steps. *)
Theorem C60_refuted_sequence : forall V (at_ : N -> V) fuel, sequence fuel at_ (2 ^ 32 - 1) = None.
Proof. intros V at_ fuel. apply sequence_loop_diverges. reflexivity. Qed.

(** ** Linear spaces of integers *)
Local Open Scope Z_scope.

(** A type that holds the bounds; all integral types of up to 32 bits satisfy the bound on their size. *)
Definition fits (t : int_type) (l h : Z) : Prop :=
  0 < bits t /\ holds (bits t) (sgn t) l /\ holds (bits t) (sgn t) h /\ Z.abs l <= 2 ^ 49 /\ Z.abs h <= 2 ^ 49.

(** The constructor fails if and only if the range is empty or there are no steps. *)
Theorem C60_constructor : forall l h k a, make_linear l h k a = None <-> h < l \/ k = 0.
Proof.
  intros l h k a. unfold make_linear. destruct (Z.ltb_spec h l); [tauto|]. destruct (Z.eqb_spec k 0); [tauto|].
  split; [discriminate|lia].
Qed.

(** The value at position [n] is a value of the type between the bounds and differs by less than one from the
    point that divides the range exactly; the conversion of the rounded product to the unsigned type is defined. *)
Theorem C60_near : forall t l h k S n, fits t l h -> 0 < k -> 0 <= n <= k -> make_linear l h k true = Some S ->
  exists v, at_int t S n = Some v /\ l <= v <= h /\ Z.abs ((v - l) * k - n * (h - l)) < k.
Proof.
  intros t l h k S n (Hb & Hl & Hh & Al & Ah) Hk Hn HS.
  destruct (at_int_eq t l h k true S n Hb Hl Hh Al Ah Hk HS Hn) as (Hd & _ & ->).
  eexists; split; [reflexivity|]. pose proof (dlt_range _ _ Hd Hk n Hn).
  split; [lia|]. replace (l + dlt (h - l) k n - l) with (dlt (h - l) k n) by ring. now apply dlt_near.
Qed.
Theorem C60_near_descending : forall t l h k S n, fits t l h -> 0 < k -> 0 <= n <= k -> make_linear l h k false = Some S ->
  exists v, at_int t S n = Some v /\ l <= v <= h /\ Z.abs ((h - v) * k - n * (h - l)) < k.
Proof.
  intros t l h k S n (Hb & Hl & Hh & Al & Ah) Hk Hn HS.
  destruct (at_int_eq t l h k false S n Hb Hl Hh Al Ah Hk HS Hn) as (Hd & _ & ->).
  eexists; split; [reflexivity|]. pose proof (dlt_range _ _ Hd Hk n Hn).
  split; [lia|]. replace (h - (h - dlt (h - l) k n)) with (dlt (h - l) k n) by ring. now apply dlt_near.
Qed.

(** If the steps divide the range, the points are exact. *)
Theorem C60_exact : forall t l h k q S a n, fits t l h -> 0 < k -> 0 <= n <= k -> h - l = k * q ->
  make_linear l h k a = Some S -> at_int t S n = Some (if a then l + n * q else h - n * q).
Proof.
  intros t l h k q S a n (Hb & Hl & Hh & Al & Ah) Hk Hn Hq HS.
  destruct (at_int_eq t l h k a S n Hb Hl Hh Al Ah Hk HS Hn) as (Hd & _ & ->).
  now rewrite (dlt_exact _ _ Hd Hk n q Hq Hn).
Qed.

(** Both bounds are reached; positions beyond the last one throw. *)
Theorem C60_ends : forall t l h k a S, fits t l h -> 0 < k -> make_linear l h k a = Some S ->
  at_int t S 0 = Some (if a then l else h) /\ at_int t S k = Some (if a then h else l) /\
  forall n, k < n -> at_int t S n = None.
Proof.
  intros t l h k a S (Hb & Hl & Hh & Al & Ah) Hk HS. split; [|split].
  - destruct (at_int_eq t l h k a S 0 Hb Hl Hh Al Ah Hk HS ltac:(lia)) as (Hd & _ & ->).
    rewrite dlt_zero. destruct a; f_equal; ring.
  - destruct (at_int_eq t l h k a S k Hb Hl Hh Al Ah Hk HS ltac:(lia)) as (Hd & _ & ->).
    rewrite (dlt_end _ _ Hd Hk). destruct a; f_equal; ring.
  - intros n Hn. unfold make_linear in HS. destruct (h <? l); [discriminate|]. destruct (k =? 0); [discriminate|].
    injection HS as <-. unfold at_int. cbn [steps]. destruct (Z.ltb_spec k n); [reflexivity|lia].
Qed.

(** The points are in ascending (descending) order. *)
Theorem C60_monotone : forall t l h k a S n m v w, fits t l h -> 0 < k -> make_linear l h k a = Some S ->
  0 <= n <= m -> at_int t S n = Some v -> at_int t S m = Some w -> if a then v <= w else w <= v.
Proof.
  intros t l h k a S n m v w (Hb & Hl & Hh & Al & Ah) Hk HS Hnm Hv Hw.
  assert (Hm : m <= k).
  { destruct (Z.le_gt_cases m k) as [L|G]; [assumption|].
    destruct (C60_ends t l h k a S) as (_ & _ & E); [unfold fits; tauto|assumption..|].
    rewrite E in Hw by assumption. discriminate. }
  destruct (at_int_eq t l h k a S n Hb Hl Hh Al Ah Hk HS ltac:(lia)) as (Hd & _ & E1). rewrite E1 in Hv.
  destruct (at_int_eq t l h k a S m Hb Hl Hh Al Ah Hk HS ltac:(lia)) as (_ & _ & E2). rewrite E2 in Hw.
  pose proof (dlt_mono _ _ Hd Hk n m ltac:(lia)). destruct a; injection Hv as <-; injection Hw as <-; lia.
Qed.

(** The rounded product that [at] converts to an unsigned type lies in its range. *)
Theorem C60_delta_in_range : forall t l h k a S n, fits t l h -> 0 < k -> 0 <= n <= k -> make_linear l h k a = Some S ->
  0 <= delta_at S n < 2 ^ bits t.
Proof.
  intros t l h k a S n (Hb & Hl & Hh & Al & Ah) Hk Hn HS.
  destruct (at_int_eq t l h k a S n Hb Hl Hh Al Ah Hk HS Hn) as (Hd & -> & _).
  pose proof (dlt_range _ _ Hd Hk n Hn). unfold holds in *. destruct (sgn t); [|lia].
  assert (P : 2 ^ bits t = 2 * 2 ^ (bits t - 1)) by (rewrite <- Z.pow_succ_r by lia; f_equal; lia). lia.
Qed.

(** All types of up to 32 bits qualify. *)
Theorem C60_small_types : forall b s l h, 0 < b <= 32 -> holds b s l -> holds b s h -> fits (mkint b s) l h.
Proof.
  intros b s l h Hb Hl Hh. unfold fits. cbn [bits sgn].
  assert (P : 2 ^ b <= 2 ^ 32) by (apply Z.pow_le_mono_r; lia).
  assert (P' : 2 ^ (b - 1) <= 2 ^ 32) by (apply Z.pow_le_mono_r; lia).
  assert (E : 2 ^ 32 <= 2 ^ 49) by (vm_compute; discriminate).
  unfold holds in Hl, Hh |- *. destruct s; repeat split; lia.
Qed.

(** For 64 bits, the upper bound may be missed: the space of all values in one step ends at [2^64 - 2048]. *)
Theorem C60_refuted_upper_bound : exists S, make_linear 0 (2 ^ 64 - 1) 1 true = Some S /\
  at_int (mkint 64 false) S 1 = Some (2 ^ 64 - 2048).
Proof.
  assert (F : fmt (IZR (2 ^ 64 - 2048))).
  { replace (IZR (2 ^ 64 - 2048)) with (IZR (2 ^ 53 - 1) * bpow radix2 11)%R by (simpl; lra). now apply fmt_scaled. }
  eexists. split; [reflexivity|]. unfold at_int, delta_at. cbn [steps step ascending lo hi].
  rewrite RZ_top, (RZ_int 0) by reflexivity. unfold Rdiv. rewrite Rinv_1, Rmult_1_r, Rminus_0_r, Rmult_1_l.
  rewrite !(RZ_fmt _ F), (RN_fmt _ F), std_round_int. reflexivity.
Qed.

(** ** Linear spaces of floating-point numbers *)
Local Open Scope R_scope.

(** All points lie between the bounds, are in order, and the first one is the bound. *)
Theorem C60_floating : forall l h k a S, fmt l -> fmt h -> (0 < k)%Z -> make_linear_fp l h k a = Some S ->
  (forall n, (0 <= n <= k)%Z -> exists v, at_fp S n = Some v /\ l <= v <= h) /\
  at_fp S 0 = Some (if a then l else h) /\
  (forall n m v w, (0 <= n <= m)%Z -> at_fp S n = Some v -> at_fp S m = Some w -> if a then v <= w else w <= v).
Proof.
  intros l h k a S Fl Fh Hk HS. unfold make_linear_fp in HS. revert HS. case Rlt_bool_spec; intros Hlh HS; [discriminate|].
  destruct (Z.eqb_spec k 0) as [|Nk]; [discriminate|]. injection HS as <-. unfold at_fp. cbn [fsteps fstep flo fhi fascending].
  set (s := RZ (RZ (h - l) / IZR k)).
  assert (Hs : 0 <= s).
  { assert (Z0 : RZ 0 = 0) by (apply RZ_int; reflexivity). unfold s. rewrite <- Z0. apply RZ_le.
    apply Rmult_le_pos; [|apply Rlt_le, Rinv_0_lt_compat, IZR_lt; lia]. rewrite <- Z0. apply RZ_le. lra. }
  split; [|split].
  - intros n Hn. destruct (Z.ltb_spec k n); [lia|]. destruct a; eexists; (split; [reflexivity|]); now apply clamp_bounds.
  - destruct (Z.ltb_spec k 0); [lia|]. rewrite Rmult_0_l, (RN_int 0) by reflexivity.
    rewrite Rplus_0_r, Rminus_0_r, (RN_fmt l Fl), (RN_fmt h Fh). destruct a; f_equal; apply clamp_id; lra.
  - intros n m v w Hnm. destruct (Z.ltb_spec k n); [discriminate|]. destruct (Z.ltb_spec k m); [destruct a; discriminate|].
    assert (P : RN (IZR n * s) <= RN (IZR m * s)).
    { apply RN_le. apply Rmult_le_compat_r; [assumption|]. apply IZR_le. lia. }
    destruct a; intros E1 E2; injection E1 as <-; injection E2 as <-; (apply clamp_le; [assumption|]); apply RN_le; lra.
Qed.

(** The other bound may be missed: ten steps from 0 to 1 end below 1. *)
Theorem C60_refuted_floating_end : exists S v, make_linear_fp 0 1 10 true = Some S /\ at_fp S 10 = Some v /\ v < 1.
Proof.
  unfold make_linear_fp. rewrite Rlt_bool_false by lra. eexists. eexists. split; [reflexivity|]. split; [reflexivity|].
  cbn [flo fhi fstep]. replace (1 - 0) with 1 by ring. rewrite (RZ_int 1) by reflexivity.
  rewrite RZ_tenth, RN_ten, Rplus_0_l.
  assert (F : fmt (9007199254740991 / 9007199254740992)).
  { replace (9007199254740991 / 9007199254740992) with (IZR 9007199254740991 * bpow radix2 (-53)) by (simpl; lra). now apply fmt_scaled. }
  rewrite (RN_fmt _ F). rewrite clamp_id; lra.
Qed.

(** ** Examples *)
Example C60_ex_search : search 6 [mkspace 1 (fun i => i + 10); mkspace 2 (fun i => 7 - i)]%nat =
  Some [[10; 7]; [10; 6]; [10; 5]; [11; 7]; [11; 6]; [11; 5]]%nat.
Proof. reflexivity. Qed.
Example C60_ex_sequence : sequence 5 (fun n => n * n)%N 3 = Some [0; 1; 4; 9]%N.
Proof. reflexivity. Qed.
(** GridSearchTest.cpp: the space of unsigned integers from 0 to 10 in 5 steps; the bytes from -128 to 127 in 255. *)
Example C60_ex_linear : exists S, make_linear 0 10 5 true = Some S /\ at_int (mkint 32 false) S 3 = Some 6%Z.
Proof.
  eexists. split; [reflexivity|]. refine (C60_exact (mkint 32 false) 0 10 5 2 _ true 3 _ _ _ _ _); try reflexivity; try lia.
  apply C60_small_types; cbn; lia.
Qed.
Example C60_ex_bytes : exists S, make_linear (-128) 127 255 false = Some S /\ at_int (mkint 8 true) S 200 = Some (-73)%Z.
Proof.
  eexists. split; [reflexivity|]. refine (C60_exact (mkint 8 true) (-128) 127 255 1 _ false 200 _ _ _ _ _); try reflexivity; try lia.
  apply C60_small_types; cbn; lia.
Qed.
(** Three steps from 0 to 10, where the points are no integers *)
Example C60_ex_thirds : exists S v, make_linear 0 10 3 true = Some S /\ at_int (mkint 32 true) S 2 = Some v /\ (v = 6 \/ v = 7)%Z.
Proof.
  eexists. assert (F : fits (mkint 32 true) 0 10) by (apply C60_small_types; cbn; lia).
  destruct (C60_near (mkint 32 true) 0 10 3 _ 2 F ltac:(lia) ltac:(lia) eq_refl) as (v & E & _ & D).
  exists v. split; [reflexivity|]. split; [exact E|]. lia.
Qed.
