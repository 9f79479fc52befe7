(** * Proofs about the hash map model *)
From Coq Require Import List Bool ZArith Znumtheory Lia Permutation.
From Verif Require Import Arith ArithProps RCHash.
Import ListNotations.
Local Open Scope Z_scope.

(** ** Triangular probing *)
Definition tri (t : Z) : Z := t * (t + 1) / 2.
Lemma tri_double t : 2 * tri t = t * (t + 1).
Proof.
  unfold tri. assert (E : (t * (t + 1)) mod 2 = 0).
  { rewrite Z.mul_mod, Z.add_mod by lia. destruct (Z.mod_pos_bound t 2); [lia|]. assert (C : t mod 2 = 0 \/ t mod 2 = 1) by lia.
    destruct C as [-> | ->]; reflexivity. }
  pose proof (Z.div_mod (t * (t + 1)) 2 ltac:(lia)) as D. rewrite E in D. lia.
Qed.
Lemma tri_succ t : tri (t + 1) = tri t + (t + 1).
Proof. pose proof (tri_double t). pose proof (tri_double (t + 1)). nia. Qed.
Lemma tri_0 : tri 0 = 0. Proof. reflexivity. Qed.
Lemma tri_nonneg t : 0 <= t -> 0 <= tri t.
Proof. intros H. pose proof (tri_double t). nia. Qed.

Lemma odd_pow2_divide a b n : 0 <= n -> Z.odd a = true -> (2 ^ n | a * b) -> (2 ^ n | b).
Proof.
  intros Hn Ho Hd. apply Gauss with a; [exact Hd|]. apply rel_prime_sym. 
  assert (R : rel_prime a 2).
  { apply rel_prime_sym. apply prime_rel_prime; [exact prime_2|]. intros [q Hq]. subst a.
    rewrite Z.odd_mul in Ho. cbn in Ho. rewrite andb_false_r in Ho. discriminate. }
  rewrite <- (Z2Nat.id n Hn). induction (Z.to_nat n) as [|m IH]; [apply rel_prime_sym, rel_prime_1|].
  rewrite Nat2Z.inj_succ, Z.pow_succ_r by lia. apply rel_prime_mult; assumption.
Qed.
Lemma tri_inj k s t : 0 <= k -> 0 <= s < t -> t < 2 ^ k -> (tri s) mod 2 ^ k <> (tri t) mod 2 ^ k.
Proof.
  intros Hk Hs Ht E. assert (P : 0 < 2 ^ k) by (apply Z.pow_pos_nonneg; lia).
  assert (D : (2 ^ k | tri t - tri s)).
  { apply Z.mod_divide; [lia|]. rewrite Zminus_mod, E, Z.sub_diag. apply Z.mod_0_l. lia. }
  assert (D2 : (2 ^ (k + 1) | (t - s) * (t + s + 1))).
  { destruct D as [q Hq]. exists q. rewrite Z.pow_add_r by lia. change (2 ^ 1) with 2.
    pose proof (tri_double t). pose proof (tri_double s). nia. }
  assert (P2 : 2 ^ (k + 1) = 2 * 2 ^ k) by (rewrite Z.pow_add_r by lia; lia).
  destruct (Z.odd (t - s)) eqn:O.
  - apply odd_pow2_divide in D2; [|lia|exact O]. apply Z.divide_pos_le in D2; lia.
  - assert (O2 : Z.odd (t + s + 1) = true).
    { replace (t + s + 1) with ((t - s) + (1 + 2 * s)) by lia. rewrite Z.odd_add, O. rewrite Z.odd_add_mul_2. reflexivity. }
    rewrite Z.mul_comm in D2. apply odd_pow2_divide in D2; [|lia|exact O2]. apply Z.divide_pos_le in D2; lia.
Qed.

Lemma nth_upd {A} (l : list A) i j x d : (i < length l)%nat -> nth j (upd l i x) d = if Nat.eqb j i then x else nth j l d.
Proof.
  revert i j. induction l as [|y l IH]; intros i j H; [cbn in H; lia|]. destruct i as [|i]; destruct j as [|j]; cbn [upd nth Nat.eqb]; try reflexivity.
  apply IH. cbn in H. lia.
Qed.
Lemma length_upd {A} (l : list A) i x : length (upd l i x) = length l.
Proof. revert i. induction l as [|y l IH]; intros [|i]; cbn [upd length]; auto. Qed.

Section Proofs.
  Context {K V : Type}.
  Variable hash : K -> Z.
  Variable dk : K. Variable dv : V.
  Notation get := (@get K V dk dv).
  Notation slot := (@slot K V).
  Notation hmap := (@hmap K V).
  Notation free_slot := (@free_slot K V dk dv).
  Variable k : Z.
  Hypothesis Hk : 0 <= k <= 31.
  Notation c := (2 ^ k).

  Lemma c_pos : 0 < c. Proof. apply Z.pow_pos_nonneg; lia. Qed.
  Lemma masked_mod i : masked c i = i mod c.
  Proof. unfold masked. replace (c - 1) with (Z.ones k) by (rewrite Z.ones_equiv; lia). apply Z.land_ones. lia. Qed.
  Lemma masked_range i : 0 <= masked c i < c.
  Proof. rewrite masked_mod. apply Z.mod_pos_bound. apply c_pos. Qed.

  Definition home (q : K) : Z := masked c (hash q).
  Definition place (b t : Z) : Z := masked c (b + tri t).
  Lemma place_range b t : 0 <= place b t < c. Proof. apply masked_range. Qed.
  Lemma home_range q : 0 <= home q < c. Proof. apply masked_range. Qed.
  Lemma place_0 b : 0 <= b < c -> place b 0 = b.
  Proof. intros H. unfold place. rewrite tri_0, Z.add_0_r, masked_mod. apply Z.mod_small. exact H. Qed.
  Lemma place_congr b d t : d mod c = tri t mod c -> masked c (b + d) = place b t.
  Proof. intros H. unfold place. rewrite !masked_mod. rewrite Zplus_mod, H, <- Zplus_mod. reflexivity. Qed.
  Lemma place_inj b s t : 0 <= s < c -> 0 <= t < c -> place b s = place b t -> s = t.
  Proof.
    intros Hs Ht E. unfold place in E. rewrite !masked_mod in E.
    assert (E2 : tri s mod c = tri t mod c).
    { replace (tri s) with (b + tri s - b) by lia. replace (tri t) with (b + tri t - b) by lia.
      rewrite Zminus_mod, E, <- Zminus_mod. reflexivity. }
    destruct (Z.lt_trichotomy s t) as [H|[H|H]]; [|exact H|].
    - exfalso. apply (tri_inj k s t); lia || exact E2.
    - exfalso. apply (tri_inj k t s); lia || (symmetry; exact E2).
  Qed.
  (** The probe sequence of a bucket covers the table. *)
  Lemma place_surj b i : 0 <= i < c -> exists t, 0 <= t < c /\ place b t = i.
  Proof.
    intros Hi. set (n := Z.to_nat c). pose proof c_pos.
    assert (I : incl (map Z.of_nat (seq 0 n)) (map (fun t => place b (Z.of_nat t)) (seq 0 n))).
    { apply NoDup_length_incl.
      - assert (G : forall l, NoDup l -> (forall x, In x l -> (x < n)%nat) -> NoDup (map (fun t => place b (Z.of_nat t)) l)).
        { induction l as [|x l IH]; intros N B; [constructor|]. inversion N as [|? ? N1 N2]; subst. cbn [map]. constructor.
          - intros X. apply in_map_iff in X. destruct X as [y [Ey Hy]]. apply place_inj in Ey.
            + apply Nat2Z.inj in Ey. subst y. contradiction.
            + specialize (B y (or_intror Hy)). lia.
            + specialize (B x (or_introl eq_refl)). lia.
          - apply IH; [exact N2|]. intros y Hy. apply B. right. exact Hy. }
        apply G; [apply seq_NoDup|]. intros x Hx. apply in_seq in Hx. lia.
      - rewrite !map_length. lia.
      - intros x Hx. apply in_map_iff in Hx. destruct Hx as [t [<- Ht]]. apply in_map_iff. pose proof (place_range b (Z.of_nat t)).
        exists (Z.to_nat (place b (Z.of_nat t))). split; [lia|]. apply in_seq. lia. }
    specialize (I i). destruct (proj1 (in_map_iff _ _ _) (I ltac:(apply in_map_iff; exists (Z.to_nat i); split; [lia|apply in_seq; lia]))) as [t [Et Ht]].
    apply in_seq in Ht. exists (Z.of_nat t). split; [lia|exact Et].
  Qed.

  (** ** Invariant of the table *)
  Definition Inv (t : list slot) : Prop :=
    length t = Z.to_nat c /\
    (forall i, 0 <= i < c -> 0 <= pl (get t i) <= c) /\
    (forall b s, 0 <= b < c -> 0 <= s < pl (get t b) -> 0 < pl (get t (place b s))) /\
    (forall i, 0 <= i < c -> 0 < pl (get t i) ->
       exists s, 0 <= s < pl (get t (home (skey (get t i)))) /\ i = place (home (skey (get t i))) s).
  Definition contents (t : list slot) : list (K * V) := map kv (filter occ t).

  Lemma get_set t i j x : length t = Z.to_nat c -> 0 <= i < c -> 0 <= j -> get (set t i x) j = if j =? i then x else get t j.
  Proof.
    intros L Hi Hj. unfold RCHash.get, set. rewrite nth_upd by lia. destruct (Z.eqb_spec j i) as [->|N].
    - rewrite Nat.eqb_refl. reflexivity.
    - destruct (Nat.eqb_spec (Z.to_nat j) (Z.to_nat i)); [lia|reflexivity].
  Qed.
  Lemma length_set t i (x : slot) : length (set t i x) = length t. Proof. apply length_upd. Qed.

  Lemma inv_init : Inv (repeat free_slot (Z.to_nat c)).
  Proof.
    assert (G : forall i, get (repeat free_slot (Z.to_nat c)) i = free_slot).
    { intros i. unfold RCHash.get. destruct (Nat.lt_ge_cases (Z.to_nat i) (Z.to_nat c)) as [H|H].
      - rewrite nth_repeat. reflexivity.
      - apply nth_overflow. rewrite repeat_length. exact H. }
    pose proof c_pos. split; [apply repeat_length|]. split; [|split].
    - intros i _. rewrite G. cbn. lia.
    - intros b s _. rewrite G. cbn. lia.
    - intros i _. rewrite G. cbn. lia.
  Qed.
  Lemma contents_init n : contents (repeat free_slot n) = [].
  Proof. unfold contents. induction n as [|n IH]; [reflexivity|]. cbn. exact IH. Qed.

  (** Placing an entry in a free slot of its bucket's probe sequence and updating the bucket. *)
  Definition put (t : list slot) (b s : Z) (q : K) (v : V) : list slot :=
    let i := place b s in
    let t1 := set t i (mkSlot 1 q v) in
    set t1 b (mkSlot (s + 1) (skey (get t1 b)) (sval (get t1 b))).
  Lemma get_put t b s q v j : Inv t -> 0 <= b < c -> 0 <= s < c -> 0 <= j ->
    get (put t b s q v) j =
      if j =? b then mkSlot (s + 1) (if b =? place b s then q else skey (get t b)) (if b =? place b s then v else sval (get t b))
      else if j =? place b s then mkSlot 1 q v else get t j.
  Proof.
    intros [L _] Hb Hs Hj. unfold put. pose proof (place_range b s). rewrite get_set by (rewrite ?length_set; lia).
    destruct (Z.eqb_spec j b) as [->|N].
    - rewrite get_set by lia. destruct (b =? place b s); reflexivity.
    - rewrite get_set by lia. reflexivity.
  Qed.

  Lemma put_inv t s q v : Inv t -> 0 <= s < c -> pl (get t (place (home q) s)) = 0 ->
    (forall s', 0 <= s' < s -> 0 < pl (get t (place (home q) s'))) -> pl (get t (home q)) <= s ->
    Inv (put t (home q) s q v).
  Proof.
    intros HI Hs Hfree Hocc Hle. pose proof HI as [L [B1 [B2 B3]]]. set (b := home q) in *. assert (Hb : 0 <= b < c) by apply home_range.
    assert (Hi : 0 <= place b s < c) by apply place_range. set (i := place b s) in *.
    assert (Gp : forall j, 0 <= j -> pl (get (put t b s q v) j) = if j =? b then s + 1 else if j =? i then 1 else pl (get t j)).
    { intros j Hj. rewrite get_put by (exact HI || lia). fold i. destruct (j =? b); [reflexivity|]. destruct (j =? i); reflexivity. }
    assert (Gk : forall j, 0 <= j -> skey (get (put t b s q v) j) = if j =? i then q else skey (get t j)).
    { intros j Hj. rewrite get_put by (exact HI || lia). fold i. destruct (Z.eqb_spec j b) as [->|N].
      - cbn [skey]. destruct (b =? i); reflexivity.
      - destruct (j =? i); reflexivity. }
    assert (Gpos : forall j, 0 <= j -> 0 < pl (get t j) -> 0 < pl (get (put t b s q v) j)).
    { intros j Hj H. rewrite Gp by exact Hj. destruct (j =? b); [lia|]. destruct (j =? i); lia. }
    split; [unfold put; rewrite !length_set; exact L|]. split; [|split].
    - intros j Hj. rewrite Gp by lia. pose proof c_pos. destruct (j =? b); [lia|]. destruct (j =? i); [lia|apply B1; exact Hj].
    - intros b' s' Hb' Hs'. rewrite Gp in Hs' by lia. pose proof (place_range b' s') as Hp.
      destruct (Z.eqb_spec b' b) as [->|N].
      + destruct (Z.eq_dec s' s) as [->|Ns].
        * fold i. rewrite Gp by lia. destruct (i =? b); [lia|]. rewrite Z.eqb_refl. lia.
        * apply Gpos; [lia|]. apply Hocc. lia.
      + destruct (Z.eqb_spec b' i) as [->|N'].
        * assert (s' = 0) by lia. subst s'. rewrite place_0 by lia. rewrite Gp by lia. destruct (i =? b); [lia|]. rewrite Z.eqb_refl. lia.
        * apply Gpos; [lia|]. apply B2; assumption.
    - intros j Hj Hp. rewrite Gk by lia. destruct (Z.eqb_spec j i) as [->|N].
      + fold b. exists s. split; [|reflexivity]. rewrite Gp by lia. rewrite Z.eqb_refl. lia.
      + assert (Hpj : 0 < pl (get t j)).
        { rewrite Gp in Hp by lia. destruct (Z.eqb_spec j b) as [->|Nb]; [|destruct (Z.eqb_spec j i); [contradiction|exact Hp]].
          destruct (Z.eq_dec s 0) as [->|Ns]; [exfalso; apply N; unfold i; symmetry; apply place_0; exact Hb|].
          rewrite <- (place_0 b Hb). apply Hocc. lia. }
        destruct (B3 j Hj Hpj) as [s' [Hs' E]]. exists s'. split; [|exact E]. pose proof (home_range (skey (get t j))).
        rewrite Gp by lia. destruct (Z.eqb_spec (home (skey (get t j))) b) as [Eb|Nb].
        * rewrite Eb in Hs'. lia.
        * destruct (Z.eqb_spec (home (skey (get t j))) i) as [Ei|Ni]; [|exact Hs']. rewrite Ei, Hfree in Hs'. lia.
  Qed.

  (** Contents. *)
  Lemma contents_upd_free t i x : (i < length t)%nat -> occ (nth i t free_slot) = false -> occ x = true -> Permutation (contents (upd t i x)) (kv x :: contents t).
  Proof.
    unfold contents. revert i. induction t as [|y t IH]; intros i Hi Hf Hx; [cbn in Hi; lia|]. destruct i as [|i]; cbn [upd filter nth] in *.
    - rewrite Hf, Hx. reflexivity.
    - cbn in Hi. specialize (IH i ltac:(lia) Hf Hx). destruct (occ y); cbn [map]; [rewrite IH; apply perm_swap|exact IH].
  Qed.
  Lemma contents_upd_same t i x : (i < length t)%nat -> occ (nth i t free_slot) = true -> occ x = true -> kv x = kv (nth i t free_slot) -> contents (upd t i x) = contents t.
  Proof.
    unfold contents. revert i. induction t as [|y t IH]; intros i Hi Hf Hx E; [cbn in Hi; lia|]. destruct i as [|i]; cbn [upd filter nth] in *.
    - rewrite Hf, Hx. cbn [map]. rewrite E. reflexivity.
    - cbn in Hi. specialize (IH i ltac:(lia) Hf Hx E). destruct (occ y); cbn [map]; [rewrite IH; reflexivity|exact IH].
  Qed.
  Lemma occ_iff (x : slot) : occ x = true <-> pl x <> 0.
  Proof. unfold occ. rewrite negb_true_iff, Z.eqb_neq. reflexivity. Qed.
  Lemma put_contents t b s q v : Inv t -> 0 <= b < c -> 0 <= s < c -> pl (get t (place b s)) = 0 -> (s = 0 \/ 0 < pl (get t b)) ->
    Permutation (contents (put t b s q v)) ((q, v) :: contents t).
  Proof.
    intros HI Hb Hs Hfree Hc. pose proof HI as [L _]. pose proof (place_range b s) as Hi. unfold put.
    set (t1 := set t (place b s) (mkSlot 1 q v)).
    assert (P1 : Permutation (contents t1) ((q, v) :: contents t)).
    { apply (contents_upd_free t (Z.to_nat (place b s)) (mkSlot 1 q v)); [lia| |reflexivity].
      change (nth (Z.to_nat (place b s)) t free_slot) with (get t (place b s)). unfold occ. rewrite Hfree. reflexivity. }
    assert (G1 : pl (get t1 b) <> 0).
    { unfold t1. rewrite get_set by lia. destruct (Z.eqb_spec b (place b s)) as [E|N]; [cbn; lia|].
      destruct Hc as [->|Hc]; [rewrite place_0 in N by exact Hb; contradiction|lia]. }
    unfold set. rewrite contents_upd_same; [exact P1| | | |].
    - unfold t1. rewrite length_set. lia.
    - apply occ_iff. exact G1.
    - apply occ_iff. cbn. lia.
    - reflexivity.
  Qed.

  (** ** Probing *)
  Lemma exists_free t b : Inv t -> (length (contents t) < Z.to_nat c)%nat -> exists s, 0 <= s < c /\ pl (get t (place b s)) = 0.
  Proof.
    intros [L [B1 _]] Hn. 
    assert (G : exists i, 0 <= i < c /\ pl (get t i) = 0).
    { assert (Q : exists i, (i < length t)%nat /\ occ (nth i t free_slot) = false).
      { clear B1. rewrite <- L in Hn. clear L. unfold contents in Hn. rewrite map_length in Hn. induction t as [|x t IH]; [cbn in Hn; lia|].
        destruct (occ x) eqn:E.
        - cbn [filter] in Hn. rewrite E in Hn. cbn [length] in Hn. destruct IH as [i [Hi Oi]]; [lia|]. exists (S i). cbn. split; [lia|exact Oi].
        - exists O. cbn. split; [lia|exact E]. }
      destruct Q as [i [Hi Oi]]. exists (Z.of_nat i). split; [lia|]. unfold RCHash.get. rewrite Nat2Z.id. unfold occ in Oi.
      apply negb_false_iff, Z.eqb_eq in Oi. exact Oi. }
    destruct G as [i [Hi E]]. destruct (place_surj b i Hi) as [s [Hs P]]. exists s. split; [exact Hs|]. rewrite P. exact E.
  Qed.

  Lemma probe_dup_spec t b : 0 <= b < c -> forall fuel p d s0, 0 <= p -> d mod c = tri p mod c ->
    p <= s0 < c -> pl (get t (place b s0)) = 0 -> (Z.to_nat (s0 - p) < fuel)%nat ->
    exists s, probe_dup dk dv fuel t c b p d = Some (place b s, s) /\ p <= s < c /\ pl (get t (place b s)) = 0 /\
      (forall s', p <= s' < s -> pl (get t (place b s')) <> 0).
  Proof.
    intros Hb fuel. induction fuel as [|f IH]; intros p d s0 Hp Hd Hs Hfree Hf; [lia|]. cbn [probe_dup].
    rewrite (place_congr b d p Hd). destruct (Z.eqb_spec (pl (get t (place b p))) 0) as [E|N].
    - exists p. split; [reflexivity|]. split; [lia|]. split; [exact E|]. intros; lia.
    - assert (s0 <> p) by (intros ->; contradiction).
      destruct (IH (p + 1) (d + (p + 1)) s0) as [s [E [H1 [H2 H3]]]]; try lia; try exact Hfree.
      + rewrite tri_succ. rewrite Zplus_mod, Hd, <- Zplus_mod. reflexivity.
      + exists s. split; [exact E|]. split; [lia|]. split; [exact H2|]. intros s' Hs'. destruct (Z.eq_dec s' p) as [->|]; [exact N|apply H3; lia].
  Qed.

  Definition WF (m : hmap) : Prop := cap m = c /\ Inv (tab m) /\ size m = Z.of_nat (length (contents (tab m))).

  Lemma uint32_distance p : (((p * p + p) mod 2 ^ 32) / 2) mod c = tri p mod c.
  Proof.
    replace (p * p + p) with (tri p * 2) by (pose proof (tri_double p); lia).
    change (2 ^ 32) with (2 ^ 31 * 2). rewrite Z.mul_mod_distr_r by lia. rewrite Z.div_mul by lia.
    assert (E : 2 ^ 31 = 2 ^ (31 - k) * c) by (rewrite <- Z.pow_add_r by lia; f_equal; lia).
    symmetry. rewrite (Z.div_mod (tri p) (2 ^ 31)) at 1 by lia. rewrite E. rewrite Z.mul_comm, Z.mul_assoc.
    rewrite Z.add_comm, Z.mod_add by (pose proof c_pos; lia). reflexivity.
  Qed.

  Theorem insert_dup_core_spec q v m : WF m -> size m < c ->
    exists m' i, insert_dup_core hash dk dv q v m = Some (m', i) /\ WF m' /\ wm m' = wm m /\ ml m' = ml m /\ size m' = size m + 1 /\
      Permutation (contents (tab m')) ((q, v) :: contents (tab m)) /\ 0 <= i < c /\ kv (get (tab m') i) = (q, v) /\ 0 < pl (get (tab m') i).
  Proof.
    intros [Hc [HI Hsz]] Hlt. pose proof HI as [L [B1 [B2 B3]]]. unfold insert_dup_core. rewrite Hc.
    set (t := tab m) in *. change (masked c (hash q)) with (home q). set (b := home q). assert (Hb : 0 <= b < c) by apply home_range.
    destruct (exists_free t b HI) as [s0 [Hs0 F0]]; [lia|].
    assert (Main : forall s, 0 <= s < c -> pl (get t (place b s)) = 0 -> (forall s', 0 <= s' < s -> 0 < pl (get t (place b s'))) ->
      pl (get t b) <= s -> (s = 0 \/ 0 < pl (get t b)) -> forall m', m' = mkMap c (put t b s q v) (size m + 1) (wm m) (ml m) ->
      WF m' /\ wm m' = wm m /\ ml m' = ml m /\ size m' = size m + 1 /\
      Permutation (contents (tab m')) ((q, v) :: contents t) /\ 0 <= place b s < c /\ kv (get (tab m') (place b s)) = (q, v) /\ 0 < pl (get (tab m') (place b s))).
    { intros s Hs Fs Os Ls Cs m' ->. cbn [tab wm ml size cap]. pose proof (put_contents t b s q v HI Hb Hs Fs Cs) as P.
      pose proof (place_range b s) as Hr.
      split; [|repeat split; try reflexivity; try exact P; try apply Hr].
      - split; [reflexivity|]. split; [apply put_inv; auto|]. cbn [size tab]. rewrite (Permutation_length P). cbn [length]. lia.
      - rewrite get_put by (exact HI || lia). destruct (Z.eqb_spec (place b s) b) as [E|N].
        + rewrite E at 1. rewrite E. rewrite Z.eqb_refl. reflexivity.
        + rewrite Z.eqb_refl. reflexivity.
      - rewrite get_put by (exact HI || lia). destruct (Z.eqb_spec (place b s) b) as [E|N]; [cbn; lia|]. rewrite Z.eqb_refl. cbn. lia. }
    destruct (Z.eqb_spec (pl (get t b)) 0) as [E0|N0].
    - exists (mkMap c (set t b (mkSlot (pl (get t b) + 1) q v)) (size m + 1) (wm m) (ml m)), b. split; [reflexivity|].
      assert (EQ : set t b (mkSlot (pl (get t b) + 1) q v) = put t b 0 q v).
      { unfold put. rewrite place_0 by exact Hb. rewrite E0. set (t1 := set t b (mkSlot 1 q v)).
        assert (G1 : get t1 b = mkSlot 1 q v) by (unfold t1; rewrite get_set by lia; rewrite Z.eqb_refl; reflexivity).
        rewrite G1. cbn [skey sval]. change (0 + 1) with 1. unfold t1, set. 
        assert (U : forall (l : list slot) i x, upd (upd l i x) i x = upd l i x).
        { induction l as [|y l IH]; intros [|i] x; cbn [upd]; try reflexivity. rewrite IH. reflexivity. }
        rewrite U. reflexivity. }
      rewrite EQ. pose proof (Main 0) as M0. rewrite (place_0 b Hb) in M0. apply M0; try lia; try reflexivity; try exact E0.
    - set (p := pl (get t b)) in *. assert (Hp : 0 < p <= c) by (specialize (B1 b Hb); fold p in B1; lia).
      assert (Hps : p <= s0).
      { destruct (Z_lt_le_dec s0 p) as [Hlt'|]; [|assumption]. specialize (B2 b s0 Hb ltac:(fold p; lia)). lia. }
      pose proof (uint32_distance p) as Hd. set (d := ((p * p + p) mod 2 ^ 32) / 2) in *. clearbody d.
      assert (Np : place b p <> b).
      { intros X. assert (p = 0); [|lia]. apply (place_inj b); [lia|pose proof c_pos; lia|]. rewrite X. symmetry. apply place_0. exact Hb. }
      destruct (Z.eqb_spec d 0) as [Ed|_].
      { exfalso. apply Np. rewrite <- (place_congr b d p Hd). rewrite Ed, Z.add_0_r, masked_mod. apply Z.mod_small. exact Hb. }
      rewrite (place_congr b d p Hd). destruct (Z.eqb_spec (place b p) b) as [X|_]; [contradiction|].
      destruct (probe_dup_spec t b Hb (S (Z.to_nat c)) p d s0) as [s [Es [Hs1 [Hs2 Hs3]]]]; try lia; try assumption.
      rewrite Es. eexists _, _. split; [reflexivity|].
      assert (Ni : place b s <> b).
      { intros X. rewrite X in Hs2. fold p in Hs2. lia. }
      apply (Main s); try lia; try assumption.
      + intros s' Hs'. destruct (Z_lt_le_dec s' p) as [H|H]; [apply B2; fold p; lia|]. pose proof (B1 (place b s') (place_range b s')).
        specialize (Hs3 s' ltac:(lia)). lia.
      + f_equal. unfold put. assert (G1 : get (set t (place b s) (mkSlot 1 q v)) b = get t b).
        { rewrite get_set by (try apply place_range; lia). destruct (Z.eqb_spec b (place b s)); [congruence|reflexivity]. }
        rewrite G1. reflexivity.
  Qed.

  (** ** Keys *)
  Variable eqb : K -> K -> bool.
  Hypothesis eq_refl' : forall a, eqb a a = true.
  Hypothesis eq_sym' : forall a b, eqb a b = true -> eqb b a = true.
  Hypothesis eq_trans' : forall a b d, eqb a b = true -> eqb b d = true -> eqb a d = true.
  Hypothesis eq_hash : forall a b, eqb a b = true -> hash a = hash b.
  Definition has (q : K) (l : list (K * V)) : bool := existsb (fun x => eqb q (fst x)) l.

  Lemma in_contents t x : length t = Z.to_nat c -> In x (contents t) <-> exists i, 0 <= i < c /\ pl (get t i) <> 0 /\ kv (get t i) = x.
  Proof.
    intros L. unfold contents. rewrite in_map_iff. split.
    - intros [s [E H]]. apply filter_In in H. destruct H as [H O]. apply (In_nth _ _ free_slot) in H. destruct H as [n [Hn En]].
      exists (Z.of_nat n). unfold RCHash.get. rewrite Nat2Z.id, En. split; [lia|]. split; [apply occ_iff; exact O|exact E].
    - intros [i [Hi [Hp E]]]. exists (get t i). split; [exact E|]. apply filter_In. split; [apply nth_In; lia|apply occ_iff; exact Hp].
  Qed.
  Lemma key_in_probe t q i : Inv t -> 0 <= i < c -> pl (get t i) <> 0 -> eqb q (skey (get t i)) = true ->
    exists s, 0 <= s < pl (get t (home q)) /\ place (home q) s = i.
  Proof.
    intros [L [B1 [B2 B3]]] Hi Hp He. pose proof (B1 i Hi). destruct (B3 i Hi ltac:(lia)) as [s [Hs E]].
    assert (Eh : home (skey (get t i)) = home q) by (unfold home; rewrite (eq_hash _ _ He); reflexivity).
    rewrite Eh in Hs, E. exists s. split; [exact Hs|symmetry; exact E].
  Qed.

  Lemma find_loop_spec t b q : 0 <= b < c -> Inv t -> forall n p d, 0 <= p -> d = tri p -> p + Z.of_nat n = pl (get t b) ->
    match find_loop eqb dk dv n t c b q (place b p) p d with
    | Some i => 0 <= i < c /\ pl (get t i) <> 0 /\ eqb q (skey (get t i)) = true
    | None => forall s, p <= s < pl (get t b) -> eqb q (skey (get t (place b s))) = false
    end.
  Proof.
    intros Hb HI. pose proof HI as [L [B1 [B2 B3]]]. induction n as [|n IH]; intros p d Hp Hd Hn; cbn [find_loop].
    - intros s Hs. lia.
    - pose proof (B2 b p Hb ltac:(lia)) as Hpos. destruct (Z.eqb_spec (pl (get t (place b p))) 0); [lia|].
      destruct (eqb q (skey (get t (place b p)))) eqn:E.
      + split; [apply place_range|]. split; [lia|exact E].
      + rewrite (place_congr b (d + (p + 1)) (p + 1)) by (rewrite tri_succ, Hd; reflexivity).
        specialize (IH (p + 1) (d + (p + 1)) ltac:(lia) ltac:(rewrite tri_succ; lia) ltac:(lia)).
        destruct (find_loop _ _ _ _ _ _ _ _ _ _ _) as [i|]; [exact IH|]. intros s Hs. destruct (Z.eq_dec s p) as [->|]; [exact E|apply IH; lia].
  Qed.
  Theorem find_spec q m : WF m ->
    match find hash eqb dk dv q m with
    | Some i => 0 <= i < c /\ In (kv (get (tab m) i)) (contents (tab m)) /\ eqb q (skey (get (tab m) i)) = true
    | None => has q (contents (tab m)) = false
    end.
  Proof.
    intros [Hc [HI _]]. unfold find. rewrite Hc. change (masked c (hash q)) with (home q). pose proof (home_range q) as Hb. pose proof HI as [L [B1 _]].
    pose proof (find_loop_spec (tab m) (home q) q Hb HI (Z.to_nat (pl (get (tab m) (home q)))) 0 0 ltac:(lia) eq_refl) as F.
    rewrite place_0 in F by exact Hb. specialize (B1 _ Hb). specialize (F ltac:(lia)).
    destruct (find_loop _ _ _ _ _ _ _ _ _ _ _) as [i|].
    - destruct F as [F1 [F2 F3]]. split; [exact F1|]. split; [|exact F3]. apply in_contents; [exact L|]. exists i. auto.
    - unfold has. destruct (existsb _ _) eqn:E; [|reflexivity]. apply existsb_exists in E. destruct E as [x [Hx Ex]].
      apply in_contents in Hx; [|exact L]. destruct Hx as [i [Hi [Hp <-]]]. cbn [kv fst] in Ex.
      destruct (key_in_probe _ q i HI Hi Hp Ex) as [s [Hs E']]. specialize (F s Hs). rewrite E', Ex in F. discriminate.
  Qed.

  (** [for_all] visits exactly the slots of the bucket's probe sequence. *)
  Lemma for_all_loop_eq t q b : 0 <= b < c -> forall n p, 0 <= p ->
    for_all_loop eqb dk dv n t c q p (place b p) =
      map kv (filter (fun s => eqb q (skey s)) (map (fun j => get t (place b (p + Z.of_nat j))) (seq 0 n))).
  Proof.
    intros Hb. induction n as [|n IH]; intros p Hp; [reflexivity|]. cbn [for_all_loop seq map filter]. rewrite Z.add_0_r.
    assert (E : masked c (place b p + (p + 1)) = place b (p + 1)).
    { unfold place. rewrite !masked_mod. rewrite Zplus_mod_idemp_l. f_equal. rewrite tri_succ. lia. }
    rewrite E, IH by lia. rewrite <- seq_shift, map_map.
    assert (Em : map (fun j => get t (place b (p + 1 + Z.of_nat j))) (seq 0 n) = map (fun x => get t (place b (p + Z.of_nat (S x)))) (seq 0 n)).
    { apply map_ext. intros j. do 2 f_equal. lia. }
    rewrite Em. destruct (eqb q (skey (get t (place b p)))); reflexivity.
  Qed.
  Lemma tab_as_map t : length t = Z.to_nat c -> t = map (fun i => get t (Z.of_nat i)) (seq 0 (Z.to_nat c)).
  Proof.
    intros L. apply nth_ext with (d := free_slot) (d' := free_slot); [rewrite map_length, seq_length; exact L|].
    intros n Hn. rewrite (nth_indep (map (fun i => get t (Z.of_nat i)) (seq 0 (Z.to_nat c))) free_slot (get t (Z.of_nat 0))) by (rewrite map_length, seq_length; lia).
    rewrite (map_nth (fun i => get t (Z.of_nat i)) (seq 0 (Z.to_nat c)) O n). rewrite seq_nth by lia. unfold RCHash.get. rewrite Nat2Z.id. reflexivity.
  Qed.
  Lemma NoDup_map_inj {A B} (f : A -> B) (l : list A) : NoDup l -> (forall x y, In x l -> In y l -> f x = f y -> x = y) -> NoDup (map f l).
  Proof.
    induction l as [|a l IH]; intros N H; [constructor|]. inversion N as [|? ? N1 N2]; subst. cbn [map]. constructor.
    - intros X. apply in_map_iff in X. destruct X as [y [E Hy]]. apply H in E; [subst; contradiction|right; exact Hy|left; reflexivity].
    - apply IH; [exact N2|]. intros x y Hx Hy. apply H; right; assumption.
  Qed.
  Lemma filter_map_swap {A B} (f : A -> B) (p : B -> bool) l : filter p (map f l) = map f (filter (fun x => p (f x)) l).
  Proof. induction l as [|x l IH]; [reflexivity|]. cbn. destruct (p (f x)); cbn; rewrite IH; reflexivity. Qed.
  Lemma filter_filter {A} (p r : A -> bool) l : filter p (filter r l) = filter (fun x => r x && p x) l.
  Proof. induction l as [|x l IH]; [reflexivity|]. cbn. destruct (r x); cbn; [destruct (p x)|]; rewrite ?IH; reflexivity. Qed.

  Theorem for_all_spec q m : WF m -> Permutation (for_all hash eqb dk dv q m) (filter (fun x => eqb q (fst x)) (contents (tab m))).
  Proof.
    intros [Hc [HI _]]. unfold for_all. rewrite Hc. change (masked c (hash q)) with (home q). pose proof (home_range q) as Hb. set (b := home q) in *.
    pose proof HI as [L [B1 [B2 B3]]]. set (t := tab m) in *. pose proof (B1 b Hb) as Hp. set (p := pl (get t b)) in *.
    rewrite <- (place_0 b Hb) at 1. rewrite for_all_loop_eq by lia.
    unfold contents. rewrite (filter_map_swap kv (fun x => eqb q (fst x))). apply Permutation_map. cbn [kv fst].
    rewrite (filter_filter (fun x => eqb q (skey x)) occ).
    transitivity (filter (fun x => occ x && eqb q (skey x)) (map (fun i => get t (Z.of_nat i)) (seq 0 (Z.to_nat c)))); [|rewrite <- (tab_as_map t L); reflexivity].
    rewrite !filter_map_swap. rewrite <- (map_map (fun j => place b (0 + Z.of_nat j)) (fun i => get t i)) at 1.
    rewrite <- (map_map Z.of_nat (fun i => get t i)). apply Permutation_map.
    assert (Rng : forall j, (j < Z.to_nat p)%nat -> 0 <= 0 + Z.of_nat j < c) by (intros; lia).
    apply NoDup_Permutation.
    - apply NoDup_map_inj; [apply NoDup_filter, seq_NoDup|]. intros x y Hx Hy E. apply filter_In in Hx, Hy. destruct Hx as [Hx _], Hy as [Hy _].
      apply in_seq in Hx, Hy. apply place_inj in E; lia.
    - apply NoDup_map_inj; [apply NoDup_filter, seq_NoDup|]. intros x y _ _ E. lia.
    - intros i. rewrite !in_map_iff. split.
      + intros [j [E Hj]]. apply filter_In in Hj. destruct Hj as [Hj Ej]. apply in_seq in Hj. pose proof (place_range b (0 + Z.of_nat j)) as R.
        exists (Z.to_nat i). subst i. split; [lia|]. apply filter_In. split; [apply in_seq; lia|].
        rewrite Z2Nat.id by lia. apply andb_true_iff. split; [|exact Ej]. apply occ_iff. specialize (B2 b (0 + Z.of_nat j) Hb ltac:(fold p; lia)). lia.
      + intros [j [E Hj]]. apply filter_In in Hj. destruct Hj as [Hj Ej]. apply in_seq in Hj. apply andb_true_iff in Ej. destruct Ej as [Oj Ej].
        destruct (key_in_probe t q (Z.of_nat j) HI ltac:(lia) (proj1 (occ_iff _) Oj) Ej) as [s [Hs Es]]. fold b in Hs, Es. fold p in Hs.
        exists (Z.to_nat s). rewrite Z2Nat.id by lia. rewrite Z.add_0_l. split; [rewrite Es; exact E|]. apply filter_In. split; [apply in_seq; lia|].
        rewrite Z2Nat.id by lia. rewrite Z.add_0_l, Es. exact Ej.
  Qed.

  (** ** Insertion without duplicates *)
  Lemma probe_nodup_spec t b q : 0 <= b < c -> forall fuel p d s0, 0 <= p -> d = tri p ->
    p <= s0 < c -> pl (get t (place b s0)) = 0 -> (Z.to_nat (s0 - p) < fuel)%nat ->
    exists r, probe_nodup eqb dk dv fuel t c b q (place b p) p d = Some r /\
    match r with
    | inl i => exists s, p <= s < c /\ i = place b s /\ pl (get t i) <> 0 /\ eqb q (skey (get t i)) = true
    | inr (i, s) => i = place b s /\ p <= s < c /\ pl (get t i) = 0 /\ (forall s', p <= s' < s -> pl (get t (place b s')) <> 0 /\ eqb q (skey (get t (place b s'))) = false)
    end.
  Proof.
    intros Hb fuel. induction fuel as [|f IH]; intros p d s0 Hp Hd Hs Hfree Hf; [lia|]. cbn [probe_nodup].
    destruct (Z.eqb_spec (pl (get t (place b p))) 0) as [E|N].
    - eexists. split; [reflexivity|]. cbn. split; [reflexivity|]. split; [lia|]. split; [exact E|]. intros; lia.
    - destruct (eqb q (skey (get t (place b p)))) eqn:Eq.
      + eexists. split; [reflexivity|]. cbn. exists p. split; [lia|]. auto.
      + assert (s0 <> p) by (intros ->; contradiction).
        rewrite (place_congr b (d + (p + 1)) (p + 1)) by (rewrite tri_succ, Hd; reflexivity).
        destruct (IH (p + 1) (d + (p + 1)) s0) as [r [E R]]; try lia; try exact Hfree.
        { rewrite tri_succ. lia. }
        exists r. split; [exact E|]. destruct r as [i|[i s]].
        * destruct R as [s [R1 R2]]. exists s. split; [lia|exact R2].
        * destruct R as [R1 [R2 [R3 R4]]]. split; [exact R1|]. split; [lia|]. split; [exact R3|]. intros s' Hs'.
          destruct (Z.eq_dec s' p) as [->|]; [auto|apply R4; lia].
  Qed.
  Lemma set_set t i (x y : slot) : set (set t i x) i y = set t i y.
  Proof. unfold set. generalize (Z.to_nat i). induction t as [|z t IH]; intros [|n]; cbn [upd]; try reflexivity. rewrite IH. reflexivity. Qed.
  Lemma set_comm t i j (x y : slot) : 0 <= i -> 0 <= j -> i <> j -> set (set t i x) j y = set (set t j y) i x.
  Proof.
    intros Hi Hj N. unfold set. assert (N' : Z.to_nat i <> Z.to_nat j) by lia. revert N'. generalize (Z.to_nat i) (Z.to_nat j).
    induction t as [|z t IH]; intros [|n] [|m] N'; cbn [upd]; try reflexivity; try lia. rewrite IH by lia. reflexivity.
  Qed.
  Theorem insert_nodup_core_spec q v m : WF m -> size m < c ->
    forall m0, grow hash dk dv m0 = Some m ->
    exists m' i ins, insert_without_duplicates hash eqb dk dv q v m0 = Some (m', i, ins) /\ WF m' /\ wm m' = wm m /\ ml m' = ml m /\
      ins = negb (has q (contents (tab m))) /\ 0 <= i < c /\ 0 < pl (get (tab m') i) /\ eqb q (skey (get (tab m') i)) = true /\
      (if ins then Permutation (contents (tab m')) ((q, v) :: contents (tab m)) /\ size m' = size m + 1 /\ kv (get (tab m') i) = (q, v)
       else m' = m).
  Proof.
    intros HW Hlt m0 Hg. pose proof HW as [Hc [HI Hsz]]. unfold insert_without_duplicates. rewrite Hg, Hc. pose proof HI as [L [B1 [B2 B3]]].
    set (t := tab m) in *. change (masked c (hash q)) with (home q). set (b := home q). assert (Hb : 0 <= b < c) by apply home_range.
    destruct (exists_free t b HI) as [s0 [Hs0 F0]]; [lia|].
    destruct (probe_nodup_spec t b q Hb (S (Z.to_nat c)) 0 0 s0) as [r [E R]]; try lia; try assumption; try reflexivity.
    rewrite place_0 in E by exact Hb. rewrite E. destruct r as [i|[i s]].
    - destruct R as [s [Hs [Ei [Hp Hq]]]]. exists m, i, false. split; [reflexivity|]. split; [exact HW|]. split; [reflexivity|]. split; [reflexivity|].
      pose proof (place_range b s) as Hr. rewrite <- Ei in Hr.
      assert (Hh : has q (contents t) = true).
      { unfold has. apply existsb_exists. exists (kv (get t i)). split; [|exact Hq]. apply in_contents; [exact L|]. exists i. auto. }
      rewrite Hh. split; [reflexivity|]. split; [exact Hr|]. specialize (B1 i Hr). fold t. split; [lia|]. split; [exact Hq|reflexivity].
    - destruct R as [Ei [Hs [Hp Hno]]]. pose proof (place_range b s) as Hr.
      assert (Hle : pl (get t b) <= s).
      { destruct (Z_lt_le_dec s (pl (get t b))) as [H|H]; [|exact H]. specialize (B2 b s Hb ltac:(lia)). rewrite <- Ei in B2. lia. }
      assert (Hc' : s = 0 \/ 0 < pl (get t b)).
      { destruct (Z.eq_dec s 0) as [H|H]; [left; exact H|right]. destruct (Hno 0 ltac:(lia)) as [H0 _]. rewrite place_0 in H0 by exact Hb.
        specialize (B1 b Hb). lia. }
      assert (EQ : forall t1 t2 t3, t1 = set t i (mkSlot (pl (get t i) + 1) (skey (get t i)) (sval (get t i))) ->
        t2 = set t1 b (mkSlot (s + 1) (skey (get t1 b)) (sval (get t1 b))) -> t3 = set t2 i (mkSlot (pl (get t2 i)) q v) -> t3 = put t b s q v).
      { intros t1 t2 t3 -> -> ->. unfold put. rewrite <- Ei. rewrite Hp. change (0 + 1) with 1. rewrite <- Ei in Hr.
        rewrite !get_set by (rewrite ?length_set; lia). rewrite Z.eqb_refl.
        destruct (Z.eqb_spec b i) as [->|N].
        - rewrite Z.eqb_refl. cbn [pl skey sval]. rewrite !set_set. reflexivity.
        - destruct (Z.eqb_spec i b); [congruence|]. cbn [pl]. rewrite (set_comm t i b) by lia. rewrite set_set. rewrite (set_comm _ b i) by lia. reflexivity. }
      set (t1 := set t i _). set (t2 := set t1 b _). set (t3 := set t2 i _). specialize (EQ t1 t2 t3 eq_refl eq_refl eq_refl).
      pose proof (put_contents t b s q v HI Hb ltac:(lia) ltac:(rewrite <- Ei; exact Hp) Hc') as P.
      exists (mkMap c t3 (size m + 1) (wm m) (ml m)), i, true. split; [reflexivity|]. cbn [tab wm ml size]. rewrite EQ.
      assert (HI' : Inv (put t b s q v)).
      { apply put_inv; try assumption; try lia; [fold b; rewrite <- Ei; exact Hp|]. intros s' Hs'. destruct (Hno s' ltac:(lia)) as [H0 _]. pose proof (B1 _ (place_range b s')). fold b. lia. }
      split; [split; [reflexivity|]; split; [exact HI'|cbn [size tab]; rewrite (Permutation_length P); cbn [length]; lia]|].
      split; [reflexivity|]. split; [reflexivity|].
      assert (Hh : has q (contents t) = false).
      { unfold has. destruct (existsb _ _) eqn:X; [|reflexivity]. apply existsb_exists in X. destruct X as [x [Hx Ex]].
        apply in_contents in Hx; [|exact L]. destruct Hx as [j [Hj [Hpj <-]]]. cbn [kv fst] in Ex.
        destruct (key_in_probe _ q j HI Hj Hpj Ex) as [s' [Hs' E']]. fold b in Hs', E'. destruct (Hno s' ltac:(lia)) as [_ H0]. rewrite E', Ex in H0. discriminate. }
      rewrite Hh. split; [reflexivity|]. rewrite <- Ei in Hr. split; [exact Hr|].
      assert (G : get (put t b s q v) i = if i =? b then mkSlot (s + 1) q v else mkSlot 1 q v).
      { rewrite get_put by (exact HI || lia). rewrite <- Ei. destruct (Z.eqb_spec i b) as [X|X]; [rewrite <- X, Z.eqb_refl; reflexivity|rewrite Z.eqb_refl; reflexivity]. }
      rewrite G. split; [destruct (i =? b); cbn; lia|]. split; [destruct (i =? b); cbn [skey]; apply eq_refl'|].
      split; [exact P|]. split; [reflexivity|]. destruct (i =? b); reflexivity.
  Qed.
End Proofs.
