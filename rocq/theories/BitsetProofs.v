(** * Proofs about [SmallBitset], subset enumeration, Gosper's hack and the subset enumerator. *)
From Coq Require Import NArith List Bool Lia ZifyBool ZifyN Sorting.Sorted.
From Verif Require Import Word WordProofs Bitset.
Import ListNotations.
Open Scope N_scope.
Arguments N.pow : simpl never.
Arguments N.ones : simpl never.
Arguments N.mul : simpl never.
Arguments N.add : simpl never.
Arguments N.sub : simpl never.

Lemma W64_shl1 n : n < 64 -> shl64 1 n = 2 ^ n.
Proof.
  intros H. unfold shl64. rewrite N.shiftl_1_l. apply wrap_small. unfold W64. apply N.pow_lt_mono_r; lia.
Qed.
Lemma pow_W64 n : n < 64 -> W64 (2 ^ n).
Proof. intros H. unfold W64. apply N.pow_lt_mono_r; lia. Qed.

Lemma sub64_1 x : W64 x -> x <> 0 -> sub64 x 1 = x - 1.
Proof. intros Hw Hx. apply sub64_ge; [exact Hw|lia]. Qed.

(** ** Element access *)
Lemma get_spec s i : i < 64 -> sbs_get s i = Some (N.testbit s i).
Proof.
  intros Hi. unfold sbs_get, CAPACITY. destruct (N.ltb_spec i 64) as [_|H]; [|lia]. f_equal.
  change 1 with (N.ones 1). rewrite N.land_ones. change (2 ^ 1) with 2.
  rewrite <- N.bit0_mod, N.shiftr_spec by lia. rewrite N.add_0_l. change (N.ones 1) with 1.
  destruct (N.testbit s i); reflexivity.
Qed.
Lemma set_spec s i v : W64 s -> i < 64 ->
  exists s', sbs_set s i v = Some s' /\ W64 s' /\
             forall j, N.testbit s' j = if j =? i then v else N.testbit s j.
Proof.
  intros Hs Hi. unfold sbs_set, CAPACITY. destruct (N.ltb_spec i 64) as [_|H]; [|lia].
  eexists; split; [reflexivity|]. unfold setbit64. rewrite W64_shl1 by exact Hi. split.
  - apply lxor_lt; [exact Hs|]. apply land_lt_r. apply pow_W64. exact Hi.
  - intros j. rewrite N.lxor_spec, N.land_spec, N.lxor_spec, testbit_pow2.
    destruct (N.eqb_spec j i) as [->|Hne].
    + destruct v.
      * assert (Hn : N.testbit (neg64 1) i = true).
        { change (neg64 1) with (N.ones 64). rewrite testbit_ones. apply N.ltb_lt; exact Hi. }
        rewrite Hn. destruct (N.testbit s i); reflexivity.
      * rewrite N.bits_0. destruct (N.testbit s i); reflexivity.
    + rewrite andb_false_r, xorb_false_r. reflexivity.
Qed.

(** ** Constructors *)
Lemma All_spec n : n <= 64 -> exists s, sbs_All n = Some s /\ W64 s /\ forall j, N.testbit s j = (j <? n).
Proof.
  intros Hn. unfold sbs_All, CAPACITY. destruct (N.leb_spec n 64) as [_|H]; [|lia].
  eexists; split; [reflexivity|]. destruct (N.eqb_spec n 64) as [->|Hne].
  - split; [apply not64_W64; unfold W64; lia|]. intros j.
    rewrite testbit_not64 by (unfold W64; lia). rewrite N.bits_0. cbn. apply andb_true_r.
  - rewrite W64_shl1 by lia. rewrite sub64_1; [|apply pow_W64; lia|pose proof (pow2_pos n); lia].
    replace (2 ^ n - 1) with (N.ones n) by (rewrite N.ones_equiv; lia). split.
    + apply N.lt_le_trans with (2 ^ n); [apply ones_lt|]. apply N.pow_le_mono_r; lia.
    + intros j. apply testbit_ones.
Qed.
Lemma All_ones n : n < 64 -> sbs_All n = Some (N.ones n).
Proof.
  intros Hn. destruct (All_spec n ltac:(lia)) as [s [Hs [_ Hb]]]. rewrite Hs. f_equal.
  apply N.bits_inj. intros j. rewrite Hb, testbit_ones. reflexivity.
Qed.
Lemma Singleton_spec n : n < 64 -> exists s, sbs_Singleton n = Some s /\ W64 s /\ forall j, N.testbit s j = (j =? n).
Proof.
  intros Hn. unfold sbs_Singleton, CAPACITY. destruct (N.ltb_spec n 64) as [_|H]; [|lia].
  eexists; split; [reflexivity|]. rewrite W64_shl1 by exact Hn. split; [apply pow_W64; exact Hn|].
  intros j. apply testbit_pow2.
Qed.

(** ** Set algebra *)
Lemma union_spec a b j : N.testbit (sbs_union a b) j = N.testbit a j || N.testbit b j.
Proof. apply N.lor_spec. Qed.
Lemma inter_spec a b j : N.testbit (sbs_inter a b) j = N.testbit a j && N.testbit b j.
Proof. apply N.land_spec. Qed.
Lemma diff_spec a b j : W64 a -> W64 b -> N.testbit (sbs_diff a b) j = N.testbit a j && negb (N.testbit b j).
Proof.
  intros Ha Hb. unfold sbs_diff. rewrite N.land_spec, testbit_not64 by exact Hb.
  destruct (N.ltb_spec j 64) as [H|H]; [reflexivity|]. rewrite (W64_testbit_high a j) by assumption. reflexivity.
Qed.
Lemma diff_ldiff a b : W64 a -> W64 b -> sbs_diff a b = N.ldiff a b.
Proof.
  intros Ha Hb. apply N.bits_inj. intros j. rewrite N.ldiff_spec. apply diff_spec; assumption.
Qed.
Lemma not_spec a j : W64 a -> N.testbit (sbs_not a) j = (j <? 64) && negb (N.testbit a j).
Proof. apply testbit_not64. Qed.
Lemma subset_spec a b : sbs_is_subset a b = true <-> (forall j, N.testbit a j = true -> N.testbit b j = true).
Proof.
  unfold sbs_is_subset. rewrite N.eqb_eq. split.
  - intros E j Hj. rewrite E, N.land_spec in Hj. apply andb_prop in Hj. tauto.
  - intros H. apply N.bits_inj. intros j. rewrite N.land_spec. destruct (N.testbit a j) eqn:E.
    + rewrite (H j E). reflexivity.
    + symmetry. apply andb_false_r.
Qed.
Lemma empty_spec a : sbs_empty a = true <-> (forall j, N.testbit a j = false).
Proof.
  unfold sbs_empty. rewrite N.eqb_eq. split; [intros ->; apply N.bits_0|].
  intros H. apply N.bits_inj. intros j. rewrite H, N.bits_0. reflexivity.
Qed.
Lemma eq_spec a b : W64 a -> W64 b -> (a = b <-> forall j, j < 64 -> N.testbit a j = N.testbit b j).
Proof. intros Ha Hb. split; [intros -> j _; reflexivity|]. apply word_ext; assumption. Qed.

(** ** hi, masks *)
Lemma clz_log2 x : W64 x -> x <> 0 -> clz x = 63 - N.log2 x /\ N.log2 x <= 63.
Proof.
  intros Hw Hx. split; [destruct x; [congruence|reflexivity]|]. pose proof (log2_lt64 x Hw Hx). lia.
Qed.
Lemma hi_spec s : W64 s -> s <> 0 ->
  exists h, N.testbit s h = true /\ (forall j, N.testbit s j = true -> j <= h) /\ h < 64 /\ sbs_hi s = Some (2 ^ h).
Proof.
  intros Hw Hs. exists (N.log2 s). destruct (clz_log2 s Hw Hs) as [Hc Hl].
  split; [apply N.bit_log2; exact Hs|]. split.
  - intros j Hj. destruct (N.le_gt_cases j (N.log2 s)) as [H|H]; [exact H|].
    rewrite N.bits_above_log2 in Hj by exact H. discriminate.
  - split; [lia|]. unfold sbs_hi. rewrite Hc. destruct (N.ltb_spec (63 - N.log2 s) 64) as [_|H]; [|lia].
    replace (64 - (63 - N.log2 s) - 1) with (N.log2 s) by lia.
    unfold sbs_Singleton, CAPACITY. destruct (N.ltb_spec (N.log2 s) 64) as [H|H]; [|lia].
    rewrite W64_shl1 by exact H. reflexivity.
Qed.
Lemma hi_empty : sbs_hi 0 = None.
Proof. reflexivity. Qed.
Lemma mask_to_lo_spec s : W64 s -> s <> 0 ->
  exists m, sbs_mask_to_lo s = Some m /\ forall j, N.testbit m j = (j <=? ctz s).
Proof.
  intros Hw Hs. unfold sbs_mask_to_lo, sbs_empty. destruct (N.eqb_spec s 0) as [E|_]; [congruence|].
  rewrite sub64_1 by assumption. eexists; split; [reflexivity|]. intros j. apply testbit_blsmsk; exact Hs.
Qed.
Lemma singleton_pow2 s : W64 s -> sbs_is_singleton s = true -> s = 2 ^ ctz s /\ s <> 0.
Proof.
  intros Hw H. unfold sbs_is_singleton, sbs_size in H. apply N.eqb_eq in H.
  assert (Hs : s <> 0) by (intros ->; discriminate).
  split; [|exact Hs]. rewrite popcount_blsr in H by assumption.
  assert (E : N.land s (s - 1) = 0) by (apply popcount_zero; lia).
  apply N.bits_inj. intros j. rewrite testbit_pow2.
  pose proof (testbit_blsr s j Hs) as Hb. rewrite E, N.bits_0 in Hb.
  destruct (N.eqb_spec j (ctz s)) as [Hj|Hne]; [rewrite Hj; apply testbit_ctz; exact Hs|].
  cbn [negb] in Hb. rewrite andb_true_r in Hb. congruence.
Qed.
Lemma singleton_mask_spec s : W64 s -> sbs_is_singleton s = true ->
  exists m, sbs_singleton_to_lo_mask s = Some m /\ forall j, N.testbit m j = (j <? ctz s).
Proof.
  intros Hw H. destruct (singleton_pow2 s Hw H) as [E Hs]. unfold sbs_singleton_to_lo_mask. rewrite H.
  eexists; split; [reflexivity|]. intros j. rewrite sub64_1 by assumption. rewrite E at 1.
  replace (2 ^ ctz s - 1) with (N.ones (ctz s)) by (rewrite N.ones_equiv; lia). apply testbit_ones.
Qed.

(** ** Cardinality and iteration *)
Lemma size_spec s : W64 s -> sbs_size s = N.of_nat (length (elems s)).
Proof. apply popcount_elems. Qed.

Lemma iterate_spec n : forall s fuel, W64 s -> length (elems s) = n -> (n < fuel)%nat ->
  iterate fuel s = Some (elems s).
Proof.
  induction n as [|n IH]; intros s fuel Hw Hn Hf; destruct fuel as [|fuel]; try lia; cbn [iterate].
  - destruct (N.eqb_spec s 0) as [->|Hs]; [reflexivity|].
    rewrite elems_cons in Hn by assumption. cbn in Hn. lia.
  - destruct (N.eqb_spec s 0) as [->|Hs]; [rewrite elems_0 in Hn; discriminate|].
    rewrite elems_cons in Hn |- * by assumption. cbn in Hn.
    unfold it_deref. destruct (N.eqb_spec s 0) as [E|_]; [congruence|].
    unfold it_next. rewrite sub64_1 by assumption.
    rewrite IH by (try apply blsr_W64; auto; lia). reflexivity.
Qed.
Lemma iterate_ok s : W64 s -> iterate 65 s = Some (elems s).
Proof.
  intros Hw. eapply iterate_spec; [exact Hw|reflexivity|]. pose proof (length_elems_le s). lia.
Qed.

Lemma elems_snoc s : W64 s -> s <> 0 -> elems s = elems (N.ldiff s (2 ^ N.log2 s)) ++ [N.log2 s].
Proof.
  intros Hw Hs. assert (Hd : W64 (N.ldiff s (2 ^ N.log2 s))) by (apply ldiff_lt; exact Hw).
  apply sorted_ext.
  - apply elems_sorted.
  - assert (Hall : Forall (fun i => i < N.log2 s) (elems (N.ldiff s (2 ^ N.log2 s)))).
    { apply Forall_forall. intros i Hi. rewrite in_elems in Hi by exact Hd. rewrite N.ldiff_spec, testbit_pow2 in Hi.
      apply andb_prop in Hi. destruct Hi as [H1 H2]. apply negb_true_iff, N.eqb_neq in H2.
      destruct (N.le_gt_cases i (N.log2 s)) as [H|H]; [lia|]. rewrite N.bits_above_log2 in H1 by exact H. discriminate. }
    revert Hall. pose proof (elems_sorted (N.ldiff s (2 ^ N.log2 s))) as Hsort. revert Hsort.
    generalize (elems (N.ldiff s (2 ^ N.log2 s))) as l. induction l as [|a l IH]; intros Hsort Hall; cbn.
    + constructor; constructor.
    + apply StronglySorted_inv in Hsort. destruct Hsort as [S1 S2]. inversion Hall as [|? ? A1 A2]; subst.
      constructor; [apply IH; assumption|]. apply Forall_app. split; [exact S2|]. constructor; [exact A1|constructor].
  - intros i. rewrite in_app_iff, !in_elems by assumption. cbn [In]. rewrite N.ldiff_spec, testbit_pow2.
    destruct (N.eqb_spec i (N.log2 s)) as [->|Hne].
    + rewrite N.bit_log2 by exact Hs. cbn. intuition discriminate.
    + rewrite andb_true_r. split; [tauto|]. intros [H|[H|[]]]; [exact H|congruence].
Qed.
Lemma riterate_spec n : forall s fuel, W64 s -> length (elems s) = n -> (n < fuel)%nat ->
  riterate fuel s = Some (rev (elems s)).
Proof.
  induction n as [|n IH]; intros s fuel Hw Hn Hf; destruct fuel as [|fuel]; try lia; cbn [riterate].
  - destruct (N.eqb_spec s 0) as [->|Hs]; [reflexivity|].
    rewrite elems_cons in Hn by assumption. cbn in Hn. lia.
  - destruct (N.eqb_spec s 0) as [->|Hs]; [rewrite elems_0 in Hn; discriminate|].
    destruct (clz_log2 s Hw Hs) as [Hc Hl].
    assert (E : rit_deref s = Some (N.log2 s)).
    { unfold rit_deref. destruct (N.eqb_spec s 0); [congruence|]. rewrite Hc. f_equal. lia. }
    assert (E2 : rit_next s = Some (N.ldiff s (2 ^ N.log2 s))).
    { unfold rit_next. rewrite E. f_equal. rewrite W64_shl1 by lia. apply diff_ldiff; [exact Hw|apply pow_W64; lia]. }
    rewrite E, E2. rewrite elems_snoc in Hn |- * by assumption. rewrite app_length in Hn. cbn in Hn.
    rewrite IH; [|apply ldiff_lt; exact Hw|lia|lia]. rewrite rev_app_distr. reflexivity.
Qed.
Lemma riterate_ok s : W64 s -> riterate 65 s = Some (rev (elems s)).
Proof.
  intros Hw. eapply riterate_spec; [exact Hw|reflexivity|]. pose proof (length_elems_le s). lia.
Qed.

(** ** popcount arithmetic *)
Lemma pred_mul x y : 0 < x -> N.pred x * y = x * y - y.
Proof. nia. Qed.
Lemma popcount_mul_pow2 x k : popcount (x * 2 ^ k) = popcount x.
Proof.
  induction k as [|k IH] using N.peano_ind; [rewrite N.pow_0_r, N.mul_1_r; reflexivity|].
  rewrite N.pow_succ_r'. replace (x * (2 * 2 ^ k)) with (2 * (x * 2 ^ k)) by lia. rewrite popcount_double. exact IH.
Qed.
Lemma popcount_concat k : forall hi lo, lo < 2 ^ k -> popcount (hi * 2 ^ k + lo) = popcount hi + popcount lo.
Proof.
  induction k as [|k IH] using N.peano_ind; intros hi lo Hlo.
  - change (2 ^ 0) with 1 in *. assert (lo = 0) by lia. subst. rewrite N.mul_1_r, !N.add_0_r. reflexivity.
  - rewrite N.pow_succ_r' in *. pose proof (N.div2_odd lo) as E.
    assert (Hd : N.div2 lo < 2 ^ k) by (destruct (N.odd lo); cbn [N.b2n] in E; lia).
    specialize (IH hi _ Hd). rewrite E. destruct (N.odd lo); cbn [N.b2n].
    + replace (hi * (2 * 2 ^ k) + (2 * N.div2 lo + 1)) with (2 * (hi * 2 ^ k + N.div2 lo) + 1) by lia.
      rewrite !popcount_succ_double, IH. lia.
    + replace (hi * (2 * 2 ^ k) + (2 * N.div2 lo + 0)) with (2 * (hi * 2 ^ k + N.div2 lo)) by lia.
      rewrite N.add_0_r, !popcount_double, IH. lia.
Qed.
Lemma popcount_ones k : popcount (N.ones k) = k.
Proof.
  induction k as [|k IH] using N.peano_ind; [reflexivity|].
  rewrite N.ones_equiv, N.pow_succ_r'. rewrite N.ones_equiv in IH. pose proof (pow2_pos k).
  replace (N.pred (2 * 2 ^ k)) with (2 * N.pred (2 ^ k) + 1) by lia. rewrite popcount_succ_double, IH. lia.
Qed.
Lemma popcount_lower x : 2 ^ popcount x - 1 <= x.
Proof.
  induction x as [|x IH|x IH] using N.binary_ind.
  - cbn. lia.
  - rewrite N.double_spec, popcount_double. lia.
  - rewrite N.succ_double_spec, popcount_succ_double, N.add_1_r, N.pow_succ_r'. lia.
Qed.
Lemma popcount_pos x : x <> 0 -> 0 < popcount x.
Proof. intros H. pose proof (proj1 (popcount_zero x)). lia. Qed.

(** ** Generic enumeration by a successor function *)
Section Enum.
  Variable (P : N -> Prop) (next : N -> N) (bound : N).
  Hypothesis next_gt : forall x, P x -> x < bound -> x < next x.
  Hypothesis next_P : forall x, P x -> x < bound -> P (next x).
  Hypothesis next_least : forall x y, P x -> x < bound -> P y -> x < y -> next x <= y.

  Lemma enum_exists : forall x0, P x0 ->
    exists l, StronglySorted N.lt l
      /\ (forall y, In y l <-> P y /\ x0 <= y < bound)
      /\ (forall (loop : nat -> N -> option (list N)),
             (forall f x, loop (S f) x = if x <? bound then option_map (cons x) (loop f (next x)) else Some []) ->
             loop (S (length l)) x0 = Some l).
  Proof.
    intros x0. remember (N.to_nat (bound - x0)) as m eqn:Hm. revert x0 Hm.
    induction m as [m IH] using (well_founded_induction Wf_nat.lt_wf). intros x0 Hm HP.
    destruct (N.lt_ge_cases x0 bound) as [Hlt|Hge].
    - pose proof (next_gt x0 HP Hlt) as Hgt.
      destruct (IH (N.to_nat (bound - next x0)) ltac:(lia) (next x0) eq_refl (next_P _ HP Hlt)) as [l [Hs [Hin Hl]]].
      exists (x0 :: l). split; [|split].
      + constructor; [exact Hs|]. apply Forall_forall. intros y Hy. apply Hin in Hy. lia.
      + intros y. cbn [In]. rewrite Hin. split.
        * intros [<-|[HPy Hy]]; [split; [exact HP|lia]|split; [exact HPy|lia]].
        * intros [HPy Hy]. destruct (N.eq_dec x0 y) as [->|Hne]; [left; reflexivity|right].
          split; [exact HPy|]. split; [apply next_least; auto; lia|lia].
      + intros loop Hloop. rewrite Hloop. destruct (N.ltb_spec x0 bound) as [_|]; [|lia].
        cbn [length]. rewrite (Hl loop Hloop). reflexivity.
    - exists []. split; [constructor|]. split.
      + intros y. cbn. split; [tauto|]. intros [_ H]. lia.
      + intros loop Hloop. rewrite Hloop. destruct (N.ltb_spec x0 bound) as [|_]; [lia|]. reflexivity.
  Qed.
End Enum.

(** ** Subset enumeration *)
Definition Sub (a b : N) : Prop := forall j, N.testbit a j = true -> N.testbit b j = true.

Lemma Sub_le a b : Sub a b -> a <= b.
Proof.
  intros H. assert (E : N.ldiff a b = 0).
  { apply N.bits_inj. intros j. rewrite N.ldiff_spec, N.bits_0. destruct (N.testbit a j) eqn:Ea; [|reflexivity].
    rewrite (H j Ea). reflexivity. }
  apply N.ldiff_le. exact E.
Qed.
Lemma Sub_refl a : Sub a a. Proof. intros j H; exact H. Qed.
Lemma Sub_W64 a b : Sub a b -> W64 b -> W64 a.
Proof. intros H Hb. pose proof (Sub_le _ _ H). unfold W64 in *. lia. Qed.

Lemma least_subset_pow2 s : W64 s -> s <> 0 -> least_subset s = 2 ^ ctz s.
Proof. apply blsi_pow2. Qed.

(** [(sub - S) & S] in terms of bits: with [k] the least element of [S \ sub]. *)
Lemma next_subset_bits sub S : W64 S -> Sub sub S -> sub <> S ->
  let k := ctz (N.ldiff S sub) in
  N.testbit S k = true /\ N.testbit sub k = false /\
  (forall j, j < k -> N.testbit S j = true -> N.testbit sub j = true) /\
  (forall j, N.testbit (next_subset sub S) j = if j <? k then false else if j =? k then true else N.testbit sub j).
Proof.
  intros HW Hsub Hne k.
  assert (Hd : N.ldiff S sub <> 0).
  { intros E. apply Hne. apply N.bits_inj. intros j.
    destruct (N.testbit sub j) eqn:E1; [symmetry; apply Hsub; exact E1|].
    assert (E2 : N.testbit (N.ldiff S sub) j = false) by (rewrite E; apply N.bits_0).
    rewrite N.ldiff_spec, E1 in E2. cbn in E2. rewrite andb_true_r in E2. symmetry. exact E2. }
  pose proof (testbit_ctz _ Hd) as Hk. fold k in Hk. rewrite N.ldiff_spec in Hk. apply andb_prop in Hk.
  destruct Hk as [Hk1 Hk2]. apply negb_true_iff in Hk2.
  assert (Hbelow : forall j, j < k -> N.testbit S j = true -> N.testbit sub j = true).
  { intros j Hj HS. pose proof (testbit_below_ctz _ j Hd Hj) as H. rewrite N.ldiff_spec, HS in H. cbn in H.
    apply negb_false_iff in H. exact H. }
  split; [exact Hk1|]. split; [exact Hk2|]. split; [exact Hbelow|].
  (* sub - S = (sub | ~S) + 1 *)
  assert (Hsw : W64 sub) by (eapply Sub_W64; eassumption).
  assert (Hle : sub < S).
  { pose proof (Sub_le _ _ Hsub). assert (sub <> S) by exact Hne. lia. }
  set (z := N.lor sub (not64 S)).
  assert (Hz : sub64 sub S = z + 1).
  { rewrite sub64_lt by assumption. unfold z. rewrite lor_add.
    - rewrite not64_sub by exact HW. unfold W64 in *. lia.
    - apply N.bits_inj. intros j. rewrite N.land_spec, N.bits_0, testbit_not64 by exact HW.
      destruct (N.testbit sub j) eqn:E; [|reflexivity]. rewrite (Hsub j E). cbn. apply andb_false_r. }
  assert (Hk64 : k < 64).
  { destruct (N.lt_ge_cases k 64) as [H|H]; [exact H|]. rewrite W64_testbit_high in Hk1 by assumption. discriminate. }
  assert (Hzb : forall j, N.testbit z j = N.testbit sub j || ((j <? 64) && negb (N.testbit S j))).
  { intros j. unfold z. rewrite N.lor_spec, testbit_not64 by exact HW. reflexivity. }
  intros j. unfold next_subset. rewrite N.land_spec, Hz.
  rewrite (testbit_succ z k).
  - destruct (N.ltb_spec j k) as [H1|H1]; [reflexivity|].
    destruct (N.eqb_spec j k) as [->|H2]; [rewrite Hk1; reflexivity|].
    rewrite Hzb. destruct (N.testbit sub j) eqn:E.
    + rewrite (Hsub j E). reflexivity.
    + cbn. destruct (N.testbit S j); cbn; rewrite ?andb_false_r; reflexivity.
  - rewrite Hzb, Hk2, Hk1. cbn. apply andb_false_r.
  - intros i Hi. rewrite Hzb. destruct (N.testbit S i) eqn:E; [rewrite (Hbelow i Hi E); reflexivity|].
    cbn. rewrite orb_true_iff. right. apply andb_true_iff. split; [apply N.ltb_lt; lia|reflexivity].
Qed.

(** Comparing words at the highest differing bit. *)
Lemma lt_high_bit a b k : N.testbit a k = false -> N.testbit b k = true ->
  (forall j, k < j -> N.testbit a j = N.testbit b j) -> a < b.
Proof.
  intros Ha Hb Hhi.
  assert (E : a / 2 ^ (k + 1) = b / 2 ^ (k + 1)).
  { apply N.bits_inj. intros j. rewrite !N.div_pow2_bits. apply Hhi. lia. }
  assert (Hn : 2 ^ (k + 1) <> 0) by (pose proof (pow2_pos (k+1)); lia).
  rewrite (N.div_mod a (2 ^ (k + 1)) Hn), (N.div_mod b (2 ^ (k + 1)) Hn), E.
  assert (H1 : a mod 2 ^ (k + 1) < 2 ^ k).
  { apply lt_pow2_testbit. intros i Hi. destruct (N.lt_ge_cases i (k + 1)) as [H|H].
    - rewrite N.mod_pow2_bits_low by exact H. replace i with k by lia. exact Ha.
    - apply N.mod_pow2_bits_high. exact H. }
  assert (H2 : 2 ^ k <= b mod 2 ^ (k + 1)).
  { destruct (N.le_gt_cases (2 ^ k) (b mod 2 ^ (k + 1))) as [H|H]; [exact H|].
    pose proof (testbit_high _ k k H ltac:(lia)) as H3. rewrite N.mod_pow2_bits_low in H3 by lia. congruence. }
  lia.
Qed.
Lemma high_bit_of_lt a b : a < b -> exists k, N.testbit a k = false /\ N.testbit b k = true /\
  (forall j, k < j -> N.testbit a j = N.testbit b j).
Proof.
  intros Hlt. assert (Hx : N.lxor a b <> 0) by (intros E; apply N.lxor_eq in E; lia).
  set (k := N.log2 (N.lxor a b)).
  assert (Hhi : forall j, k < j -> N.testbit a j = N.testbit b j).
  { intros j Hj. pose proof (N.bits_above_log2 _ _ Hj) as H. rewrite N.lxor_spec in H. revert H. destruct (N.testbit a j), (N.testbit b j); cbn; congruence. }
  pose proof (N.bit_log2 _ Hx) as Hk. fold k in Hk. rewrite N.lxor_spec in Hk.
  exists k. destruct (N.testbit a k) eqn:Ea, (N.testbit b k) eqn:Eb; cbn in Hk; try discriminate.
  - exfalso. assert (b < a) by (apply (lt_high_bit b a k); auto; intros j Hj; symmetry; auto). lia.
  - auto.
Qed.

Lemma next_subset_props sub S : W64 S -> Sub sub S -> sub <> S ->
  Sub (next_subset sub S) S /\ sub < next_subset sub S /\
  (forall t, Sub t S -> sub < t -> next_subset sub S <= t).
Proof.
  intros HW Hsub Hne. destruct (next_subset_bits sub S HW Hsub Hne) as [Hk1 [Hk2 [Hbelow Hb]]].
  set (k := ctz (N.ldiff S sub)) in *. set (nx := next_subset sub S) in *.
  split; [|split].
  - intros j Hj. rewrite Hb in Hj. destruct (N.ltb_spec j k) as [H|H]; [discriminate|].
    destruct (N.eqb_spec j k) as [Ejk|H2]; [rewrite Ejk; exact Hk1|]. apply Hsub; exact Hj.
  - apply (lt_high_bit _ _ k); [exact Hk2| |].
    + rewrite Hb, N.ltb_irrefl, N.eqb_refl. reflexivity.
    + intros j Hj. rewrite Hb. destruct (N.ltb_spec j k); [lia|]. destruct (N.eqb_spec j k); [lia|reflexivity].
  - intros t Ht Hlt. destruct (high_bit_of_lt _ _ Hlt) as [h [Hh1 [Hh2 Hh3]]].
    assert (Hhk : k <= h).
    { destruct (N.le_gt_cases k h) as [H|H]; [exact H|]. rewrite (Hbelow h H (Ht h Hh2)) in Hh1. discriminate. }
    destruct (N.eq_dec h k) as [->|Hne2].
    + (* t agrees with nx from bit k upwards; nx has zeros below *)
      apply Sub_le. intros j Hj. rewrite Hb in Hj. destruct (N.ltb_spec j k) as [H|H]; [discriminate|].
      destruct (N.eqb_spec j k) as [Ejk|H2]; [rewrite Ejk; exact Hh2|]. rewrite <- Hh3 by lia. exact Hj.
    + apply N.lt_le_incl, (lt_high_bit _ _ h).
      * rewrite Hb. destruct (N.ltb_spec h k); [lia|]. destruct (N.eqb_spec h k); [lia|exact Hh1].
      * exact Hh2.
      * intros j Hj. rewrite Hb. destruct (N.ltb_spec j k); [lia|]. destruct (N.eqb_spec j k); [lia|auto].
Qed.

Lemma next_subset_full S : W64 S -> next_subset S S = 0.
Proof.
  intros HW. unfold next_subset. rewrite sub64_ge by (try exact HW; lia). rewrite N.sub_diag. apply N.land_0_l.
Qed.

Lemma least_subset_props S : W64 S -> S <> 0 ->
  Sub (least_subset S) S /\ least_subset S <> 0 /\ (forall t, Sub t S -> t <> 0 -> least_subset S <= t).
Proof.
  intros HW HS. rewrite least_subset_pow2 by assumption. split; [|split].
  - intros j Hj. rewrite testbit_pow2 in Hj. apply N.eqb_eq in Hj. subst j. apply testbit_ctz. exact HS.
  - pose proof (pow2_pos (ctz S)). lia.
  - intros t Ht Hz. pose proof (testbit_ctz t Hz) as H1. pose proof (Ht _ H1) as H2.
    assert (ctz S <= ctz t).
    { destruct (N.le_gt_cases (ctz S) (ctz t)) as [H|H]; [exact H|].
      rewrite testbit_below_ctz in H2 by assumption. discriminate. }
    apply N.le_trans with (2 ^ ctz t); [apply N.pow_le_mono_r; lia|].
    apply Sub_le. intros j Hj. rewrite testbit_pow2 in Hj. apply N.eqb_eq in Hj. subst j. exact H1.
Qed.

(** The loop [for (O = least_subset(S); O != stop; O = next_subset(O, S))] for any non-empty subset [stop] of [S]. *)
Lemma subset_loop_spec S stop : W64 S -> Sub stop S -> stop <> 0 ->
  exists fuel l, subset_loop fuel (least_subset S) S stop = Some l /\ StronglySorted N.lt l /\
    forall t, In t l <-> Sub t S /\ t <> 0 /\ t < stop.
Proof.
  intros HW Hstop Hnz.
  assert (HS : S <> 0) by (intros ->; pose proof (Sub_le _ _ Hstop); lia).
  destruct (least_subset_props S HW HS) as [L1 [L2 L3]].
  set (P := fun x => Sub x S /\ x <> 0 /\ x <= stop).
  assert (Hneq : forall x, P x -> x < stop -> x <> S).
  { intros x [Hx _] Hlt ->. pose proof (Sub_le _ _ Hstop). lia. }
  destruct (enum_exists P (fun x => next_subset x S) stop) with (x0 := least_subset S) as [l [Hs [Hin Hl]]].
  - intros x HP Hlt. destruct (next_subset_props x S HW (proj1 HP) (Hneq x HP Hlt)) as [_ [H _]]. exact H.
  - intros x HP Hlt. destruct (next_subset_props x S HW (proj1 HP) (Hneq x HP Hlt)) as [H1 [H2 H3]].
    split; [exact H1|]. split; [lia|]. apply H3; assumption.
  - intros x y HP Hlt HPy Hxy. destruct (next_subset_props x S HW (proj1 HP) (Hneq x HP Hlt)) as [H1 [H2 H3]].
    apply H3; [apply HPy|exact Hxy].
  - split; [exact L1|]. split; [exact L2|]. apply L3; assumption.
  - exists (Datatypes.S (length l)), l. split; [|split; [exact Hs|]].
    + (* the model loop tests [cur = stop]; on P-elements this is [not (cur < stop)] *)
      assert (Hgen : forall f x, P x ->
        subset_loop f x S stop =
        (fix loop (f : nat) (x : N) := match f with O => None | Datatypes.S f' =>
             if x <? stop then option_map (cons x) (loop f' (next_subset x S)) else Some [] end) f x).
      { induction f as [|f IH]; intros x HP; [reflexivity|]. cbn [subset_loop].
        destruct (N.eqb_spec x stop) as [->|Hne].
        - rewrite N.ltb_irrefl. reflexivity.
        - assert (Hlt : x < stop) by (destruct HP as [_ [_ H]]; lia).
          destruct (N.ltb_spec x stop) as [_|]; [|lia]. rewrite IH; [reflexivity|].
          destruct (next_subset_props x S HW (proj1 HP) (Hneq x HP Hlt)) as [H1 [H2 H3]].
          split; [exact H1|]. split; [lia|]. apply H3; assumption. }
      rewrite Hgen by (split; [exact L1|split; [exact L2|apply L3; assumption]]).
      apply (Hl (fix loop (f : nat) (x : N) := match f with O => None | Datatypes.S f' =>
             if x <? stop then option_map (cons x) (loop f' (next_subset x S)) else Some [] end)).
      reflexivity.
    + intros t. rewrite Hin. unfold P. split.
      * intros [[H1 [H2 H3]] H4]. split; [exact H1|]. split; [exact H2|lia].
      * intros [H1 [H2 H3]]. split; [split; [exact H1|split; [exact H2|lia]]|]. split; [apply L3; assumption|exact H3].
Qed.

(** ** Gosper's hack *)

(** Decomposition of a non-zero word at its lowest block of ones. *)
Lemma gosper_decomp s : s <> 0 -> exists H a b, a < b /\ s = H * 2 ^ (b + 1) + (2 ^ b - 2 ^ a) /\ a = ctz s.
Proof.
  intros Hs. destruct (ctz_decomp s Hs) as [y Hy]. set (a := ctz s) in *.
  destruct (ctz_decomp (2 * y + 1 + 1) ltac:(lia)) as [q Hq]. set (c := ctz (2 * y + 1 + 1)) in *.
  assert (Hc : 0 < c).
  { destruct (N.eq_dec c 0) as [E|E]; [|lia]. rewrite E in Hq. change (2 ^ 0) with 1 in Hq. lia. }
  exists q, a, (a + c). split; [lia|]. split; [|reflexivity].
  rewrite Hy. replace (2 * y + 1) with ((2 * q + 1) * 2 ^ c - 1) by lia.
  replace (a + c + 1) with (N.succ (a + c)) by lia.
  rewrite N.pow_succ_r', N.pow_add_r. pose proof (pow2_pos c). pose proof (pow2_pos a). nia.
Qed.

Fixpoint cnt (n : nat) (i : N) (m : N) : N :=
  match n with O => 0 | S n' => (if N.testbit m i then 1 else 0) + cnt n' (i + 1) m end.
Lemma cnt_count n m : cnt n 0 m = count_bits n m.
Proof.
  assert (H : forall n i, cnt n i m = N.of_nat (length (filter (N.testbit m) (map N.of_nat (seq (N.to_nat i) n))))).
  { clear n. induction n as [|n IH]; intros i; [reflexivity|]. cbn [cnt seq map filter]. rewrite IH.
    replace (N.to_nat (i + 1)) with (S (N.to_nat i)) by lia. rewrite N2Nat.id.
    destruct (N.testbit m i); cbn [length]; lia. }
  rewrite H, count_bits_filter. reflexivity.
Qed.
Lemma pext_self_loop n : forall i k m, pext_loop n i k m m = N.ones (cnt n i m) * 2 ^ k.
Proof.
  induction n as [|n IH]; intros i k m; cbn [pext_loop cnt]; [reflexivity|].
  destruct (N.testbit m i) eqn:E.
  - rewrite IH. rewrite N.shiftl_1_l. rewrite lor_add.
    + rewrite !N.ones_equiv. replace (1 + cnt n (i + 1) m) with (N.succ (cnt n (i + 1) m)) by lia.
      rewrite N.pow_succ_r', (N.add_1_r k), N.pow_succ_r'. pose proof (pow2_pos (cnt n (i + 1) m)). nia.
    + apply N.bits_inj. intros j. rewrite N.land_spec, N.bits_0, testbit_pow2.
      destruct (N.eqb_spec j k) as [->|]; [|reflexivity]. rewrite N.mul_pow2_bits_low by lia. reflexivity.
  - rewrite IH. rewrite N.add_0_l. reflexivity.
Qed.
Lemma pext_self m : W64 m -> pext64 m m = N.ones (popcount m).
Proof.
  intros Hw. unfold pext64. rewrite pext_self_loop, cnt_count, <- popcount_count by exact Hw.
  rewrite N.pow_0_r, N.mul_1_r. reflexivity.
Qed.

Lemma popcount_block a b : a < b -> popcount (2 ^ b - 2 ^ a) = b - a.
Proof.
  intros Hab. replace (2 ^ b - 2 ^ a) with (N.ones (b - a) * 2 ^ a).
  - rewrite popcount_mul_pow2. apply popcount_ones.
  - rewrite N.ones_equiv. replace (2 ^ b) with (2 ^ (b - a) * 2 ^ a) by (rewrite <- N.pow_add_r; f_equal; lia).
    pose proof (pow2_pos (b - a)). pose proof (pow2_pos a). nia.
Qed.

Lemma xor_block H a b : a < b ->
  N.lxor (H * 2 ^ (b + 1) + 2 ^ b) (H * 2 ^ (b + 1) + (2 ^ b - 2 ^ a)) = 2 ^ (b + 1) - 2 ^ a.
Proof.
  intros Hab. pose proof (pow2_pos a). pose proof (pow2_pos b).
  assert (Hb1 : 2 ^ (b + 1) = 2 * 2 ^ b) by (rewrite N.add_1_r, N.pow_succ_r'; reflexivity).
  assert (Hle : 2 ^ a < 2 ^ b) by (apply N.pow_lt_mono_r; lia).
  assert (Hm : 2 ^ (b + 1) - 2 ^ a = 2 ^ b + (2 ^ b - 2 ^ a)) by lia.
  rewrite Hm. apply N.bits_inj. intros i. rewrite N.lxor_spec.
  rewrite !testbit_concat by lia.
  replace (2 ^ b + (2 ^ b - 2 ^ a)) with (1 * 2 ^ b + (2 ^ b - 2 ^ a)) by lia. rewrite testbit_concat by lia.
  destruct (N.ltb_spec i (b + 1)) as [Hi|Hi].
  - rewrite testbit_pow2. destruct (N.ltb_spec i b) as [Hi2|Hi2].
    + destruct (N.eqb_spec i b); [lia|]. apply xorb_false_l.
    + assert (i = b) by lia. subst i. rewrite N.eqb_refl, N.sub_diag.
      rewrite (testbit_high (2 ^ b - 2 ^ a) b b) by lia. reflexivity.
  - rewrite xorb_nilpotent. destruct (N.ltb_spec i b); [lia|].
    symmetry. apply (testbit_high 1 1); [reflexivity|lia].
Qed.

Lemma gosper_value s : s <> 0 -> s < 2 ^ 63 ->
  exists H a b, a < b /\ b <= 63 /\ s = H * 2 ^ (b + 1) + (2 ^ b - 2 ^ a) /\
    gh_next_bmi2 s = H * 2 ^ (b + 1) + 2 ^ b + (2 ^ (b - a - 1) - 1).
Proof.
  intros Hs Hlt. destruct (gosper_decomp s Hs) as [H [a [b [Hab [E Ha]]]]].
  pose proof (pow2_pos a) as Pa. pose proof (pow2_pos b) as Pb.
  assert (Hb1 : 2 ^ (b + 1) = 2 * 2 ^ b) by (rewrite N.add_1_r, N.pow_succ_r'; reflexivity).
  assert (Hle : 2 ^ a < 2 ^ b) by (apply N.pow_lt_mono_r; lia).
  assert (Hb63 : b <= 63).
  { destruct (N.le_gt_cases b 63) as [X|X]; [exact X|]. exfalso.
    assert (2 ^ 63 * 2 <= 2 ^ b) by (change 2 with (2 ^ 1) at 2; rewrite <- N.pow_add_r; apply N.pow_le_mono_r; lia).
    assert (2 * 2 ^ a <= 2 ^ b).
    { rewrite <- N.pow_succ_r'. apply N.pow_le_mono_r; lia. } nia. }
  exists H, a, b. split; [exact Hab|]. split; [exact Hb63|]. split; [exact E|].
  assert (HW : W64 s) by (unfold W64; lia).
  unfold gh_next_bmi2. rewrite blsi_pow2 by assumption. rewrite <- Ha.
  assert (Er : add64 s (2 ^ a) = H * 2 ^ (b + 1) + 2 ^ b).
  { unfold add64. rewrite wrap_small.
    - rewrite E. lia.
    - unfold W64. assert (2 ^ a <= 2 ^ 63) by (apply N.pow_le_mono_r; lia). lia. }
  assert (Em : N.lxor (H * 2 ^ (b + 1) + 2 ^ b) s = 2 ^ (b + 1) - 2 ^ a) by (rewrite E; apply xor_block; exact Hab).
  cbv zeta. rewrite Er, Em.
  assert (Hmw : W64 (2 ^ (b + 1) - 2 ^ a)).
  { unfold W64. assert (2 ^ (b + 1) <= 2 ^ 64) by (apply N.pow_le_mono_r; lia). lia. }
  rewrite pext_self by exact Hmw. rewrite popcount_block by lia.
  assert (Esh : N.shiftr (N.ones (b + 1 - a)) 2 = N.ones (b - a - 1)).
  { apply N.bits_inj. intros i. rewrite N.shiftr_spec by lia. rewrite !testbit_ones.
    destruct (N.ltb_spec (i + 2) (b + 1 - a)), (N.ltb_spec i (b - a - 1)); try reflexivity; lia. }
  rewrite Esh. rewrite lor_add; [rewrite N.ones_equiv; lia|].
  apply N.bits_inj. intros i. rewrite N.land_spec, N.bits_0, testbit_ones.
  destruct (N.ltb_spec i (b - a - 1)) as [Hi|Hi]; [|reflexivity].
  replace (H * 2 ^ (b + 1) + 2 ^ b) with ((2 * H + 1) * 2 ^ b) by lia.
  rewrite N.mul_pow2_bits_low by lia. reflexivity.
Qed.

Lemma gosper_next_props s : s <> 0 -> s < 2 ^ 63 ->
  s < gh_next_bmi2 s /\ popcount (gh_next_bmi2 s) = popcount s /\
  (forall t, popcount t = popcount s -> s < t -> gh_next_bmi2 s <= t).
Proof.
  intros Hs Hlt. destruct (gosper_value s Hs Hlt) as [H [a [b [Hab [Hb63 [E En]]]]]]. rewrite En.
  pose proof (pow2_pos a) as Pa. pose proof (pow2_pos b) as Pb. pose proof (pow2_pos (b - a - 1)) as Pc.
  assert (Hb1 : 2 ^ (b + 1) = 2 * 2 ^ b) by (rewrite N.add_1_r, N.pow_succ_r'; reflexivity).
  assert (Hle : 2 ^ a < 2 ^ b) by (apply N.pow_lt_mono_r; lia).
  assert (Hle2 : 2 ^ (b - a - 1) <= 2 ^ b) by (apply N.pow_le_mono_r; lia).
  assert (Ps : popcount s = popcount H + (b - a)).
  { rewrite E, popcount_concat by lia. rewrite popcount_block by exact Hab. reflexivity. }
  assert (Pone : forall lo, lo < 2 ^ b -> popcount (2 ^ b + lo) = 1 + popcount lo).
  { intros lo Hlo. replace (2 ^ b + lo) with (1 * 2 ^ b + lo) by lia. rewrite popcount_concat by exact Hlo. reflexivity. }
  split; [|split].
  - lia.
  - rewrite <- N.add_assoc. rewrite popcount_concat by lia. rewrite Pone by lia.
    replace (2 ^ (b - a - 1) - 1) with (N.ones (b - a - 1)) by (rewrite N.ones_equiv; lia).
    rewrite popcount_ones, Ps. lia.
  - intros t Pt Hst. rewrite Ps in Pt.
    pose proof (N.div_mod t (2 ^ (b + 1)) ltac:(lia)) as Et. rewrite (N.mul_comm (2 ^ (b + 1))) in Et.
    pose proof (N.mod_lt t (2 ^ (b + 1)) ltac:(lia)) as Hlt2.
    set (Ht := t / 2 ^ (b + 1)) in *. set (lt := t mod 2 ^ (b + 1)) in *. clearbody Ht lt.
    clear Hs Hlt En.
    rewrite Et in Pt. rewrite popcount_concat in Pt by exact Hlt2.
    destruct (N.lt_trichotomy Ht H) as [C|[C|C]].
    + exfalso. assert (Hmul : (Ht + 1) * 2 ^ (b + 1) <= H * 2 ^ (b + 1)) by (apply N.mul_le_mono_r; lia).
      rewrite N.mul_add_distr_r, N.mul_1_l in Hmul. clear - Hmul Et E Hst Hlt2. lia.
    + rewrite C in *. assert (Hl : 2 ^ b - 2 ^ a < lt) by (clear - Et E Hst; lia).
      destruct (N.lt_ge_cases lt (2 ^ b)) as [Hc|Hc].
      * exfalso. remember (lt - (2 ^ b - 2 ^ a)) as e eqn:Hedef.
        assert (He : lt = N.ones (b - a) * 2 ^ a + e).
        { rewrite N.ones_equiv, (pred_mul _ _ (pow2_pos (b - a))), <- N.pow_add_r.
          replace (b - a + a) with b by lia. clear - Hl Hle Hedef. lia. }
        assert (Hea : e < 2 ^ a) by (clear - Hedef Hc Hl Hle; lia).
        rewrite He, popcount_concat, popcount_ones in Pt by exact Hea.
        assert (Hpe : 0 < popcount e) by (apply popcount_pos; clear - Hl Hedef; lia). clear - Hpe Pt. lia.
      * remember (lt - 2 ^ b) as lt' eqn:Hlt'. assert (El : lt = 2 ^ b + lt') by (clear - Hlt' Hc; lia).
        assert (Hl' : lt' < 2 ^ b) by (clear - Hlt' Hlt2 Hb1 Hc; lia).
        rewrite El, Pone in Pt by exact Hl'.
        pose proof (popcount_lower lt') as Hlow. replace (popcount lt') with (b - a - 1) in Hlow by (clear - Pt Hab; lia).
        clear - Hlow Et El Hb1. lia.
    + assert (Hmul : (H + 1) * 2 ^ (b + 1) <= Ht * 2 ^ (b + 1)) by (apply N.mul_le_mono_r; lia).
      rewrite N.mul_add_distr_r, N.mul_1_l in Hmul. clear - Hmul Et Hb1 Hle2 Pc Pb. lia.
Qed.

Lemma popcount_lt_pow2 x k : popcount x = k -> N.ones k <= x.
Proof. intros <-. rewrite N.ones_equiv. pose proof (popcount_lower x). lia. Qed.

(** Iterating from [s] while below [2^n] enumerates, in order, all words of the same popcount from [s] on. *)
Lemma gh_loop_from s n : n < 64 -> s <> 0 ->
  exists fuel l, gh_loop gh_next_bmi2 fuel {| gh_set := s; gh_limit := shl64 1 n |} = Some l /\
    StronglySorted N.lt l /\
    forall t, In t l <-> popcount t = popcount s /\ s <= t /\ t < 2 ^ n.
Proof.
  intros Hn Hs.
  set (P := fun x => popcount x = popcount s).
  assert (Hnz : forall x, P x -> x <> 0).
  { intros x Hx Ex. unfold P in Hx. rewrite Ex in Hx. symmetry in Hx. change (popcount 0) with 0 in Hx.
    apply (proj1 (popcount_zero s)) in Hx. exact (Hs Hx). }
  assert (H63 : forall x, x < 2 ^ n -> x < 2 ^ 63).
  { intros x Hx. assert (2 ^ n <= 2 ^ 63) by (apply N.pow_le_mono_r; lia). lia. }
  destruct (enum_exists P gh_next_bmi2 (2 ^ n)) with (x0 := s) as [l [Hs' [Hin Hl]]].
  - intros x HP Hlt. apply gosper_next_props; auto.
  - intros x HP Hlt. unfold P. destruct (gosper_next_props x (Hnz x HP) (H63 x Hlt)) as [_ [E _]].
    rewrite E. exact HP.
  - intros x y HP Hlt HPy Hxy. destruct (gosper_next_props x (Hnz x HP) (H63 x Hlt)) as [_ [_ E]].
    apply E; [|exact Hxy]. unfold P in *. congruence.
  - reflexivity.
  - exists (S (length l)), l. rewrite W64_shl1 by exact Hn. split; [|split; [exact Hs'|]].
    + apply (Hl (fun f x => gh_loop gh_next_bmi2 f {| gh_set := x; gh_limit := 2 ^ n |})).
      intros f x. reflexivity.
    + intros t. rewrite Hin. unfold P. tauto.
Qed.

Lemma gh_all_spec k n : 1 <= k -> k <= n -> n < 64 ->
  exists g fuel l, gh_enumerate_all k n = Some g /\ gh_loop gh_next_bmi2 fuel g = Some l /\
    StronglySorted N.lt l /\ forall t, In t l <-> popcount t = k /\ t < 2 ^ n.
Proof.
  intros Hk Hkn Hn.
  assert (Hones : N.ones k <> 0).
  { rewrite N.ones_equiv. assert (2 ^ 1 <= 2 ^ k) by (apply N.pow_le_mono_r; lia). change (2 ^ 1) with 2 in *. lia. }
  destruct (gh_loop_from (N.ones k) n Hn Hones) as [fuel [l [Hl [Hs Hin]]]].
  exists {| gh_set := N.ones k; gh_limit := shl64 1 n |}, fuel, l.
  split; [|split; [exact Hl|split; [exact Hs|]]].
  - unfold gh_enumerate_all. destruct (N.leb_spec k n); [|lia]. destruct (N.ltb_spec n 64); [|lia]. cbn [andb].
    rewrite All_ones by lia. reflexivity.
  - intros t. rewrite Hin, popcount_ones. split; [tauto|]. intros [H1 H2]. split; [exact H1|]. split; [|exact H2].
    apply popcount_lt_pow2. exact H1.
Qed.

(** The loop for [k = 0] never terminates. *)
Lemma gh_zero_loops n fuel : n < 64 -> exists g, gh_enumerate_all 0 n = Some g /\ gh_loop gh_next_bmi2 fuel g = None
   /\ gh_loop gh_next_portable fuel g = None.
Proof.
  intros Hn. exists {| gh_set := 0; gh_limit := 2 ^ n |}. split.
  - unfold gh_enumerate_all. destruct (N.leb_spec 0 n); [|lia]. destruct (N.ltb_spec n 64); [|lia]. cbn [andb].
    rewrite All_ones by lia. rewrite W64_shl1 by exact Hn. reflexivity.
  - split; (induction fuel as [|f IH]; [reflexivity|]; cbn [gh_loop gh_set gh_limit];
      destruct (N.ltb_spec 0 (2 ^ n)) as [_|X]; [|pose proof (pow2_pos n); lia]).
    + change (gh_next_bmi2 0) with 0. rewrite IH. reflexivity.
    + change (gh_next_portable 0) with 0. rewrite IH. reflexivity.
Qed.

(** The portable variant agrees as long as [n <= 31]. *)
Lemma gh_portable_agrees s : s <> 0 -> s < 2 ^ 31 -> gh_next_portable s = gh_next_bmi2 s.
Proof.
  intros Hs Hlt. destruct (gosper_decomp s Hs) as [H [a [b [Hab [E Ha]]]]].
  pose proof (pow2_pos a) as Pa. pose proof (pow2_pos b) as Pb.
  assert (Hb1 : 2 ^ (b + 1) = 2 * 2 ^ b) by (rewrite N.add_1_r, N.pow_succ_r'; reflexivity).
  assert (Hle : 2 ^ a < 2 ^ b) by (apply N.pow_lt_mono_r; lia).
  assert (Hb31 : b <= 31).
  { destruct (N.le_gt_cases b 31) as [X|X]; [exact X|]. exfalso.
    assert (2 ^ 31 * 2 <= 2 ^ b) by (change 2 with (2 ^ 1) at 2; rewrite <- N.pow_add_r; apply N.pow_le_mono_r; lia).
    assert (2 * 2 ^ a <= 2 ^ b).
    { rewrite <- N.pow_succ_r'. apply N.pow_le_mono_r; lia. } nia. }
  assert (HW : W64 s) by (unfold W64; lia).
  unfold gh_next_portable, gh_next_bmi2. cbv zeta. rewrite blsi_pow2 by assumption. rewrite <- Ha.
  assert (Er : add64 s (2 ^ a) = H * 2 ^ (b + 1) + 2 ^ b).
  { unfold add64. rewrite wrap_small.
    - rewrite E. lia.
    - unfold W64. assert (2 ^ a <= 2 ^ 63) by (apply N.pow_le_mono_r; lia). lia. }
  assert (Em : N.lxor (H * 2 ^ (b + 1) + 2 ^ b) s = 2 ^ (b + 1) - 2 ^ a) by (rewrite E; apply xor_block; exact Hab).
  rewrite Er, Em. f_equal. f_equal.
  assert (Hm : 2 ^ (b + 1) - 2 ^ a < 2 ^ 32).
  { assert (2 ^ (b + 1) <= 2 ^ 32) by (apply N.pow_le_mono_r; lia). lia. }
  rewrite N.mod_small by exact Hm. rewrite pext_self by (unfold W64; lia).
  rewrite popcount_block by lia. rewrite W64_shl1 by lia.
  rewrite sub64_1; [rewrite N.ones_equiv; lia|apply pow_W64; lia|pose proof (pow2_pos (b + 1 - a)); lia].
Qed.

(** ** pdep and the subset enumerator *)
Fixpoint dep (es : list N) (k : N) (src : N) : N :=
  match es with
  | [] => 0
  | e :: es' => N.lor (if N.testbit src k then 2 ^ e else 0) (dep es' (k + 1) src)
  end.
Lemma pdep_dep_loop n : forall i k src mask,
  pdep_loop n i k src mask = dep (filter (N.testbit mask) (map N.of_nat (seq (N.to_nat i) n))) k src.
Proof.
  induction n as [|n IH]; intros i k src mask; cbn [pdep_loop seq map filter]; [reflexivity|].
  rewrite N2Nat.id. replace (S (N.to_nat i)) with (N.to_nat (i + 1)) by lia.
  destruct (N.testbit mask i); [|apply IH]. cbn [dep]. rewrite IH, N.shiftl_1_l. reflexivity.
Qed.
Lemma pdep_dep src mask : pdep64 src mask = dep (elems mask) 0 src.
Proof. unfold pdep64. rewrite pdep_dep_loop, elems_def. reflexivity. Qed.

Lemma dep_bit es : forall k src i,
  N.testbit (dep es k src) i = true <-> exists p, nth_error es p = Some i /\ N.testbit src (k + N.of_nat p) = true.
Proof.
  induction es as [|e es IH]; intros k src i; cbn [dep].
  - rewrite N.bits_0. split; [discriminate|]. intros [p [H _]]. destruct p; discriminate.
  - rewrite N.lor_spec, orb_true_iff, IH. split.
    + intros [H|[p [H1 H2]]].
      * exists O. destruct (N.testbit src k) eqn:E; [|rewrite N.bits_0 in H; discriminate].
        rewrite testbit_pow2 in H. apply N.eqb_eq in H. subst i. split; [reflexivity|]. rewrite N.add_0_r. exact E.
      * exists (S p). split; [exact H1|]. rewrite <- H2. f_equal. lia.
    + intros [[|p] [H1 H2]]; cbn in H1.
      * left. injection H1 as ->. replace (k + N.of_nat 0) with k in H2 by lia. rewrite H2, testbit_pow2. apply N.eqb_refl.
      * right. exists p. split; [exact H1|]. rewrite <- H2. f_equal. lia.
Qed.

Lemma NoDup_nth_error_inj (l : list N) p q x : NoDup l -> nth_error l p = Some x -> nth_error l q = Some x -> p = q.
Proof.
  intros Hnd Hp Hq. rewrite NoDup_nth_error in Hnd. apply Hnd; [|congruence].
  apply nth_error_Some. congruence.
Qed.

Lemma pdep_sub src mask : W64 mask -> Sub (pdep64 src mask) mask.
Proof.
  intros Hw i Hi. rewrite pdep_dep in Hi. apply dep_bit in Hi. destruct Hi as [p [Hp _]].
  apply nth_error_In in Hp. apply in_elems in Hp; assumption.
Qed.
Lemma pdep_inj a b mask : W64 mask -> a < 2 ^ popcount mask -> b < 2 ^ popcount mask ->
  pdep64 a mask = pdep64 b mask -> a = b.
Proof.
  intros Hw Ha Hb E. rewrite !pdep_dep in E. rewrite popcount_elems in Ha, Hb by exact Hw.
  assert (Hnd : NoDup (elems mask)) by (apply StronglySorted_lt_NoDup, elems_sorted).
  assert (G : forall x y, dep (elems mask) 0 x = dep (elems mask) 0 y -> x < 2 ^ N.of_nat (length (elems mask)) ->
              forall j, N.testbit x j = true -> N.testbit y j = true).
  { intros x y Exy Hx j Hj.
    assert (Hjl : j < N.of_nat (length (elems mask))).
    { destruct (N.lt_ge_cases j (N.of_nat (length (elems mask)))) as [H|H]; [exact H|].
      rewrite (testbit_high x _ j Hx H) in Hj. discriminate. }
    destruct (nth_error (elems mask) (N.to_nat j)) as [i|] eqn:Ei.
    - assert (H : N.testbit (dep (elems mask) 0 x) i = true).
      { apply dep_bit. exists (N.to_nat j). split; [exact Ei|]. rewrite N.add_0_l, N2Nat.id. exact Hj. }
      rewrite Exy in H. apply dep_bit in H. destruct H as [p [Hp Hbp]].
      assert (p = N.to_nat j) by (eapply NoDup_nth_error_inj; eassumption). subst p.
      rewrite N.add_0_l, N2Nat.id in Hbp. exact Hbp.
    - apply nth_error_None in Ei. lia. }
  apply N.bits_inj. intros j. destruct (N.testbit a j) eqn:Ea.
  - symmetry. eapply G; eassumption.
  - destruct (N.testbit b j) eqn:Eb; [|reflexivity].
    assert (N.testbit a j = true) by (eapply G; [symmetry; exact E|exact Hb|exact Eb]). congruence.
Qed.

Lemma popcount_lor a b : W64 a -> W64 b -> N.land a b = 0 -> popcount (N.lor a b) = popcount a + popcount b.
Proof.
  intros Ha Hb Hd. rewrite !(popcount_count 64) by (try exact Ha; try exact Hb; apply lor_lt; assumption).
  generalize 64%nat as n. induction n as [|n IH]; [reflexivity|]. cbn [count_bits]. rewrite IH, N.lor_spec.
  assert (H : N.testbit a (N.of_nat n) && N.testbit b (N.of_nat n) = false).
  { rewrite <- N.land_spec, Hd. apply N.bits_0. }
  destruct (N.testbit a (N.of_nat n)), (N.testbit b (N.of_nat n)); cbn in *; try discriminate; lia.
Qed.

Lemma dep_W64 es k src : Forall (fun e => e < 64) es -> W64 (dep es k src).
Proof.
  intros H. apply lt_pow2_testbit. intros i Hi. destruct (N.testbit (dep es k src) i) eqn:E; [|reflexivity].
  apply dep_bit in E. destruct E as [p [Hp _]]. apply nth_error_In in Hp. rewrite Forall_forall in H.
  specialize (H _ Hp). lia.
Qed.
Lemma dep_popcount es : forall k src, StronglySorted N.lt es -> Forall (fun e => e < 64) es ->
  popcount (dep es k src) = cnt (length es) k src.
Proof.
  induction es as [|e es IH]; intros k src Hs Hf; cbn [dep length cnt]; [reflexivity|].
  apply StronglySorted_inv in Hs. destruct Hs as [Hs Hlt]. inversion Hf as [|? ? He Hf']; subst.
  rewrite popcount_lor.
  - rewrite IH by assumption. destruct (N.testbit src k); [|reflexivity].
    replace (2 ^ e) with (1 * 2 ^ e) by lia. rewrite popcount_mul_pow2. reflexivity.
  - destruct (N.testbit src k); [apply pow_W64; exact He|]. unfold W64. lia.
  - apply dep_W64. exact Hf'.
  - apply N.bits_inj. intros i. rewrite N.land_spec, N.bits_0. destruct (N.testbit src k); [|reflexivity].
    rewrite testbit_pow2. destruct (N.eqb_spec i e) as [->|]; [|reflexivity]. cbn.
    destruct (N.testbit (dep es (k + 1) src) e) eqn:E; [|reflexivity].
    apply dep_bit in E. destruct E as [p [Hp _]]. apply nth_error_In in Hp. rewrite Forall_forall in Hlt.
    specialize (Hlt _ Hp). lia.
Qed.
Lemma elems_lt64 x : Forall (fun e => e < 64) (elems x).
Proof.
  apply Forall_forall. intros i Hi. rewrite elems_def in Hi. apply filter_In in Hi. destruct Hi as [Hi _].
  apply in_map_iff in Hi. destruct Hi as [m [<- Hm]]. apply in_seq in Hm. lia.
Qed.
Lemma pdep_popcount src mask : W64 mask -> src < 2 ^ popcount mask -> popcount (pdep64 src mask) = popcount src.
Proof.
  intros Hw Hs. rewrite pdep_dep, dep_popcount by (try apply elems_sorted; apply elems_lt64).
  rewrite cnt_count. symmetry. apply popcount_count. rewrite <- popcount_elems by exact Hw. exact Hs.
Qed.

(** Surjectivity: gather the ranks of the elements of [T] within [mask]. *)
Fixpoint gather (es : list N) (k : N) (T : N) : N :=
  match es with
  | [] => 0
  | e :: es' => N.lor (if N.testbit T e then 2 ^ k else 0) (gather es' (k + 1) T)
  end.
Lemma gather_bit es : forall k T j,
  N.testbit (gather es k T) j = true <-> exists p e, nth_error es p = Some e /\ N.testbit T e = true /\ j = k + N.of_nat p.
Proof.
  induction es as [|e es IH]; intros k T j; cbn [gather].
  - rewrite N.bits_0. split; [discriminate|]. intros [p [e [H _]]]. destruct p; discriminate.
  - rewrite N.lor_spec, orb_true_iff, IH. split.
    + intros [H|[p [e' [H1 [H2 H3]]]]].
      * exists O, e. destruct (N.testbit T e) eqn:E; [|rewrite N.bits_0 in H; discriminate].
        rewrite testbit_pow2 in H. apply N.eqb_eq in H. subst j. split; [reflexivity|]. split; [first [exact E|reflexivity]|lia].
      * exists (S p), e'. split; [exact H1|]. split; [exact H2|lia].
    + intros [[|p] [e' [H1 [H2 H3]]]]; cbn in H1.
      * left. injection H1 as ->. rewrite H2, testbit_pow2. apply N.eqb_eq. lia.
      * right. exists p, e'. split; [exact H1|]. split; [exact H2|lia].
Qed.
Lemma pdep_surj T mask : W64 mask -> Sub T mask ->
  exists src, src < 2 ^ popcount mask /\ pdep64 src mask = T.
Proof.
  intros Hw HT. exists (gather (elems mask) 0 T). split.
  - rewrite popcount_elems by exact Hw. apply lt_pow2_testbit. intros i Hi.
    destruct (N.testbit (gather (elems mask) 0 T) i) eqn:E; [|reflexivity].
    apply gather_bit in E. destruct E as [p [e [Hp [_ Hj]]]].
    assert (p < length (elems mask))%nat by (apply nth_error_Some; congruence). lia.
  - rewrite pdep_dep. assert (Hnd : NoDup (elems mask)) by (apply StronglySorted_lt_NoDup, elems_sorted).
    apply N.bits_inj. intros i. apply eq_true_iff_eq. rewrite dep_bit. split.
    + intros [p [Hp Hb]]. apply gather_bit in Hb. destruct Hb as [q [e [Hq [He Hpq]]]].
      assert (p = q) by lia. subst q. congruence.
    + intros Hi. pose proof (HT i Hi) as Hm. apply in_elems in Hm; [|exact Hw]. apply In_nth_error in Hm.
      destruct Hm as [p Hp]. exists p. split; [exact Hp|]. apply gather_bit. exists p, i. auto.
Qed.

Lemma se_loop_map next set fuel : forall g,
  se_loop next set fuel g = option_map (map (fun x => pdep64 x set)) (gh_loop next fuel g).
Proof.
  induction fuel as [|f IH]; intros g; cbn [se_loop gh_loop]; [reflexivity|].
  destruct (gh_set g <? gh_limit g); [|reflexivity]. rewrite IH.
  destruct (gh_loop next f {| gh_set := next (gh_set g); gh_limit := gh_limit g |}); reflexivity.
Qed.
Lemma NoDup_map_inj {A B} (f : A -> B) l : (forall x y, In x l -> In y l -> f x = f y -> x = y) -> NoDup l -> NoDup (map f l).
Proof.
  intros Hinj Hnd. induction Hnd as [|a l Hni Hnd IH]; cbn; constructor.
  - intros Hin. apply in_map_iff in Hin. destruct Hin as [y [Ey Hy]]. apply Hni.
    rewrite (Hinj a y); [exact Hy|left; reflexivity|right; exact Hy|symmetry; exact Ey].
  - apply IH. intros x y Hx Hy. apply Hinj; right; assumption.
Qed.
Lemma se_spec set k : W64 set -> popcount set < 64 -> 1 <= k -> k <= popcount set ->
  exists g fuel l, se_make set k = Some g /\ se_loop gh_next_bmi2 set fuel g = Some l /\ NoDup l /\
    forall T, In T l <-> Sub T set /\ popcount T = k.
Proof.
  intros Hw H64 Hk Hks. destruct (gh_all_spec k (popcount set) Hk Hks H64) as [g [fuel [l [Hg [Hl [Hs Hin]]]]]].
  exists g, fuel, (map (fun x => pdep64 x set) l). split; [exact Hg|].
  split; [rewrite se_loop_map, Hl; reflexivity|]. split.
  - apply NoDup_map_inj; [|apply StronglySorted_lt_NoDup; exact Hs].
    intros x y Hx Hy. apply Hin in Hx, Hy. apply pdep_inj; tauto.
  - intros T. rewrite in_map_iff. split.
    + intros [x [<- Hx]]. apply Hin in Hx. split; [apply pdep_sub; exact Hw|].
      rewrite pdep_popcount by tauto. tauto.
    + intros [HT Hp]. destruct (pdep_surj T set Hw HT) as [src [Hsrc E]]. exists src. split; [exact E|].
      apply Hin. split; [|exact Hsrc]. rewrite <- Hp, <- E. symmetry. apply pdep_popcount; assumption.
Qed.
