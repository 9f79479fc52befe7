(** * The exhaustive enumerators are instances of phased dynamic programming. *)
From Coq Require Import NArith List Bool Lia Sorting.Sorted.
From Verif Require Import Word WordProofs Bitset BitsetProofs GraphSpec Graph GraphProofs ClosureProofs CSGProofs PlanSpec PlanEnum PlanProofs.
Import ListNotations.
Open Scope N_scope.
Arguments N.pow : simpl never.
Arguments N.testbit : simpl never.

(** ** Loops with enough fuel *)
Definition enough (f : nat) : Prop := (K0 <= f)%nat.
Lemma enough_le f x : enough f -> N.of_nat x <= 2 ^ 64 + 2 -> (x <= f)%nat.
Proof. unfold enough. pose proof K0_eq. lia. Qed.
Lemma enough_K0 : enough K0. Proof. unfold enough. constructor. Qed.

Lemma gh_loop_mono next f : forall g l, gh_loop next f g = Some l -> forall f', (f <= f')%nat -> gh_loop next f' g = Some l.
Proof.
  induction f as [|f IH]; intros g l H f' Hf; [discriminate|]. destruct f' as [|f']; [lia|]. cbn [gh_loop] in *.
  destruct (gh_set g <? gh_limit g); [|exact H]. destruct (gh_loop next f _) as [r|] eqn:E; [|discriminate].
  rewrite (IH _ _ E f') by lia. exact H.
Qed.
Lemma gh_loop_len next f : forall g l, gh_loop next f g = Some l -> gh_loop next (Datatypes.S (length l)) g = Some l.
Proof.
  induction f as [|f IH]; intros g l H; [discriminate|]. cbn [gh_loop] in H. cbn [gh_loop].
  destruct (gh_set g <? gh_limit g); [|exact H]. destruct (gh_loop next f _) as [r|] eqn:E; [|discriminate].
  cbn [option_map] in H. injection H as <-. cbn [length]. rewrite (IH _ _ E). reflexivity.
Qed.

Definition ksub (k n : N) : list N := match k_subsets gh_next_bmi2 K0 k n with Some l => l | None => [] end.
Lemma ksub_spec k n : 1 <= k -> k <= n -> n < 64 ->
  (forall f, enough f -> k_subsets gh_next_bmi2 f k n = Some (ksub k n)) /\
  (forall t, In t (ksub k n) <-> sbs_size t = k /\ t < 2 ^ n).
Proof.
  intros Hk Hkn Hn. destruct (gh_all_spec k n Hk Hkn Hn) as [g [fuel [l [E [H1 [H2 H3]]]]]].
  assert (HL : N.of_nat (length l) <= 2 ^ 64).
  { apply NoDup_bound; [apply StronglySorted_lt_NoDup; exact H2|]. intros x Hx. apply H3 in Hx.
    assert (2 ^ n <= 2 ^ 64) by (apply N.pow_le_mono_r; lia). lia. }
  assert (Hf : forall f, enough f -> k_subsets gh_next_bmi2 f k n = Some l).
  { intros f Hf. unfold k_subsets. rewrite E. apply gh_loop_mono with (Datatypes.S (length l)); [eapply gh_loop_len; exact H1|].
    apply enough_le; [exact Hf|lia]. }
  unfold ksub. rewrite (Hf K0 enough_K0). split; [exact Hf|exact H3].
Qed.
Definition ksub_after (s n : N) : list N := match k_subsets_after gh_next_bmi2 K0 s n with Some l => l | None => [] end.
Lemma ksub_after_spec s n : n < 64 -> s <> 0 -> s < 2 ^ n ->
  (forall f, enough f -> k_subsets_after gh_next_bmi2 f s n = Some (ksub_after s n)) /\
  (forall t, In t (ksub_after s n) <-> sbs_size t = sbs_size s /\ s < t /\ t < 2 ^ n).
Proof.
  intros Hn Hs Hlt.
  assert (E : gh_enumerate_from s n = Some {| gh_set := s; gh_limit := shl64 1 n |}).
  { unfold gh_enumerate_from. rewrite W64_shl1 by exact Hn. apply N.ltb_lt in Hn. rewrite Hn.
    apply N.lt_le_incl, N.leb_le in Hlt. rewrite Hlt. reflexivity. }
  assert (H63 : s < 2 ^ 63) by (assert (2 ^ n <= 2 ^ 63) by (apply N.pow_le_mono_r; lia); lia).
  destruct (gosper_next_props s Hs H63) as [G1 [G2 G3]].
  destruct (gh_loop_from (gh_next_bmi2 s) n Hn) as [fuel [l [H1 [H2 H3]]]]; [lia|].
  assert (HL : N.of_nat (length l) <= 2 ^ 64).
  { apply NoDup_bound; [apply StronglySorted_lt_NoDup; exact H2|]. intros x Hx. apply H3 in Hx.
    assert (2 ^ n <= 2 ^ 64) by (apply N.pow_le_mono_r; lia). lia. }
  assert (Hf : forall f, enough f -> k_subsets_after gh_next_bmi2 f s n = Some l).
  { intros f Hf. unfold k_subsets_after. rewrite E. cbn [gh_set gh_limit].
    apply gh_loop_mono with (Datatypes.S (length l)); [eapply gh_loop_len; exact H1|]. apply enough_le; [exact Hf|lia]. }
  unfold ksub_after. rewrite (Hf K0 enough_K0). split; [exact Hf|]. intros t. rewrite H3. unfold sbs_size.
  rewrite G2. split.
  - intros [A [B D]]. repeat split; try assumption. lia.
  - intros [A [B D]]. repeat split; try assumption. apply G3; assumption.
Qed.

Definition subs (S stop : N) : list N := match subset_loop K0 (least_subset S) S stop with Some l => l | None => [] end.
Lemma subs_spec S stop : W64 S -> Sub stop S -> stop <> 0 ->
  (forall f, enough f -> subset_loop f (least_subset S) S stop = Some (subs S stop)) /\
  (forall t, In t (subs S stop) <-> Sub t S /\ t <> 0 /\ t < stop).
Proof.
  intros HW Hs Hz. destruct (subset_loop_spec S stop HW Hs Hz) as [fuel [l [H1 [H2 H3]]]].
  assert (HL : N.of_nat (length l) <= 2 ^ 64).
  { apply NoDup_bound; [apply StronglySorted_lt_NoDup; exact H2|]. intros x Hx. apply H3 in Hx. apply (Sub_W64 x S); tauto. }
  assert (Hf : forall f, enough f -> subset_loop f (least_subset S) S stop = Some l).
  { intros f Hf. apply subset_loop_mono with (Datatypes.S (length l)); [eapply subset_loop_len; exact H1|]. apply enough_le; [exact Hf|lia]. }
  unfold subs. rewrite (Hf K0 enough_K0). split; [exact Hf|exact H3].
Qed.

(** ** Set algebra *)
Lemma split_compl a b : W64 a -> W64 b -> disjoint a b -> sbs_diff (sbs_union a b) a = b.
Proof.
  intros Ha Hb Hd. apply mem_ext. intros i. rewrite mem_diff by (try apply W64_union; assumption). rewrite mem_union. split.
  - intros [[H|H] H']; [contradiction|exact H].
  - intros H. split; [right; exact H|]. intros H'. exact (Hd i H' H).
Qed.
Lemma union_compl O S : W64 S -> Sub O S -> sbs_union O (sbs_diff S O) = S.
Proof.
  intros HS HO. assert (HW := Sub_W64 _ _ HO HS). apply mem_ext. intros i. rewrite mem_union, mem_diff by assumption. split.
  - intros [H|[H _]]; [apply HO; exact H|exact H].
  - intros H. destruct (mem_dec i O) as [H'|H']; [left; exact H'|right; split; assumption].
Qed.
Lemma disjoint_compl O S : W64 S -> Sub O S -> disjoint O (sbs_diff S O).
Proof.
  intros HS HO i H1 H2. assert (HW := Sub_W64 _ _ HO HS). apply mem_diff in H2; [|assumption|assumption]. tauto.
Qed.
Lemma Sub_diff O S : W64 S -> W64 O -> Sub (sbs_diff S O) S.
Proof. intros HS HO i H. apply mem_diff in H; tauto. Qed.
Lemma diff_nz O S : W64 S -> Sub O S -> O <> S -> sbs_diff S O <> 0.
Proof.
  intros HS HO Hne E. apply Hne. pose proof (union_compl O S HS HO) as H. rewrite E in H. unfold sbs_union in H.
  rewrite N.lor_0_r in H. exact H.
Qed.
Lemma diff_ne O S : W64 S -> Sub O S -> O <> 0 -> sbs_diff S O <> S.
Proof.
  intros HS HO Hz E. destruct (nonzero_mem O Hz) as [i Hi]. assert (Hi' : mem i (sbs_diff S O)) by (rewrite E; apply HO; exact Hi).
  apply mem_diff in Hi'; [tauto|exact HS|apply (Sub_W64 _ _ HO HS)].
Qed.
Lemma Sub_ones S n : Sub S (N.ones n) <-> S < 2 ^ n.
Proof.
  split.
  - intros H. apply lt_pow2_testbit. intros i Hi. destruct (N.testbit S i) eqn:E; [|reflexivity]. apply H in E.
    rewrite N.ones_spec_high in E by exact Hi. discriminate.
  - intros H i Hi. destruct (N.lt_ge_cases i n) as [L|L]; [apply N.ones_spec_low; exact L|].
    rewrite (testbit_high S n i H L) in Hi. discriminate.
Qed.
Lemma Sub_trans a b c : Sub a b -> Sub b c -> Sub a c.
Proof. intros H1 H2 i Hi. apply H2, H1, Hi. Qed.
Lemma Sub_union_l a b c : Sub (sbs_union a b) c -> Sub a c.
Proof. intros H i Hi. apply H. apply mem_union. left. exact Hi. Qed.
Lemma Sub_union_r a b c : Sub (sbs_union a b) c -> Sub b c.
Proof. intros H i Hi. apply H. apply mem_union. right. exact Hi. Qed.
Lemma union_Sub a b c : Sub a c -> Sub b c -> Sub (sbs_union a b) c.
Proof. intros H1 H2 i Hi. apply mem_union in Hi. destruct Hi; auto. Qed.
Lemma union_add a b : W64 a -> W64 b -> disjoint a b -> sbs_size (sbs_union a b) = sbs_size a + sbs_size b.
Proof.
  intros Ha Hb Hd. unfold sbs_size. apply popcount_lor; [exact Ha|exact Hb|].
  apply N.bits_inj. intros i. rewrite N.land_spec, N.bits_0. destruct (N.testbit a i) eqn:E1, (N.testbit b i) eqn:E2; try reflexivity.
  exfalso. exact (Hd i E1 E2).
Qed.

(** ** Connected sets are exactly those that have a plan. *)
Section Conn.
  Variables (n : N) (m : matrix).
  Hypothesis (HG : graph n m) (Hsym : symmetric m).
  Notation J := (adjacent m).

  Lemma adjacent_sym a b : J a b -> J b a.
  Proof. intros [x [y [H1 [H2 H3]]]]. exists y, x. split; [exact H2|]. split; [exact H1|]. apply Hsym. exact H3. Qed.

  Lemma connected_union a b : connected m a -> connected m b -> J a b -> connected m (sbs_union a b).
  Proof.
    intros Ha Hb [x [y [Hx [Hy He]]]].
    assert (Pa : forall i j, mem i a -> mem j a -> path m (fun z => mem z (sbs_union a b)) i j).
    { intros i j Hi Hj. apply path_mono with (V := fun z => mem z a); [intros z Hz; apply mem_union; left; exact Hz|]. apply Ha; assumption. }
    assert (Pb : forall i j, mem i b -> mem j b -> path m (fun z => mem z (sbs_union a b)) i j).
    { intros i j Hi Hj. apply path_mono with (V := fun z => mem z b); [intros z Hz; apply mem_union; right; exact Hz|]. apply Hb; assumption. }
    assert (Pab : path m (fun z => mem z (sbs_union a b)) x y).
    { apply path_step with x; [apply path_refl, mem_union; left; exact Hx|exact He|apply mem_union; right; exact Hy]. }
    assert (Pba : path m (fun z => mem z (sbs_union a b)) y x) by (apply path_sym; assumption).
    intros i j Hi Hj. apply mem_union in Hi. apply mem_union in Hj. destruct Hi as [Hi|Hi], Hj as [Hj|Hj].
    - apply Pa; assumption.
    - apply path_trans with x; [apply Pa; assumption|]. apply path_trans with y; [exact Pab|apply Pb; assumption].
    - apply path_trans with y; [apply Pb; assumption|]. apply path_trans with x; [exact Pba|apply Pa; assumption].
    - apply Pb; assumption.
  Qed.
  Lemma connected_single i : connected m (2 ^ i).
  Proof. intros a b Ha Hb. apply mem_pow2 in Ha. apply mem_pow2 in Hb. subst. apply path_refl. apply mem_pow2. reflexivity. Qed.

  Lemma ok_connected S : W64 S -> (ok J S <-> connected m S /\ S <> 0).
  Proof.
    intros HW. split.
    - intros [t [Hv <-]]. split; [|apply (jset_W64 J t Hv)]. clear HW. induction t as [i|l IHl r IHr]; cbn [jvalid jset] in *.
      + apply connected_single.
      + apply connected_union; tauto.
    - intros [Hc Hz].
      assert (Hgrow : forall k A, ok J A -> Sub A S -> popcount S <= popcount A + N.of_nat k -> ok J S).
      { induction k as [|k IH]; intros A HA HAS Hk.
        - destruct (N.eq_dec A S) as [->|Hne]; [exact HA|]. exfalso.
          destruct (nonzero_mem _ (diff_nz A S HW HAS Hne)) as [v Hv]. apply mem_diff in Hv; [|exact HW|apply (Sub_W64 _ _ HAS HW)].
          pose proof (popcount_strict A S v HW HAS (proj1 Hv) (proj2 Hv)). lia.
        - destruct (N.eq_dec A S) as [->|Hne]; [exact HA|].
          destruct (ok_W64 J A HA) as [HAW HAz].
          destruct (nonzero_mem _ (diff_nz A S HW HAS Hne)) as [v Hv]. apply mem_diff in Hv; [|exact HW|exact HAW].
          destruct (nonzero_mem _ HAz) as [u Hu].
          destruct (path_exit m (fun x => mem x A) _ (fun x => match mem_dec x A with left h => or_introl h | right h => or_intror h end)
                      u v (Hc u v (HAS u Hu) (proj1 Hv)) Hu (proj2 Hv)) as [a [b [E1 [E2 [E3 [E4 E5]]]]]].
          assert (Hb64 : b < 64) by (apply (mem_lt64 b S HW); exact E5).
          apply (IH (sbs_union A (2 ^ b))).
          + apply ok_join; [exact HA|exists (JLeaf b); split; [exact Hb64|reflexivity]| |].
            * intros i H1 H2. apply mem_pow2 in H2. subst i. contradiction.
            * exists a, b. split; [exact E1|]. split; [apply mem_pow2; reflexivity|exact E3].
          + apply union_Sub; [exact HAS|]. intros i Hi. apply mem_pow2 in Hi. subst i. exact E5.
          + assert (popcount A < popcount (sbs_union A (2 ^ b))).
            { apply popcount_strict with b; [apply W64_union; [exact HAW|apply pow_W64; exact Hb64]| | |exact E2].
              - intros i Hi. apply mem_union. left. exact Hi.
              - apply mem_union. right. apply mem_pow2. reflexivity. }
            lia. }
      destruct (nonzero_mem _ Hz) as [i Hi]. assert (Hi64 : i < 64) by (apply (mem_lt64 i S HW); exact Hi).
      apply (Hgrow (N.to_nat (popcount S)) (2 ^ i)).
      + exists (JLeaf i). split; [exact Hi64|reflexivity].
      + intros x Hx. apply mem_pow2 in Hx. subst x. exact Hi.
      + lia.
  Qed.

  Definition okb (S : N) : bool := match is_connected m S with Some b => b && negb (S =? 0) | None => false end.
  Lemma okb_spec S : W64 S -> (okb S = true <-> ok J S).
  Proof.
    intros HW. rewrite (ok_connected S HW). unfold okb. destruct (is_connected_spec n m S HG Hsym HW) as [b [-> Hb]].
    rewrite andb_true_iff, negb_true_iff, N.eqb_neq, Hb. reflexivity.
  Qed.
  Lemma connected_split S O : W64 S -> ok J S -> Sub O S -> O <> 0 -> O <> S -> J O (sbs_diff S O).
  Proof.
    intros HW HS HO Hz Hne. apply (ok_connected S HW) in HS. destruct HS as [Hc _].
    assert (HOW := Sub_W64 _ _ HO HW).
    destruct (nonzero_mem _ (diff_nz O S HW HO Hne)) as [v Hv]. apply mem_diff in Hv; [|exact HW|exact HOW].
    destruct (nonzero_mem _ Hz) as [u Hu].
    destruct (path_exit m (fun x => mem x O) _ (fun x => match mem_dec x O with left h => or_introl h | right h => or_intror h end)
                u v (Hc u v (HO u Hu) (proj1 Hv)) Hu (proj2 Hv)) as [a [b [E1 [E2 [E3 [E4 E5]]]]]].
    exists a, b. split; [exact E1|]. split; [apply mem_diff; tauto|exact E3].
  Qed.
End Conn.

(** ** Folds with guards *)
Section Guard.
  Context {C : Type}.
  Variables (lt : C -> C -> bool) (jc : N -> N -> C -> C -> C).
  Notation upd := (pt_update lt jc).
  Notation run := (foldM (fun PT p => upd PT (fst p) (snd p))).

  Lemma upd_other PT l r PT' : upd PT l r = Some PT' -> forall s, s <> sbs_union l r -> PT' s = PT s.
  Proof.
    unfold pt_update. destruct (sbs_empty l || sbs_empty r); [discriminate|].
    destruct (negb (has_plan PT (sbs_union l r)) && negb (has_plan PT l && has_plan PT r)); [discriminate|].
    destruct (lt _ _); cbv zeta iota; (destruct (_ || _); intros H; injection H as <-; intros s Hs;
      [apply N.eqb_neq in Hs; rewrite Hs|]; reflexivity).
  Qed.

  Lemma guarded_fold {A} (R : table C -> Prop) (body : table C -> A -> option (table C)) (g : A -> list (N * N)) l :
    (forall x PT, In x l -> R PT -> body PT x = run (g x) PT) ->
    (forall x p PT PT', In x l -> In p (g x) -> R PT -> upd PT (fst p) (snd p) = Some PT' -> R PT') ->
    forall PT, R PT -> foldM body l PT = run (flat_map g l) PT.
  Proof.
    induction l as [|x l IH]; intros H1 H2 PT HR; cbn [foldM flat_map]; [reflexivity|].
    rewrite foldM_app, (H1 x PT (or_introl eq_refl) HR).
    assert (Hstable : forall ps PT PT', (forall p, In p ps -> In p (g x)) -> R PT -> run ps PT = Some PT' -> R PT').
    { induction ps as [|p ps IHp]; cbn [foldM]; intros P P' Hin HP E; [injection E as <-; exact HP|].
      destruct (upd P (fst p) (snd p)) as [P1|] eqn:EU; [|discriminate].
      apply (IHp P1 P'); [intros q Hq; apply Hin; right; exact Hq| |exact E].
      apply (H2 x p P P1 (or_introl eq_refl) (Hin p (or_introl eq_refl)) HP EU). }
    destruct (run (g x) PT) as [PT1|] eqn:E; [|reflexivity].
    apply IH; [intros y Q Hy; apply H1; right; exact Hy|intros y p Q Q' Hy; apply (H2 y); right; exact Hy|].
    apply (Hstable (g x) PT PT1 (fun p H => H) HR E).
  Qed.

  Lemma ready_stable (J : N -> N -> Prop) (U : N) (key : N -> N) k p (PT PT' : table C) : key (un p) = k ->
    ready J U key k PT -> upd PT (fst p) (snd p) = Some PT' -> ready J U key k PT'.
  Proof.
    intros Hk HR E S HS Hz Hlt. rewrite <- (HR S HS Hz Hlt). unfold has_plan.
    rewrite (upd_other PT _ _ PT' E S); [reflexivity|]. intros ->. fold (un p) in Hlt. lia.
  Qed.
End Guard.
