(** * Optimality of PEall, DPsize, DPsizeOpt, DPsizeSub, DPsub and DPsubOpt. *)
From Coq Require Import NArith List Bool Lia Sorting.Sorted.
From Verif Require Import Word WordProofs Bitset BitsetProofs GraphSpec Graph GraphProofs ClosureProofs CSGProofs PlanSpec PlanEnum PlanProofs PlanInst.
Import ListNotations.
Open Scope N_scope.
Arguments N.pow : simpl never.
Arguments N.testbit : simpl never.

Section Algos.
  Context {C : Type}.
  Variables (lt : C -> C -> bool) (jc : N -> N -> C -> C -> C) (inf : C) (leaf : N -> C).
  Hypothesis HCM : cost_model lt jc.
  Variables (n : N) (m : matrix) (f : nat).
  Hypothesis (HG : graph n m) (Hsym : symmetric m) (Hn : n < 64) (Hf : enough f).
  Notation J := (adjacent m).
  Notation U := (N.ones n).
  Notation upd := (pt_update lt jc).
  Notation run := (foldM (fun PT p => upd PT (fst p) (snd p))).

  Lemma U_W64 : W64 U.
  Proof. unfold W64. rewrite N.ones_equiv. assert (2 ^ n < 2 ^ 64) by (apply N.pow_lt_mono_r; lia). lia. Qed.
  Lemma U_lt S : Sub S U <-> S < 2 ^ n. Proof. apply Sub_ones. Qed.
  Lemma SubU_W64 S : Sub S U -> W64 S. Proof. intros H. exact (Sub_W64 _ _ H U_W64). Qed.
  Lemma range_U : range 1 (shl64 1 n) = range 1 (2 ^ n).
  Proof. rewrite W64_shl1 by exact Hn. reflexivity. Qed.

  (** All strict subsets of [S] have plans iff they are plannable. *)
  Definition sready (S : N) (PT : table C) : Prop :=
    forall T, Sub T S -> T <> 0 -> T <> S -> (has_plan PT T = true <-> ok J T).
  Definition split_calls (l : list N) (S : N) : list (N * N) :=
    flat_map (fun O => if okb m O && okb m (sbs_diff S O) then [(O, sbs_diff S O)] else []) l.
  Lemma in_split_calls l S p : In p (split_calls l S) <->
    exists O, In O l /\ okb m O = true /\ okb m (sbs_diff S O) = true /\ p = (O, sbs_diff S O).
  Proof.
    unfold split_calls. rewrite in_flat_map. split; intros [O H]; exists O.
    - destruct H as [H1 H2]. destruct (okb m O), (okb m (sbs_diff S O)); cbn in H2; try contradiction.
      destruct H2 as [<-|[]]. tauto.
    - destruct H as [H1 [H2 [H3 ->]]]. split; [exact H1|]. rewrite H2, H3. left. reflexivity.
  Qed.
  Lemma split_fold S l PT : Sub S U -> ok J S -> (forall O, In O l -> Sub O S /\ O <> 0 /\ O <> S) -> sready S PT ->
    foldM (fun PT O => split_step lt jc m PT S O) l PT = run (split_calls l S) PT.
  Proof.
    intros HS Hok Hl HR. assert (HSW := SubU_W64 S HS).
    apply (guarded_fold lt jc (sready S) (fun PT O => split_step lt jc m PT S O)
      (fun O => if okb m O && okb m (sbs_diff S O) then [(O, sbs_diff S O)] else [])); [| |exact HR].
    - intros O P HO HP. destruct (Hl O HO) as [O1 [O2 O3]]. assert (HOW := Sub_W64 _ _ O1 HSW).
      assert (HCW : W64 (sbs_diff S O)) by (apply W64_diff; exact HSW).
      unfold split_step. cbv zeta.
      rewrite (proj2 (is_connected2_spec n m O (sbs_diff S O) HG Hsym HOW HCW) (connected_split m Hsym S O HSW Hok O1 O2 O3)).
      cbn [negb]. pose proof (HP O O1 O2 O3) as E1.
      pose proof (HP (sbs_diff S O) (Sub_diff O S HSW HOW) (diff_nz O S HSW O1 O3) (diff_ne O S HSW O1 O2)) as E2.
      rewrite <- (okb_spec n m HG Hsym O HOW) in E1. rewrite <- (okb_spec n m HG Hsym _ HCW) in E2.
      destruct (has_plan P O), (okb m O); try (exfalso; intuition congruence); cbn [negb andb]; [|reflexivity].
      destruct (has_plan P (sbs_diff S O)), (okb m (sbs_diff S O)); try (exfalso; intuition congruence); cbn [negb andb foldM fst snd]; [|reflexivity].
      destruct (upd P O (sbs_diff S O)); reflexivity.
    - intros O p P P' HO Hp HP E T HT1 HT2 HT3. rewrite <- (HP T HT1 HT2 HT3). unfold has_plan.
      rewrite (upd_other lt jc P _ _ P' E T); [reflexivity|].
      destruct (okb m O && okb m (sbs_diff S O)); [|destruct Hp]. destruct Hp as [<-|[]]. cbn [fst snd].
      rewrite union_compl by (try exact HSW; apply Hl; exact HO). exact HT3.
  Qed.

  Definition all_calls (S : N) : list (N * N) := if okb m S then split_calls (subs S S) S else [].
  Definition half (S : N) : list N := match sbs_hi S with Some h => subs S h | None => [] end.
  Definition half_calls (S : N) : list (N * N) := if okb m S then split_calls (half S) S else [].

  Lemma subs_full S : W64 S -> S <> 0 ->
    subset_loop f (least_subset S) S S = Some (subs S S) /\ (forall t, In t (subs S S) <-> Sub t S /\ t <> 0 /\ t <> S).
  Proof.
    intros HW Hz. destruct (subs_spec S S HW (Sub_refl S) Hz) as [H1 H2]. split; [apply H1; exact Hf|].
    intros t. rewrite H2. split; intros [A [B D]]; (split; [exact A|split; [exact B|]]).
    - intros ->. lia.
    - pose proof (Sub_le _ _ A). lia.
  Qed.
  Lemma half_spec S : W64 S -> S <> 0 -> exists h, sbs_hi S = Some h /\
    subset_loop f (least_subset S) S h = Some (half S) /\ (forall t, In t (half S) -> Sub t S /\ t <> 0 /\ t <> S) /\
    (forall t, Sub t S -> t <> 0 -> t <> S -> In t (half S) \/ In (sbs_diff S t) (half S)).
  Proof.
    intros HW Hz. destruct (hi_spec S HW Hz) as [k [Hk1 [Hk2 [Hk3 Hk4]]]]. exists (2 ^ k). split; [exact Hk4|].
    unfold half. rewrite Hk4.
    assert (Hsub : Sub (2 ^ k) S) by (intros j Hj; apply mem_pow2 in Hj; subst j; exact Hk1).
    assert (Hnz : 2 ^ k <> 0) by (pose proof (pow2_pos k); lia).
    destruct (subs_spec S (2 ^ k) HW Hsub Hnz) as [H1 H2]. split; [apply H1; exact Hf|]. split.
    - intros t Ht. apply H2 in Ht. destruct Ht as [A [B D]]. split; [exact A|]. split; [exact B|]. intros ->.
      pose proof (Sub_le _ _ Hsub). lia.
    - assert (Hlow : forall t, Sub t S -> ~ mem k t -> t < 2 ^ k).
      { intros t Ht Hk. apply lt_pow2_testbit. intros i Hi. destruct (N.testbit t i) eqn:E; [|reflexivity].
        pose proof (Hk2 i (Ht i E)). assert (i = k) by lia. subst i. contradiction. }
      intros t Ht Htz Hne. assert (HtW := Sub_W64 _ _ Ht HW). destruct (mem_dec k t) as [Hk|Hk].
      + right. apply H2. split; [apply Sub_diff; assumption|]. split; [apply diff_nz; assumption|].
        apply Hlow; [apply Sub_diff; assumption|]. intros Hc. apply mem_diff in Hc; tauto.
      + left. apply H2. split; [exact Ht|]. split; [exact Htz|]. apply Hlow; assumption.
  Qed.

  (** Calls of the split enumerations. *)
  Lemma split_call_facts l S p : Sub S U -> ok J S -> (forall t, In t l -> Sub t S /\ t <> 0 /\ t <> S) ->
    In p (split_calls l S) -> call_ok J U p /\ un p = S /\ Sub (fst p) S /\ Sub (snd p) S /\ fst p <> S /\ snd p <> S.
  Proof.
    intros HS Hok Hl Hp. apply in_split_calls in Hp. destruct Hp as [O [H1 [H2 [H3 ->]]]].
    destruct (Hl O H1) as [O1 [O2 O3]]. assert (HSW := SubU_W64 S HS). assert (HOW := Sub_W64 _ _ O1 HSW).
    apply (okb_spec n m HG Hsym) in H2; [|exact HOW]. apply (okb_spec n m HG Hsym) in H3; [|apply W64_diff; exact HSW].
    unfold call_ok, un. cbn [fst snd]. split.
    - split; [exact H2|]. split; [exact H3|]. split; [apply disjoint_compl; assumption|]. split; [apply connected_split; assumption|].
      split; [apply (Sub_trans _ _ _ O1 HS)|]. apply (Sub_trans _ S); [apply Sub_diff; assumption|exact HS].
    - split; [apply union_compl; assumption|]. split; [exact O1|]. split; [apply Sub_diff; assumption|]. split; [exact O3|].
      apply diff_ne; assumption.
  Qed.
  Lemma all_call_facts S p : Sub S U -> S <> 0 -> In p (all_calls S) ->
    call_ok J U p /\ un p = S /\ Sub (fst p) S /\ Sub (snd p) S /\ fst p <> S /\ snd p <> S.
  Proof.
    intros HS Hz. unfold all_calls. destruct (okb m S) eqn:E; [|intros []]. assert (HSW := SubU_W64 S HS).
    apply split_call_facts; [exact HS|apply (okb_spec n m HG Hsym S HSW); exact E|].
    intros t Ht. apply (subs_full S HSW Hz). exact Ht.
  Qed.
  Lemma half_call_facts S p : Sub S U -> S <> 0 -> In p (half_calls S) ->
    call_ok J U p /\ un p = S /\ Sub (fst p) S /\ Sub (snd p) S /\ fst p <> S /\ snd p <> S.
  Proof.
    intros HS Hz. unfold half_calls. destruct (okb m S) eqn:E; [|intros []]. assert (HSW := SubU_W64 S HS).
    apply split_call_facts; [exact HS|apply (okb_spec n m HG Hsym S HSW); exact E|].
    destruct (half_spec S HSW Hz) as [h [_ [_ [H _]]]]. exact H.
  Qed.
  Lemma ok_union_facts a b : ok J a -> ok J b -> disjoint a b -> J a b ->
    W64 a /\ W64 b /\ a <> 0 /\ b <> 0 /\ sbs_union a b <> 0 /\ okb m (sbs_union a b) = true /\ okb m a = true /\ okb m b = true /\
    sbs_diff (sbs_union a b) a = b /\ sbs_diff (sbs_union a b) b = a /\ Sub a (sbs_union a b) /\ Sub b (sbs_union a b) /\
    a <> sbs_union a b /\ b <> sbs_union a b.
  Proof.
    intros Ha Hb Hd HJ. destruct (ok_W64 J a Ha) as [A1 A2], (ok_W64 J b Hb) as [B1 B2].
    assert (HW : W64 (sbs_union a b)) by (apply W64_union; assumption).
    assert (Hd' : disjoint b a) by (intros i H1 H2; exact (Hd i H2 H1)).
    destruct (union_size a b A1 B1 A2 B2 Hd) as [S1 S2].
    split; [exact A1|]. split; [exact B1|]. split; [exact A2|]. split; [exact B2|].
    split; [intros E; apply N.lor_eq_0_l in E; contradiction|].
    split; [apply (okb_spec n m HG Hsym _ HW); apply ok_join; assumption|].
    split; [apply (okb_spec n m HG Hsym _ A1); exact Ha|]. split; [apply (okb_spec n m HG Hsym _ B1); exact Hb|].
    split; [apply split_compl; assumption|]. split.
    { replace (sbs_union a b) with (sbs_union b a) by apply N.lor_comm. apply split_compl; assumption. }
    split; [intros i Hi; apply mem_union; left; exact Hi|]. split; [intros i Hi; apply mem_union; right; exact Hi|].
    split; intros E; rewrite <- E in S1, S2; lia.
  Qed.
  Lemma all_calls_complete a b : ok J a -> ok J b -> disjoint a b -> J a b -> In (a, b) (all_calls (sbs_union a b)).
  Proof.
    intros Ha Hb Hd HJ. destruct (ok_union_facts a b Ha Hb Hd HJ) as [A1 [B1 [A2 [B2 [Uz [Uo [Ao [Bo [D1 [D2 [Sa [Sb [Na Nb]]]]]]]]]]]]].
    unfold all_calls. rewrite Uo. apply in_split_calls. exists a.
    split; [apply subs_full; [apply W64_union; assumption|exact Uz|tauto]|]. rewrite D1. tauto.
  Qed.
  Lemma half_calls_complete a b : ok J a -> ok J b -> disjoint a b -> J a b ->
    In (a, b) (half_calls (sbs_union a b)) \/ In (b, a) (half_calls (sbs_union a b)).
  Proof.
    intros Ha Hb Hd HJ. destruct (ok_union_facts a b Ha Hb Hd HJ) as [A1 [B1 [A2 [B2 [Uz [Uo [Ao [Bo [D1 [D2 [Sa [Sb [Na Nb]]]]]]]]]]]]].
    assert (HW : W64 (sbs_union a b)) by (apply W64_union; assumption).
    destruct (half_spec _ HW Uz) as [h [_ [_ [_ Hsp]]]]. unfold half_calls. rewrite Uo.
    destruct (Hsp a Sa A2 Na) as [H|H]; [left|right]; apply in_split_calls.
    - exists a. rewrite D1. tauto.
    - exists b. rewrite D1 in H. rewrite D2. tauto.
  Qed.

  (** The bodies. *)
  Lemma is_conn_okb S : W64 S -> S <> 0 -> is_connected m S = Some (okb m S).
  Proof.
    intros HSW Hz. destruct (is_connected_spec n m S HG Hsym HSW) as [b [Hb _]]. unfold okb. rewrite Hb.
    apply N.eqb_neq in Hz. rewrite Hz, andb_true_r. reflexivity.
  Qed.
  Lemma split_all_calls S PT : Sub S U -> S <> 0 -> sready S PT -> split_all lt jc m f PT S = run (all_calls S) PT.
  Proof.
    intros HS Hz HR. assert (HSW := SubU_W64 S HS). pose proof (okb_spec n m HG Hsym S HSW) as Hok.
    destruct (subs_full S HSW Hz) as [E Hin].
    unfold split_all. rewrite (is_conn_okb S HSW Hz), E. unfold all_calls.
    generalize dependent (subs S S). intros l E Hin.
    destruct (okb m S); [|reflexivity]. cbn [for_list].
    apply split_fold; [exact HS|apply Hok; reflexivity| |exact HR]. intros O HO. apply Hin. exact HO.
  Qed.
  Lemma split_half_calls S PT : Sub S U -> S <> 0 -> sready S PT -> split_half lt jc m f PT S = run (half_calls S) PT.
  Proof.
    intros HS Hz HR. assert (HSW := SubU_W64 S HS). pose proof (okb_spec n m HG Hsym S HSW) as Hok.
    destruct (half_spec S HSW Hz) as [h [E1 [E2 [Hin _]]]].
    unfold split_half. rewrite (is_conn_okb S HSW Hz), E1, E2. unfold half_calls.
    generalize dependent (half S). intros l E2 Hin.
    destruct (okb m S); [|reflexivity]. cbn [for_list].
    apply split_fold; [exact HS|apply Hok; reflexivity|exact Hin|exact HR].
  Qed.

  (** *** DPsub and DPsubOpt: one phase per set, in numeric order *)
  Lemma ready_sready_id S PT : Sub S U -> ready J U (fun s => s) S PT -> sready S PT.
  Proof.
    intros HS HR T HT Hz Hne. apply HR; [apply (Sub_trans _ _ _ HT HS)|exact Hz|]. pose proof (Sub_le _ _ HT). lia.
  Qed.
  Lemma id_phase S : In S (range 1 (2 ^ n)) -> Sub S U /\ S <> 0.
  Proof. intros H. apply in_range in H. split; [apply U_lt; lia|lia]. Qed.
  Lemma single_no_calls S p : call_ok J U p -> un p = S -> sbs_size S <> 1.
  Proof. intros Hp <-. apply (call_facts lt jc leaf HCM J (adjacent_sym m Hsym) U p Hp). Qed.

  Section IdPhase.
    Variables (calls : N -> list (N * N)) (body : table C -> N -> option (table C)).
    Hypothesis calls_facts : forall S p, Sub S U -> S <> 0 -> In p (calls S) ->
      call_ok J U p /\ un p = S /\ Sub (fst p) S /\ Sub (snd p) S /\ fst p <> S /\ snd p <> S.
    Hypothesis calls_compl : forall a b, ok J a -> ok J b -> disjoint a b -> J a b ->
      In (a, b) (calls (sbs_union a b)) \/ In (b, a) (calls (sbs_union a b)).
    Hypothesis body_eq : forall S PT, Sub S U -> S <> 0 -> sready S PT -> body PT S = run (calls S) PT.
    Lemma id_phase_optimal :
      exists PT, foldM (fun PT S => if sbs_size S =? 1 then Some PT else body PT S) (range 1 (shl64 1 n)) (pt_init inf leaf) = Some PT /\
        table_optimal lt jc leaf J U PT.
    Proof.
      rewrite range_U.
      destruct (phased_optimal lt jc inf leaf HCM J (adjacent_sym m Hsym) U U_W64 (fun s => s) (range 1 (2 ^ n)) (range_sorted _ _)
                  (fun S => if sbs_size S =? 1 then [] else calls S)) with (body := fun PT S => if sbs_size S =? 1 then Some PT else body PT S)
        as [PT [R1 [_ R2]]].
      - intros k p Hk Hp. destruct (id_phase k Hk) as [K1 K2]. destruct (sbs_size k =? 1); [destruct Hp|].
        destruct (calls_facts k p K1 K2 Hp) as [F1 [F2 [F3 [F4 [F5 F6]]]]]. split; [exact F1|]. split; [exact F2|].
        pose proof (Sub_le _ _ F3). pose proof (Sub_le _ _ F4). lia.
      - intros a b Ha Hb Hd HJ HS.
        destruct (ok_union_facts a b Ha Hb Hd HJ) as [A1 [B1 [A2 [B2 [Uz _]]]]].
        split; [apply in_range; apply U_lt in HS; lia|].
        destruct (union_size a b A1 B1 A2 B2 Hd) as [S1 _]. pose proof (size_pos a A2).
        destruct (N.eqb_spec (sbs_size (sbs_union a b)) 1) as [E|_]; [lia|]. apply calls_compl; assumption.
      - intros k PT Hk HR. destruct (id_phase k Hk) as [K1 K2]. destruct (sbs_size k =? 1); [reflexivity|].
        apply body_eq; [exact K1|exact K2|]. apply ready_sready_id; assumption.
      - exists PT. split; assumption.
    Qed.
  End IdPhase.

  Theorem dpsub_optimal : exists PT, dpsub lt jc m f n (pt_init inf leaf) = Some PT /\ table_optimal lt jc leaf J U PT.
  Proof.
    apply (id_phase_optimal all_calls (split_all lt jc m f)); [exact all_call_facts| |exact split_all_calls].
    intros a b H1 H2 H3 H4. left. apply all_calls_complete; assumption.
  Qed.
  Theorem dpsubopt_optimal : exists PT, dpsubopt lt jc m f n (pt_init inf leaf) = Some PT /\ table_optimal lt jc leaf J U PT.
  Proof.
    apply (id_phase_optimal half_calls (split_half lt jc m f)); [exact half_call_facts|exact half_calls_complete|exact split_half_calls].
  Qed.

  (** *** DPsizeSub, DPsize, DPsizeOpt: one phase per size *)
  Lemma ready_sready_size S PT : Sub S U -> ready J U sbs_size (sbs_size S) PT -> sready S PT.
  Proof.
    intros HS HR T HT Hz Hne. apply HR; [apply (Sub_trans _ _ _ HT HS)|exact Hz|].
    assert (HSW := SubU_W64 S HS). destruct (nonzero_mem _ (diff_nz T S HSW HT Hne)) as [v Hv].
    apply mem_diff in Hv; [|exact HSW|apply (Sub_W64 _ _ HT HSW)]. apply popcount_strict with v; tauto.
  Qed.
  Lemma size_le_n S : Sub S U -> sbs_size S <= n.
  Proof.
    intros HS. assert (H := popcount_mono S U U_W64 HS). rewrite popcount_ones in H. exact H.
  Qed.
  Lemma in_ksub s S : 1 <= s -> s <= n -> (In S (ksub s n) <-> sbs_size S = s /\ Sub S U).
  Proof. intros H1 H2. rewrite (proj2 (ksub_spec s n H1 H2 Hn)), U_lt. reflexivity. Qed.
  Lemma size_nz S s : sbs_size S = s -> 1 <= s -> S <> 0.
  Proof. intros H1 H2 ->. change (sbs_size 0) with 0 in H1. lia. Qed.

  Section SizePhase.
    Variables (calls : N -> list (N * N)) (body : table C -> N -> option (table C)).
    Hypothesis calls_facts : forall s p, 2 <= s -> s <= n -> In p (calls s) -> call_ok J U p /\ sbs_size (un p) = s.
    Hypothesis calls_compl : forall a b, ok J a -> ok J b -> disjoint a b -> J a b -> Sub (sbs_union a b) U ->
      In (a, b) (calls (sbs_size (sbs_union a b))) \/ In (b, a) (calls (sbs_size (sbs_union a b))).
    Hypothesis body_eq : forall s PT, 2 <= s -> s <= n -> ready J U sbs_size s PT -> body PT s = run (calls s) PT.
    Lemma size_phase_optimal :
      exists PT, foldM body (range 2 (n + 1)) (pt_init inf leaf) = Some PT /\ table_optimal lt jc leaf J U PT.
    Proof.
      destruct (phased_optimal lt jc inf leaf HCM J (adjacent_sym m Hsym) U U_W64 sbs_size (range 2 (n + 1)) (range_sorted _ _) calls) with (body := body)
        as [PT [R1 [_ R2]]].
      - intros k p Hk Hp. apply in_range in Hk. destruct (calls_facts k p ltac:(lia) ltac:(lia) Hp) as [F1 F2].
        destruct (call_facts lt jc leaf HCM J (adjacent_sym m Hsym) U p F1) as [G1 [G2 [G3 [G4 [G5 [G6 [G7 _]]]]]]]. rewrite F2 in G6, G7. tauto.
      - intros a b Ha Hb Hd HJ HS. destruct (ok_union_facts a b Ha Hb Hd HJ) as [A1 [B1 [A2 [B2 [Uz _]]]]].
        destruct (union_size a b A1 B1 A2 B2 Hd) as [S1 _]. pose proof (size_pos a A2). pose proof (size_le_n _ HS).
        split; [apply in_range; lia|]. apply calls_compl; assumption.
      - intros k PT Hk HR. apply in_range in Hk. apply body_eq; [lia|lia|exact HR].
      - exists PT. split; assumption.
    Qed.
  End SizePhase.

  Theorem dpsizesub_optimal :
    exists PT, dpsizesub lt jc gh_next_bmi2 m f n (pt_init inf leaf) = Some PT /\ table_optimal lt jc leaf J U PT.
  Proof.
    apply (size_phase_optimal (fun s => flat_map all_calls (ksub s n)) (fun PT s => for_list (k_subsets gh_next_bmi2 f s n) (split_all lt jc m f) PT)).
    - intros s p H1 H2 Hp. apply in_flat_map in Hp. destruct Hp as [S [HS Hp]]. apply in_ksub in HS; [|lia|lia].
      destruct (all_call_facts S p (proj2 HS) (size_nz S s (proj1 HS) ltac:(lia)) Hp) as [F1 [F2 _]].
      split; [exact F1|]. rewrite F2. tauto.
    - intros a b Ha Hb Hd HJ HS. left. destruct (ok_union_facts a b Ha Hb Hd HJ) as [A1 [B1 [A2 [B2 [Uz _]]]]].
      destruct (union_size a b A1 B1 A2 B2 Hd) as [S1 _]. pose proof (size_pos a A2). pose proof (size_le_n _ HS).
      apply in_flat_map. exists (sbs_union a b). split; [apply in_ksub; [lia|lia|tauto]|]. apply all_calls_complete; assumption.
    - intros s PT H1 H2 HR. rewrite (proj1 (ksub_spec s n ltac:(lia) H2 Hn) f Hf). cbn [for_list].
      apply (guarded_fold lt jc (ready J U sbs_size s)); [| |exact HR].
      + intros S P HS HP. apply in_ksub in HS; [|lia|lia]. destruct HS as [HS1 HS2].
        apply split_all_calls; [exact HS2|apply (size_nz S s HS1); lia|]. apply ready_sready_size; [exact HS2|]. rewrite HS1. exact HP.
      + intros S p P P' HS Hp HP E. apply in_ksub in HS; [|lia|lia]. destruct HS as [HS1 HS2].
        destruct (all_call_facts S p HS2 (size_nz S s HS1 ltac:(lia)) Hp) as [F1 [F2 _]].
        apply (ready_stable lt jc J U sbs_size s p P P'); [rewrite F2; exact HS1|exact HP|exact E].
  Qed.

  (** The inner loops of DPsize/DPsizeOpt over a list [l2 S1] of candidates. *)
  Definition pair_ok (S1 S2 : N) : bool :=
    if okb m S2 then if sbs_empty (sbs_inter S1 S2) then is_connected2 m S1 S2 else false else false.
  Lemma pair_ok_iff S1 S2 : pair_ok S1 S2 = true <-> okb m S2 = true /\ sbs_empty (sbs_inter S1 S2) = true /\ is_connected2 m S1 S2 = true.
  Proof.
    unfold pair_ok. destruct (okb m S2), (sbs_empty (sbs_inter S1 S2)), (is_connected2 m S1 S2); intuition congruence.
  Qed.
  Definition pair_calls (l2 : N -> list N) (S1 : N) : list (N * N) :=
    if okb m S1 then flat_map (fun S2 => if pair_ok S1 S2 then [(S1, S2)] else []) (l2 S1) else [].
  Lemma in_pair_calls l2 S1 p : In p (pair_calls l2 S1) <->
    exists S2, okb m S1 = true /\ In S2 (l2 S1) /\ pair_ok S1 S2 = true /\ p = (S1, S2).
  Proof.
    unfold pair_calls. destruct (okb m S1); [|split; [intros []|intros [? [? _]]; discriminate]]. rewrite in_flat_map. split.
    - intros [S2 [H1 H2]]. exists S2. destruct (pair_ok S1 S2); [|destruct H2]. destruct H2 as [<-|[]]. tauto.
    - intros [S2 [_ [H1 [H2 ->]]]]. exists S2. rewrite H2. split; [exact H1|left; reflexivity].
  Qed.
  Lemma pair_call_facts s s1 l2 S1 p : 1 <= s1 -> s1 < s -> s <= n -> sbs_size S1 = s1 -> Sub S1 U ->
    (forall S2, In S2 (l2 S1) -> sbs_size S2 = s - s1 /\ Sub S2 U) -> In p (pair_calls l2 S1) -> call_ok J U p /\ sbs_size (un p) = s.
  Proof.
    intros K1 K2 K3 E1 HS1 H2 Hp. apply in_pair_calls in Hp. destruct Hp as [S2 [P1 [P2 [P3 ->]]]].
    destruct (H2 S2 P2) as [E2 HS2]. apply pair_ok_iff in P3. destruct P3 as [P3 [P4 P5]].
    assert (W1 := SubU_W64 _ HS1). assert (W2 := SubU_W64 _ HS2).
    assert (Hd : disjoint S1 S2).
    { intros i I1 I2. apply (proj1 (empty_mem _) P4 i). apply mem_inter. tauto. }
    split.
    - split; [apply (okb_spec n m HG Hsym _ W1); exact P1|]. split; [apply (okb_spec n m HG Hsym _ W2); exact P3|].
      split; [exact Hd|]. split; [apply (is_connected2_spec n m S1 S2 HG Hsym W1 W2); exact P5|]. split; [exact HS1|exact HS2].
    - unfold un. cbn [fst snd]. rewrite union_add by assumption. clear - E1 E2 K1 K2. abstract lia.
  Qed.
  Lemma pair_body s s1 l2 S1 PT : 1 <= s1 -> s1 < s -> s <= n -> sbs_size S1 = s1 -> Sub S1 U ->
    (forall S2, In S2 (l2 S1) -> sbs_size S2 = s - s1 /\ Sub S2 U) -> ready J U sbs_size s PT ->
    (if negb (has_plan PT S1) then Some PT else foldM (fun PT S2 => dpsize_pair lt jc m PT S1 S2) (l2 S1) PT) = run (pair_calls l2 S1) PT.
  Proof.
    intros K1 K2 K3 E1 HS1 H2 HR. assert (W1 := SubU_W64 _ HS1).
    assert (HR1 := HR S1 HS1 (size_nz S1 s1 E1 K1) ltac:(lia)). rewrite <- (okb_spec n m HG Hsym _ W1) in HR1.
    unfold pair_calls. destruct (has_plan PT S1), (okb m S1) eqn:Eo; try (exfalso; intuition congruence); cbn [negb]; [|reflexivity].
    apply (guarded_fold lt jc (ready J U sbs_size s)); [| |exact HR].
    - intros S2 P HS2 HP. destruct (H2 S2 HS2) as [F1 F2]. assert (W2 := SubU_W64 _ F2). unfold dpsize_pair, pair_ok.
      assert (HR2 := HP S2 F2 (size_nz S2 (s - s1) F1 ltac:(lia)) ltac:(lia)). rewrite <- (okb_spec n m HG Hsym _ W2) in HR2.
      destruct (has_plan P S2), (okb m S2); try (exfalso; intuition congruence); cbn [negb andb]; [|reflexivity].
      destruct (sbs_empty (sbs_inter S1 S2)); cbn [negb andb]; [|reflexivity].
      destruct (is_connected2 m S1 S2); cbn [negb foldM fst snd]; [|reflexivity]. destruct (upd P S1 S2); reflexivity.
    - intros S2 p P P' HS2 Hp HP E. apply (ready_stable lt jc J U sbs_size s p P P'); [|exact HP|exact E].
      apply (pair_call_facts s s1 l2 S1 p K1 K2 K3 E1 HS1 H2). apply in_pair_calls. exists S2.
      destruct (pair_ok S1 S2) eqn:Ep; [|destruct Hp]. destruct Hp as [<-|[]]. tauto.
  Qed.

  (** A phase consisting of one sub-phase per [s1], each iterating over all sets of that size. *)
  Section PairPhase.
    Variables (lo : N -> list N) (l2 : N -> N -> N -> list N) (inner : N -> N -> table C -> option (table C)).
    Hypothesis lo_spec : forall s s1, In s1 (lo s) -> 1 <= s1 < s.
    Hypothesis l2_spec : forall s s1 S1 S2, 2 <= s -> s <= n -> In s1 (lo s) -> In S1 (ksub s1 n) -> In S2 (l2 s s1 S1) ->
      sbs_size S2 = s - s1 /\ Sub S2 U.
    Hypothesis inner_eq : forall s s1 PT, 2 <= s -> s <= n -> In s1 (lo s) ->
      inner s s1 PT = foldM (fun PT S1 => if negb (has_plan PT S1) then Some PT else
                               foldM (fun PT S2 => dpsize_pair lt jc m PT S1 S2) (l2 s s1 S1) PT) (ksub s1 n) PT.
    Hypothesis l2_complete : forall a b, Sub a U -> Sub b U -> a <> 0 -> b <> 0 -> disjoint a b -> sbs_size a + sbs_size b <= n ->
      exists x y, ((x = a /\ y = b) \/ (x = b /\ y = a)) /\ In (sbs_size x) (lo (sbs_size a + sbs_size b)) /\
        In y (l2 (sbs_size a + sbs_size b) (sbs_size x) x).
    Lemma pair_phase_optimal :
      exists PT, foldM (fun PT s => foldM (fun PT s1 => inner s s1 PT) (lo s) PT) (range 2 (n + 1)) (pt_init inf leaf) = Some PT /\
        table_optimal lt jc leaf J U PT.
    Proof.
      apply (size_phase_optimal (fun s => flat_map (fun s1 => flat_map (pair_calls (l2 s s1)) (ksub s1 n)) (lo s))).
      - intros s p H1 H2 Hp. apply in_flat_map in Hp. destruct Hp as [s1 [Hs1 Hp]]. apply in_flat_map in Hp. destruct Hp as [S1 [HS1 Hp]].
        destruct (lo_spec s s1 Hs1) as [L1 L2]. pose proof HS1 as HS1'. apply in_ksub in HS1; [|lia|lia].
        apply (pair_call_facts s s1 (l2 s s1) S1 p); try tauto. intros S2 HS2. apply (l2_spec s s1 S1 S2); assumption.
      - intros a b Ha Hb Hd HJ HS. destruct (ok_union_facts a b Ha Hb Hd HJ) as [A1 [B1 [A2 [B2 [Uz [_ [Oa [Ob _]]]]]]]].
        pose proof (size_le_n _ HS) as Hle. rewrite union_add in * by assumption.
        destruct (l2_complete a b (Sub_union_l _ _ _ HS) (Sub_union_r _ _ _ HS) A2 B2 Hd Hle) as [x [y [Hxy [H1 H2]]]].
        assert (Hin : In (x, y) (flat_map (fun s1 => flat_map (pair_calls (l2 (sbs_size a + sbs_size b) s1)) (ksub s1 n)) (lo (sbs_size a + sbs_size b)))).
        { apply in_flat_map. exists (sbs_size x). split; [exact H1|]. apply in_flat_map. exists x.
          destruct (lo_spec _ _ H1) as [L1 L2].
          assert (HxU : Sub x U) by (destruct Hxy as [[-> ->]|[-> ->]]; [exact (Sub_union_l _ _ _ HS)|exact (Sub_union_r _ _ _ HS)]).
          split; [apply in_ksub; [lia|lia|tauto]|]. apply in_pair_calls. exists y.
          split; [destruct Hxy as [[-> ->]|[-> ->]]; assumption|]. split; [exact H2|]. split; [|reflexivity].
          apply pair_ok_iff. split; [|split].
          - destruct Hxy as [[-> ->]|[-> ->]]; assumption.
          - apply empty_mem. intros i Hi. apply mem_inter in Hi. destruct Hxy as [[-> ->]|[-> ->]]; apply (Hd i); tauto.
          - destruct Hxy as [[-> ->]|[-> ->]]; apply (is_connected2_spec n m _ _ HG Hsym); try assumption. apply adjacent_sym; assumption. }
        destruct Hxy as [[-> ->]|[-> ->]]; [left|right]; exact Hin.
      - intros s PT H1 H2 HR. apply (guarded_fold lt jc (ready J U sbs_size s)); [| |exact HR].
        + intros s1 P Hs1 HP. destruct (lo_spec s s1 Hs1) as [L1 L2]. rewrite inner_eq by assumption.
          apply (guarded_fold lt jc (ready J U sbs_size s)); [| |exact HP].
          * intros S1 P1 HS1 HP1. pose proof HS1 as HS1'. apply in_ksub in HS1; [|lia|lia].
            apply (pair_body s s1); try tauto. intros S2 HS2. apply (l2_spec s s1 S1 S2); assumption.
          * intros S1 p P1 P1' HS1 Hp HP1 E. pose proof HS1 as HS1'. apply in_ksub in HS1; [|lia|lia].
            apply (ready_stable lt jc J U sbs_size s p P1 P1'); [|exact HP1|exact E].
            apply (pair_call_facts s s1 (l2 s s1) S1 p); try tauto. intros S2 HS2. apply (l2_spec s s1 S1 S2); assumption.
        + intros s1 p P P' Hs1 Hp HP E. destruct (lo_spec s s1 Hs1) as [L1 L2]. apply in_flat_map in Hp. destruct Hp as [S1 [HS1 Hp]].
          pose proof HS1 as HS1'. apply in_ksub in HS1; [|lia|lia].
          apply (ready_stable lt jc J U sbs_size s p P P'); [|exact HP|exact E].
          apply (pair_call_facts s s1 (l2 s s1) S1 p); try tauto. intros S2 HS2. apply (l2_spec s s1 S1 S2); assumption.
    Qed.
  End PairPhase.

  Theorem dpsize_optimal :
    exists PT, dpsize lt jc gh_next_bmi2 m f n (pt_init inf leaf) = Some PT /\ table_optimal lt jc leaf J U PT.
  Proof.
    apply (pair_phase_optimal (range 1) (fun s s1 _ => ksub (s - s1) n) (fun s s1 PT => dpsize_inner lt jc gh_next_bmi2 m f n s s1 PT)).
    - intros s s1 H. apply in_range in H. lia.
    - intros s s1 S1 S2 H1 H2 H3 _ H4. apply in_range in H3. apply in_ksub in H4; [exact H4|lia|lia].
    - intros s s1 PT H1 H2 H3. apply in_range in H3. unfold dpsize_inner.
      rewrite (proj1 (ksub_spec s1 n ltac:(lia) ltac:(lia) Hn) f Hf), (proj1 (ksub_spec (s - s1) n ltac:(lia) ltac:(lia) Hn) f Hf). reflexivity.
    - intros a b Ha Hb Haz Hbz Hd Hle. pose proof (size_pos a Haz). pose proof (size_pos b Hbz). exists a, b. split; [tauto|].
      split; [apply in_range; lia|]. apply in_ksub; [lia|lia|]. split; [lia|exact Hb].
  Qed.
  Theorem dpsizeopt_optimal :
    exists PT, dpsizeopt lt jc gh_next_bmi2 m f n (pt_init inf leaf) = Some PT /\ table_optimal lt jc leaf J U PT.
  Proof.
    apply (pair_phase_optimal (fun s => range 1 (s / 2 + 1)) (fun s s1 S1 => if s1 =? s - s1 then ksub_after S1 n else ksub (s - s1) n)
             (fun s s1 PT => dpsizeopt_inner lt jc gh_next_bmi2 m f n s s1 PT)).
    - intros s s1 H. apply in_range in H. assert (2 * (s / 2) <= s) by (apply N.mul_div_le; lia). lia.
    - intros s s1 S1 S2 H1 H2 H3 HS1 H4. apply in_range in H3. assert (2 * (s / 2) <= s) by (apply N.mul_div_le; lia).
      apply in_ksub in HS1; [|lia|lia]. destruct (N.eqb_spec s1 (s - s1)) as [E|E].
      + apply ksub_after_spec in H4; [|exact Hn|apply (size_nz S1 s1); [tauto|lia]|apply U_lt; tauto].
        split; [lia|]. apply U_lt. tauto.
      + apply in_ksub in H4; [exact H4|lia|lia].
    - intros s s1 PT H1 H2 H3. apply in_range in H3. assert (2 * (s / 2) <= s) by (apply N.mul_div_le; lia).
      unfold dpsizeopt_inner. cbv zeta. rewrite !(proj1 (ksub_spec s1 n ltac:(lia) ltac:(lia) Hn) f Hf).
      destruct (N.eqb_spec s1 (s - s1)) as [E|E]; cbn [for_list].
      + apply foldM_ext. intros P S1 HS1. apply in_ksub in HS1; [|lia|lia].
        rewrite (proj1 (ksub_after_spec S1 n Hn (size_nz S1 s1 (proj1 HS1) ltac:(lia)) (proj1 (U_lt S1) (proj2 HS1))) f Hf). reflexivity.
      + rewrite (proj1 (ksub_spec (s - s1) n ltac:(lia) ltac:(lia) Hn) f Hf). reflexivity.
    - intros a b Ha Hb Haz Hbz Hd Hle. pose proof (size_pos a Haz). pose proof (size_pos b Hbz).
      assert (Hdiv : forall x y, x <= y -> x < (x + y) / 2 + 1).
      { intros x y Hxy. assert (x <= (x + y) / 2) by (apply N.div_le_lower_bound; lia). lia. }
      assert (Hab : a <> b).
      { intros ->. destruct (nonzero_mem b Hbz) as [i Hi]. exact (Hd i Hi Hi). }
      destruct (N.lt_trichotomy (sbs_size a) (sbs_size b)) as [L|[L|L]].
      + exists a, b. split; [tauto|]. split; [apply in_range; pose proof (Hdiv (sbs_size a) (sbs_size b)); lia|].
        destruct (N.eqb_spec (sbs_size a) (sbs_size a + sbs_size b - sbs_size a)) as [E|E]; [lia|].
        apply in_ksub; [lia|lia|]. split; [lia|exact Hb].
      + destruct (N.lt_trichotomy a b) as [M|[M|M]]; [|contradiction|].
        * exists a, b. split; [tauto|]. split; [apply in_range; pose proof (Hdiv (sbs_size a) (sbs_size b)); lia|].
          destruct (N.eqb_spec (sbs_size a) (sbs_size a + sbs_size b - sbs_size a)) as [E|E]; [|lia].
          apply ksub_after_spec; [exact Hn|exact Haz|apply U_lt; exact Ha|]. split; [lia|]. split; [exact M|apply U_lt; exact Hb].
        * exists b, a. split; [tauto|]. split; [apply in_range; pose proof (Hdiv (sbs_size b) (sbs_size a)); replace (sbs_size a + sbs_size b) with (sbs_size b + sbs_size a) by lia; lia|].
          destruct (N.eqb_spec (sbs_size b) (sbs_size a + sbs_size b - sbs_size b)) as [E|E]; [|lia].
          apply ksub_after_spec; [exact Hn|exact Hbz|apply U_lt; exact Hb|]. split; [lia|]. split; [exact M|apply U_lt; exact Ha].
      + exists b, a. split; [tauto|]. split; [apply in_range; pose proof (Hdiv (sbs_size b) (sbs_size a)); replace (sbs_size a + sbs_size b) with (sbs_size b + sbs_size a) by lia; lia|].
        destruct (N.eqb_spec (sbs_size b) (sbs_size a + sbs_size b - sbs_size b)) as [E|E]; [lia|].
        apply in_ksub; [lia|lia|]. split; [lia|exact Ha].
  Qed.

  (** *** PEall: cross products are admitted *)
  Notation T := (fun _ _ : N => True).
  Lemma ok_all S : W64 S -> (ok T S <-> S <> 0).
  Proof.
    intros HW. split; [intros H; apply (ok_W64 T S H)|]. intros Hz.
    assert (Hgrow : forall k A, ok T A -> Sub A S -> popcount S <= popcount A + N.of_nat k -> ok T S).
    { induction k as [|k IH]; intros A HA HAS Hk.
      - destruct (N.eq_dec A S) as [->|Hne]; [exact HA|]. exfalso.
        destruct (nonzero_mem _ (diff_nz A S HW HAS Hne)) as [v Hv]. apply mem_diff in Hv; [|exact HW|apply (Sub_W64 _ _ HAS HW)].
        pose proof (popcount_strict A S v HW HAS (proj1 Hv) (proj2 Hv)). lia.
      - destruct (N.eq_dec A S) as [->|Hne]; [exact HA|]. destruct (ok_W64 T A HA) as [HAW HAz].
        destruct (nonzero_mem _ (diff_nz A S HW HAS Hne)) as [b Hv]. apply mem_diff in Hv; [|exact HW|exact HAW]. destruct Hv as [E5 E2].
        assert (Hb64 : b < 64) by (apply (mem_lt64 b S HW); exact E5).
        apply (IH (sbs_union A (2 ^ b))).
        + apply ok_join; [exact HA|exists (JLeaf b); split; [exact Hb64|reflexivity]| |exact I].
          intros i H1 H2. apply mem_pow2 in H2. subst i. contradiction.
        + apply union_Sub; [exact HAS|]. intros i Hi. apply mem_pow2 in Hi. subst i. exact E5.
        + assert (popcount A < popcount (sbs_union A (2 ^ b))).
          { apply popcount_strict with b; [apply W64_union; [exact HAW|apply pow_W64; exact Hb64]| | |exact E2].
            - intros i Hi. apply mem_union. left. exact Hi.
            - apply mem_union. right. apply mem_pow2. reflexivity. }
          lia. }
    destruct (nonzero_mem _ Hz) as [i Hi]. assert (Hi64 : i < 64) by (apply (mem_lt64 i S HW); exact Hi).
    apply (Hgrow (N.to_nat (popcount S)) (2 ^ i)).
    + exists (JLeaf i). split; [exact Hi64|reflexivity].
    + intros x Hx. apply mem_pow2 in Hx. subst x. exact Hi.
    + lia.
  Qed.
  Definition cross_calls (S : N) : list (N * N) := if sbs_size S =? 1 then [] else flat_map (fun O => [(O, sbs_diff S O)]) (half S).

  Theorem pe_all_optimal : exists PT, pe_all lt jc f n (pt_init inf leaf) = Some PT /\ table_optimal lt jc leaf T U PT.
  Proof.
    unfold pe_all. rewrite range_U.
    assert (Hcf : forall S p, Sub S U -> S <> 0 -> In p (cross_calls S) ->
      exists O, In O (half S) /\ p = (O, sbs_diff S O) /\ call_ok T U p /\ un p = S /\ fst p < S /\ snd p < S).
    { intros S p HS Hz Hp. unfold cross_calls in Hp. destruct (sbs_size S =? 1); [destruct Hp|].
      apply in_flat_map in Hp. destruct Hp as [O [HO Hp]]. destruct Hp as [<-|[]]. exists O. split; [exact HO|]. split; [reflexivity|].
      assert (HSW := SubU_W64 S HS). destruct (half_spec S HSW Hz) as [h [_ [_ [Hin _]]]]. destruct (Hin O HO) as [O1 [O2 O3]].
      assert (HOW := Sub_W64 _ _ O1 HSW). unfold call_ok, un. cbn [fst snd].
      assert (D1 := Sub_diff O S HSW HOW). assert (D2 := diff_nz O S HSW O1 O3). assert (D3 := diff_ne O S HSW O1 O2).
      split; [|split; [apply union_compl; assumption|pose proof (Sub_le _ _ O1); pose proof (Sub_le _ _ D1); lia]].
      split; [apply ok_all; assumption|]. split; [apply ok_all; [apply W64_diff; exact HSW|exact D2]|].
      split; [apply disjoint_compl; assumption|]. split; [exact I|]. split; [apply (Sub_trans _ _ _ O1 HS)|apply (Sub_trans _ _ _ D1 HS)]. }
    destruct (phased_optimal lt jc inf leaf HCM T (fun _ _ H => H) U U_W64 (fun s => s) (range 1 (2 ^ n)) (range_sorted _ _) cross_calls) with (body := pe_all_step lt jc f)
      as [PT [R1 [_ R2]]].
    - intros k p Hk Hp. destruct (id_phase k Hk) as [K1 K2]. destruct (Hcf k p K1 K2 Hp) as [O [_ [_ [F1 [F2 F3]]]]]. tauto.
    - intros a b Ha Hb Hd _ HS. destruct (ok_W64 T a Ha) as [A1 A2], (ok_W64 T b Hb) as [B1 B2].
      assert (HW : W64 (sbs_union a b)) by (apply W64_union; assumption).
      assert (Hd' : disjoint b a) by (intros i H1 H2; exact (Hd i H2 H1)).
      destruct (union_size a b A1 B1 A2 B2 Hd) as [S1 S2]. pose proof (size_pos a A2).
      assert (Uz : sbs_union a b <> 0) by (intros E; apply N.lor_eq_0_l in E; contradiction).
      split; [apply in_range; apply U_lt in HS; lia|]. unfold cross_calls.
      destruct (N.eqb_spec (sbs_size (sbs_union a b)) 1) as [E|_]; [lia|].
      assert (D1 := split_compl a b A1 B1 Hd).
      assert (D2 : sbs_diff (sbs_union a b) b = a) by (replace (sbs_union a b) with (sbs_union b a) by apply N.lor_comm; apply split_compl; assumption).
      destruct (half_spec _ HW Uz) as [h [_ [_ [_ Hsp]]]].
      destruct (Hsp a) as [H1|H1]; [intros i Hi; apply mem_union; left; exact Hi|exact A2|intros E; rewrite <- E in S1, S2; lia| |].
      + left. apply in_flat_map. exists a. split; [exact H1|]. left. rewrite D1. reflexivity.
      + right. rewrite D1 in H1. apply in_flat_map. exists b. split; [exact H1|]. left. rewrite D2. reflexivity.
    - intros S PT Hk HR. destruct (id_phase S Hk) as [K1 K2]. assert (HSW := SubU_W64 S K1). unfold pe_all_step.
      destruct (half_spec S HSW K2) as [h [E1 [E2 [Hin _]]]].
      destruct (sbs_size S =? 1) eqn:Es; [unfold cross_calls; rewrite Es; reflexivity|].
      rewrite E1, E2. cbn [for_list]. unfold cross_calls. rewrite Es.
      apply (guarded_fold lt jc (ready T U (fun s => s) S)); [| |exact HR].
      + intros O P HO HP. destruct (Hin O HO) as [O1 [O2 O3]]. assert (HOW := Sub_W64 _ _ O1 HSW). cbv zeta.
        assert (D1 := Sub_diff O S HSW HOW). assert (D2 := diff_nz O S HSW O1 O3). assert (D3 := diff_ne O S HSW O1 O2).
        rewrite (proj2 (HP O (Sub_trans _ _ _ O1 K1) O2 ltac:(pose proof (Sub_le _ _ O1); lia)) (proj2 (ok_all O HOW) O2)).
        rewrite (proj2 (HP _ (Sub_trans _ _ _ D1 K1) D2 ltac:(pose proof (Sub_le _ _ D1); lia)) (proj2 (ok_all _ (W64_diff S O HSW)) D2)).
        cbn [andb foldM fst snd]. destruct (upd P O (sbs_diff S O)); reflexivity.
      + intros O p P P' HO Hp HP E. apply (ready_stable lt jc T U (fun s => s) S p P P'); [|exact HP|exact E].
        destruct Hp as [<-|[]]. unfold un. cbn [fst snd]. apply union_compl; [exact HSW|apply Hin; exact HO].
    - exists PT. split; assumption.
  Qed.
End Algos.
