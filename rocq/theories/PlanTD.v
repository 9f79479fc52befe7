(** * Top-down join enumeration (memoisation): TDbasic and TDMinCutAGaT. *)
From Coq Require Import NArith List Bool Lia Sorting.Sorted.
From Verif Require Import Word WordProofs Bitset BitsetProofs GraphSpec Graph GraphProofs ClosureProofs CSGProofs PlanSpec PlanEnum PlanProofs PlanInst.
Import ListNotations.
Open Scope N_scope.
Arguments N.pow : simpl never.
Arguments N.testbit : simpl never.

Section TD.
  Context {C : Type}.
  Variables (lt : C -> C -> bool) (jc : N -> N -> C -> C -> C) (leaf : N -> C).
  Hypothesis HCM : cost_model lt jc.
  Notation le := (cle lt).
  Notation upd := (pt_update lt jc).
  Variable J : N -> N -> Prop.
  Hypothesis J_sym : forall a b, J a b -> J b a.

  Lemma td_le_refl a : le a a. Proof. apply (proj1 HCM). Qed.
  Lemma td_le_trans a b c : le a b -> le b c -> le a c. Proof. apply (proj1 (proj2 HCM)). Qed.
  Lemma td_mono l r a a' b b' : le a a' -> le b b' -> le (jc l r a b) (jc l r a' b').
  Proof. apply (proj2 (proj2 (proj2 HCM))). Qed.

  (** The effect of [update] when both inputs have plans. *)
  Lemma upd_spec PT l r : l <> 0 -> r <> 0 -> sbs_size (sbs_union l r) <> 1 -> l <> sbs_union l r -> r <> sbs_union l r ->
    has_plan PT l = true -> has_plan PT r = true ->
    exists PT', upd PT l r = Some PT' /\ (forall s, s <> sbs_union l r -> PT' s = PT s) /\ has_plan PT' (sbs_union l r) = true /\
      le (e_cost (PT' (sbs_union l r))) (jc l r (e_cost (PT l)) (e_cost (PT r))) /\
      le (e_cost (PT' (sbs_union l r))) (jc r l (e_cost (PT r)) (e_cost (PT l))) /\
      (has_plan PT (sbs_union l r) = true -> le (e_cost (PT' (sbs_union l r))) (e_cost (PT (sbs_union l r)))) /\
      ((has_plan PT (sbs_union l r) = true /\ PT' (sbs_union l r) = PT (sbs_union l r)) \/
       PT' (sbs_union l r) = {| e_left := l; e_right := r; e_cost := jc l r (e_cost (PT l)) (e_cost (PT r)) |} \/
       PT' (sbs_union l r) = {| e_left := r; e_right := l; e_cost := jc r l (e_cost (PT r)) (e_cost (PT l)) |}).
  Proof.
    intros Hl Hr Hs1 Hnl Hnr Hpl Hpr. unfold pt_update. apply N.eqb_neq in Hl, Hr. unfold sbs_empty. rewrite Hl, Hr. cbn [orb].
    rewrite Hpl, Hpr. cbn [andb negb]. rewrite andb_false_r.
    set (S := sbs_union l r) in *. set (c1 := jc l r (e_cost (PT l)) (e_cost (PT r))). set (c2 := jc r l (e_cost (PT r)) (e_cost (PT l))).
    assert (Hpick : exists c a b, (if lt c2 c1 then (c2, r, l) else (c1, l, r)) = (c, a, b) /\ ((a = l /\ b = r /\ c = c1) \/ (a = r /\ b = l /\ c = c2)) /\ le c c1 /\ le c c2).
    { destruct (lt c2 c1) eqn:E.
      - exists c2, r, l. split; [reflexivity|]. split; [right; tauto|]. split; [apply (lt_le lt jc HCM); exact E|apply td_le_refl].
      - exists c1, l, r. split; [reflexivity|]. split; [left; tauto|]. split; [apply td_le_refl|exact E]. }
    destruct Hpick as [c [a [b [-> [Hab [Hc1 Hc2]]]]]].
    destruct (negb (has_plan PT S) || lt c (e_cost (PT S))) eqn:E.
    - eexists. split; [reflexivity|]. cbv beta. rewrite N.eqb_refl. cbn [e_cost].
      split; [intros s Hs; apply N.eqb_neq in Hs; rewrite Hs; reflexivity|].
      split. { unfold has_plan. cbv beta. rewrite N.eqb_refl. cbn [e_left]. apply N.eqb_neq in Hs1. rewrite Hs1. unfold sbs_empty.
               destruct Hab as [[-> _]|[-> _]]; [rewrite Hl|rewrite Hr]; reflexivity. }
      split; [exact Hc1|]. split; [exact Hc2|]. split.
      + intros Hh. rewrite Hh in E. cbn [negb orb] in E. apply (lt_le lt jc HCM). exact E.
      + right. destruct Hab as [[-> [-> ->]]|[-> [-> ->]]]; [left|right]; reflexivity.
    - apply orb_false_iff in E. destruct E as [E1 E2]. apply negb_false_iff in E1. exists PT.
      split; [reflexivity|]. split; [reflexivity|]. split; [exact E1|].
      split; [apply td_le_trans with c; assumption|]. split; [apply td_le_trans with c; assumption|].
      split; [intros _; apply td_le_refl|]. left. tauto.
  Qed.

  (** Complete, consistent plans. *)
  Inductive desc (PT : table C) : N -> jtree -> Prop :=
  | desc_leaf i : i < 64 -> e_left (PT (2 ^ i)) = 0 -> e_right (PT (2 ^ i)) = 0 -> desc PT (2 ^ i) (JLeaf i)
  | desc_node S tl tr : sbs_size S <> 1 -> has_plan PT S = true -> desc PT (e_left (PT S)) tl -> desc PT (e_right (PT S)) tr ->
      S = N.lor (e_left (PT S)) (e_right (PT S)) -> desc PT S (JNode tl tr).
  Lemma desc_describes PT S t : desc PT S t -> describes PT S t.
  Proof. induction 1; [apply d_leaf|apply d_node]; assumption. Qed.
  Lemma desc_has_plan PT S t : desc PT S t -> has_plan PT S = true.
  Proof. intros []; [unfold has_plan; rewrite size_pow2; reflexivity|assumption]. Qed.

  Definition ext (PT PT' : table C) : Prop := forall T, has_plan PT T = true -> e_cost (PT' T) = e_cost (PT T) /\ PT' T = PT T.
  Lemma ext_refl PT : ext PT PT. Proof. intros T _. split; reflexivity. Qed.
  Lemma ext_has_plan PT PT' T : ext PT PT' -> has_plan PT T = true -> has_plan PT' T = true.
  Proof. intros H Hp. unfold has_plan. destruct (H T Hp) as [_ ->]. exact Hp. Qed.
  Lemma ext_trans a b c : ext a b -> ext b c -> ext a c.
  Proof.
    intros H1 H2 T HT. destruct (H1 T HT) as [A1 A2]. destruct (H2 T (ext_has_plan a b T H1 HT)) as [B1 B2].
    split; congruence.
  Qed.
  Lemma desc_ext PT PT' S t : ext PT PT' -> desc PT S t -> desc PT' S t.
  Proof.
    intros HE H. induction H as [i Hi Hi1 Hi2|S tl tr H1 H2 H3 IH3 H4 IH4 H5].
    { destruct (HE (2 ^ i)) as [_ E]; [unfold has_plan; rewrite size_pow2; reflexivity|]. apply desc_leaf; [exact Hi|rewrite E; exact Hi1|rewrite E; exact Hi2]. }
    destruct (HE S H2) as [_ E]. apply desc_node; [exact H1|apply (ext_has_plan PT); assumption| | |]; rewrite E; assumption.
  Qed.
  (** [S] is solved: the table holds an optimal plan and its cost. *)
  Definition solved (PT : table C) (S : N) : Prop :=
    exists t, desc PT S t /\ optimal lt leaf jc J S t /\ jcost leaf jc t = e_cost (PT S).
  Lemma solved_ext PT PT' S : ext PT PT' -> solved PT S -> solved PT' S.
  Proof.
    intros HE [t [H1 [H2 H3]]]. exists t. split; [apply (desc_ext PT); assumption|]. split; [exact H2|].
    destruct (HE S (desc_has_plan _ _ _ H1)) as [E _]. congruence.
  Qed.
  Definition WF (PT : table C) (X : N) : Prop := forall T, T <> 0 -> Sub T X -> has_plan PT T = true -> solved PT T.

  (** The pairs tried for [S]. *)
  Variable parts : N -> list (N * N).
  Variable U : N.
  Hypothesis HU : W64 U.
  Hypothesis parts_sound : forall S p, ok J S -> Sub S U -> sbs_size S <> 1 -> In p (parts S) ->
    ok J (fst p) /\ ok J (snd p) /\ disjoint (fst p) (snd p) /\ J (fst p) (snd p) /\ sbs_union (fst p) (snd p) = S.
  Hypothesis parts_complete : forall a b, ok J a -> ok J b -> disjoint a b -> J a b -> Sub (sbs_union a b) U ->
    In (a, b) (parts (sbs_union a b)) \/ In (b, a) (parts (sbs_union a b)).

  Fixpoint td (fuel : nat) (PT : table C) (S : N) : option (table C) :=
    match fuel with
    | O => None
    | Datatypes.S f =>
        if has_plan PT S then Some PT else
        foldM (fun PT p => match td f PT (fst p) with
                           | None => None
                           | Some PT1 => match td f PT1 (snd p) with
                                         | None => None
                                         | Some PT2 => upd PT2 (fst p) (snd p)
                                         end
                           end) (parts S) PT
    end.

  Record post (PT PT' : table C) (X : N) : Prop := {
    post_frame : forall T, ~ Sub T X -> PT' T = PT T;
    post_ext : ext PT PT';
    post_wf : WF PT' X;
    post_plan : has_plan PT' X = true }.

  Lemma td_spec f : forall PT X, ok J X -> Sub X U -> sbs_size X <= N.of_nat f -> WF PT X ->
    exists PT', td f PT X = Some PT' /\ post PT PT' X.
  Proof.
    induction f as [|f IH]; intros PT X HX HXU Hsz HWF.
    { destruct (ok_W64 J X HX) as [_ Hz]. pose proof (size_pos X Hz). lia. }
    cbn [td]. destruct (has_plan PT X) eqn:Ehp.
    { exists PT. split; [reflexivity|]. constructor; [reflexivity|apply ext_refl|exact HWF|exact Ehp]. }
    assert (Hs1 : sbs_size X <> 1) by (intros E; unfold has_plan in Ehp; rewrite E in Ehp; discriminate).
    destruct (ok_W64 J X HX) as [HXW HXz].
    set (step := fun PT p => match td f PT (fst p) with None => None | Some PT1 =>
                   match td f PT1 (snd p) with None => None | Some PT2 => upd PT2 (fst p) (snd p) end end).
    (* loop invariant *)
    set (LI := fun (done : list (N * N)) (Q : table C) =>
       (forall T, ~ Sub T X -> Q T = PT T) /\ ext PT Q /\ (forall T, T <> 0 -> Sub T X -> T <> X -> has_plan Q T = true -> solved Q T) /\
       (forall p, In p done -> In p (parts X) /\ has_plan Q X = true /\ has_plan Q (fst p) = true /\ has_plan Q (snd p) = true /\
          le (e_cost (Q X)) (jc (fst p) (snd p) (e_cost (Q (fst p))) (e_cost (Q (snd p)))) /\
          le (e_cost (Q X)) (jc (snd p) (fst p) (e_cost (Q (snd p))) (e_cost (Q (fst p))))) /\
       (has_plan Q X = true -> exists a b, (In (a, b) (parts X) \/ In (b, a) (parts X)) /\ has_plan Q a = true /\ has_plan Q b = true /\
          Q X = {| e_left := a; e_right := b; e_cost := jc a b (e_cost (Q a)) (e_cost (Q b)) |})).
    assert (Hpf : forall p, In p (parts X) -> let '(a, b) := p in ok J a /\ ok J b /\ disjoint a b /\ J a b /\ sbs_union a b = X /\
       a <> X /\ b <> X /\ Sub a X /\ Sub b X /\ a <> 0 /\ b <> 0 /\ sbs_size a < sbs_size X /\ sbs_size b < sbs_size X).
    { intros [a b] Hp. destruct (parts_sound X (a, b) HX HXU Hs1 Hp) as [P1 [P2 [P3 [P4 P5]]]]. cbn [fst snd] in *.
      destruct (ok_W64 J a P1) as [A1 A2], (ok_W64 J b P2) as [B1 B2]. destruct (union_size a b A1 B1 A2 B2 P3) as [S1 S2].
      rewrite P5 in S1, S2. repeat (split; [assumption|]). split; [intros ->; lia|]. split; [intros ->; lia|].
      split; [intros i Hi; rewrite <- P5; apply mem_union; left; exact Hi|]. split; [intros i Hi; rewrite <- P5; apply mem_union; right; exact Hi|].
      tauto. }
    assert (Hrun : forall l done Q, (forall p, In p l -> In p (parts X)) -> LI done Q ->
      exists Q', foldM step l Q = Some Q' /\ LI (done ++ l) Q').
    { induction l as [|p l IHl]; intros done Q Hin HL.
      - exists Q. rewrite app_nil_r. split; [reflexivity|exact HL].
      - pose proof (Hpf p (Hin p (or_introl eq_refl))) as Hp. destruct p as [a b].
        destruct Hp as [P1 [P2 [P3 [P4 [P5 [P6 [P7 [P8 [P9 [P10 [P11 [P12 P13]]]]]]]]]]]].
        destruct HL as [L1 [L2 [L3 [L4 L5]]]].
        assert (HnX : forall y, Sub y X -> y <> X -> ~ Sub X y).
        { intros y Hy Hne Hc. apply Hne. apply N.le_antisymm; apply Sub_le; assumption. }
        assert (HWFa : WF Q a).
        { intros T Tz TS TH. apply L3; [exact Tz|apply (Sub_trans _ _ _ TS P8)| |exact TH]. intros ->. exact (HnX a P8 P6 TS). }
        destruct (IH Q a P1 (Sub_trans _ _ _ P8 HXU) ltac:(lia) HWFa) as [Q1 [E1 [F1 X1 W1 H1]]].
        assert (L3' : forall T, T <> 0 -> Sub T X -> T <> X -> has_plan Q1 T = true -> solved Q1 T).
        { intros T Tz TS Tn TH. destruct (N.eq_dec (N.land T a) T) as [Ea|Ea].
          - apply W1; [exact Tz| |exact TH]. intros i Hi. rewrite <- Ea, N.land_spec in Hi. apply andb_prop in Hi. tauto.
          - assert (Hns : ~ Sub T a).
            { intros Hc. apply Ea. apply N.bits_inj. intros i. rewrite N.land_spec. destruct (N.testbit T i) eqn:Et; [rewrite (Hc i Et); reflexivity|reflexivity]. }
            apply (solved_ext Q); [exact X1|]. apply L3; try assumption. unfold has_plan in *. rewrite (F1 T Hns) in TH. exact TH. }
        assert (HWFb : WF Q1 b).
        { intros T Tz TS TH. apply L3'; [exact Tz|apply (Sub_trans _ _ _ TS P9)| |exact TH]. intros ->. exact (HnX b P9 P7 TS). }
        destruct (IH Q1 b P2 (Sub_trans _ _ _ P9 HXU) ltac:(lia) HWFb) as [Q2 [E2 [F2 X2 W2 H2]]].
        assert (L3'' : forall T, T <> 0 -> Sub T X -> T <> X -> has_plan Q2 T = true -> solved Q2 T).
        { intros T Tz TS Tn TH. destruct (N.eq_dec (N.land T b) T) as [Ea|Ea].
          - apply W2; [exact Tz| |exact TH]. intros i Hi. rewrite <- Ea, N.land_spec in Hi. apply andb_prop in Hi. tauto.
          - assert (Hns : ~ Sub T b).
            { intros Hc. apply Ea. apply N.bits_inj. intros i. rewrite N.land_spec. destruct (N.testbit T i) eqn:Et; [rewrite (Hc i Et); reflexivity|reflexivity]. }
            apply (solved_ext Q1); [exact X2|]. apply L3'; try assumption. unfold has_plan in *. rewrite (F2 T Hns) in TH. exact TH. }
        assert (H1' : has_plan Q2 a = true) by (apply (ext_has_plan Q1); assumption).
        assert (EX : Q2 X = Q X) by (rewrite (F2 X (HnX b P9 P7)), (F1 X (HnX a P8 P6)); reflexivity).
        assert (Hu : sbs_size (sbs_union a b) <> 1) by (rewrite P5; exact Hs1).
        destruct (upd_spec Q2 a b P10 P11 Hu ltac:(congruence) ltac:(congruence) H1' H2) as [Q3 [E3 [U1 [U2 [U3 [U4 [U5 U6]]]]]]].
        rewrite P5 in *.
        assert (Hoth : forall T, T <> X -> Q3 T = Q2 T) by exact U1.
        assert (Xab : forall T, T <> X -> has_plan Q3 T = has_plan Q2 T) by (intros T HT; unfold has_plan; rewrite (Hoth T HT); reflexivity).
        assert (HQX : has_plan Q2 X = has_plan Q X) by (unfold has_plan; rewrite EX; reflexivity).
        assert (HXQ : ext Q Q2) by (apply (ext_trans _ Q1); assumption).
        destruct (IHl (done ++ [(a, b)]) Q3) as [Q' [R1 R2]].
        + intros q Hq. apply Hin. right. exact Hq.
        + split; [|split; [|split; [|split]]].
          * intros T HT. assert (HTX : T <> X) by (intros ->; apply HT, Sub_refl). rewrite (Hoth T HTX).
            rewrite (F2 T), (F1 T); [apply L1; exact HT|intros Hc; apply HT; apply (Sub_trans _ _ _ Hc P8)|intros Hc; apply HT; apply (Sub_trans _ _ _ Hc P9)].
          * intros T HT. assert (HTX : T <> X) by (intros ->; congruence). rewrite (Hoth T HTX).
            destruct (L2 T HT) as [_ A]. destruct (HXQ T (ext_has_plan PT Q T L2 HT)) as [_ B]. split; congruence.
          * intros T Tz TS Tn TH. rewrite (Xab T Tn) in TH. destruct (L3'' T Tz TS Tn TH) as [t [D1 [D2 D3]]].
            exists t. split; [|split; [exact D2|rewrite (Hoth T Tn); exact D3]].
            (* the plan of T uses only strict subsets of X *)
            clear - D1 Hoth Xab TS Tn. revert TS Tn. induction D1 as [i Hi Hi1 Hi2|S tl tr G1 G2 G3 IH3 G4 IH4 G5]; intros TS Tn; [rewrite <- (Hoth _ Tn) in Hi1, Hi2; apply desc_leaf; assumption|].
            assert (Sl : Sub (e_left (Q2 S)) S) by (intros i Hi; rewrite G5; rewrite N.lor_spec; rewrite Hi; reflexivity).
            assert (Sr : Sub (e_right (Q2 S)) S) by (intros i Hi; rewrite G5; rewrite N.lor_spec; rewrite Hi; apply orb_true_r).
            assert (Hne : forall y, Sub y S -> y <> X).
            { intros y Hy ->. apply Tn. apply N.le_antisymm; apply Sub_le; assumption. }
            apply desc_node; [exact G1|rewrite (Xab S Tn); exact G2| | |]; rewrite (Hoth S Tn).
            -- apply IH3; [apply (Sub_trans _ _ _ Sl TS)|apply Hne; exact Sl].
            -- apply IH4; [apply (Sub_trans _ _ _ Sr TS)|apply Hne; exact Sr].
            -- exact G5.
          * intros p Hp. apply in_app_iff in Hp. destruct Hp as [Hp|[<-|[]]].
            -- destruct (L4 p Hp) as [M0 [M1 [M2 [M3 [M4 M5]]]]]. pose proof (Hpf p M0) as Hq. destruct p as [x y].
               destruct Hq as [_ [_ [_ [_ [_ [Q6 [Q7 _]]]]]]]. cbn [fst snd] in *.
               assert (Ex : Q3 x = Q x) by (rewrite (Hoth x Q6); apply HXQ; exact M2).
               assert (Ey : Q3 y = Q y) by (rewrite (Hoth y Q7); apply HXQ; exact M3).
               rewrite HQX, EX in U5. specialize (U5 M1).
               split; [exact M0|]. split; [exact U2|]. unfold has_plan in *. rewrite Ex, Ey.
               split; [exact M2|]. split; [exact M3|]. split; apply td_le_trans with (e_cost (Q X)); assumption.
            -- cbn [fst snd]. rewrite (Xab a P6), (Xab b P7), (Hoth a P6), (Hoth b P7).
               split; [apply Hin; left; reflexivity|]. tauto.
          * intros _. destruct U6 as [[K1 K2]|[K|K]].
            -- rewrite HQX in K1. destruct (L5 K1) as [x [y [V1 [V2 [V3 V4]]]]]. exists x, y.
               assert (Hxy : x <> X /\ y <> X).
               { destruct V1 as [V1|V1]; pose proof (Hpf _ V1) as Hq; cbv beta iota in Hq; tauto. }
               assert (Ex : Q3 x = Q x) by (rewrite (Hoth x (proj1 Hxy)); apply HXQ; exact V2).
               assert (Ey : Q3 y = Q y) by (rewrite (Hoth y (proj2 Hxy)); apply HXQ; exact V3).
               split; [exact V1|]. rewrite K2, EX. unfold has_plan in *. rewrite Ex, Ey. tauto.
            -- exists a, b. split; [left; apply Hin; left; reflexivity|]. rewrite (Xab a P6), (Xab b P7), (Hoth a P6), (Hoth b P7). tauto.
            -- exists b, a. split; [right; apply Hin; left; reflexivity|]. rewrite (Xab a P6), (Xab b P7), (Hoth a P6), (Hoth b P7). tauto.
        + exists Q'. split; [|rewrite <- app_assoc in R2; exact R2]. cbn [foldM]. unfold step at 1. cbn [fst snd].
          rewrite E1, E2, E3. exact R1. }
    destruct (Hrun (parts X) [] PT (fun p H => H)) as [Q [R1 [L1 [L2 [L3 [L4 L5]]]]]].
    { split; [reflexivity|]. split; [apply ext_refl|]. split; [intros T Tz TS _ TH; apply HWF; assumption|]. split; [intros p []|].
      intros H. congruence. }
    exists Q. split; [exact R1|]. cbn [app] in L4.
    assert (Hpl : has_plan Q X = true).
    { destruct (ok_split leaf J U X HX) as [H|[a [b [Ha [Hb [Hd [HJ E]]]]]]]; [contradiction|].
      rewrite E in HXU. destruct (parts_complete a b Ha Hb Hd HJ HXU) as [H|H]; rewrite <- E in H; apply (L4 _ H). }
    assert (HsX : solved Q X).
    { destruct (L5 Hpl) as [a [b [V1 [V2 [V3 V4]]]]].
      assert (Hab : ok J a /\ ok J b /\ disjoint a b /\ J a b /\ sbs_union a b = X /\ a <> X /\ b <> X /\ Sub a X /\ Sub b X /\ a <> 0 /\ b <> 0).
      { destruct V1 as [V1|V1]; pose proof (Hpf _ V1) as Hq; cbv beta iota in Hq; [tauto|].
        destruct Hq as [q1 [q2 [q3 [q4 [q5 [q6 [q7 [q8 [q9 [q10 [q11 _]]]]]]]]]]]. split; [exact q2|]. split; [exact q1|].
        split; [intros i I1 I2; exact (q3 i I2 I1)|]. split; [apply J_sym; exact q4|].
        split; [rewrite <- q5; apply N.lor_comm|]. tauto. }
      destruct Hab as [q1 [q2 [q3 [q4 [q5 [q6 [q7 [q8 [q9 [q10 q11]]]]]]]]]].
      destruct (L3 a q10 q8 q6 V2) as [ta [A1 [A2 A3]]]. destruct (L3 b q11 q9 q7 V3) as [tb [B1 [B2 B3]]].
      exists (JNode ta tb). destruct A2 as [A2 [A4 A5]], B2 as [B2 [B4 B5]]. split; [|split].
      - apply desc_node; [exact Hs1|exact Hpl| | |]; rewrite V4; cbn [e_left e_right]; [exact A1|exact B1|symmetry; exact q5].
      - split; [cbn [jvalid]; rewrite A4, B4; tauto|]. split; [cbn [jset]; rewrite A4, B4; exact q5|].
        intros t' Hv Hs.
        assert (Hc : jcost leaf jc (JNode ta tb) = e_cost (Q X)) by (cbn [jcost]; rewrite A4, B4, A3, B3, V4; reflexivity).
        rewrite Hc. destruct t' as [i|l r]; [exfalso; apply Hs1; rewrite <- Hs; apply size_pow2|]. cbn [jvalid jset jcost] in *.
        destruct Hv as [Hl [Hr [Hd HJ]]].
        assert (Hlow : forall x t, (In (jset x) (map fst (parts X)) \/ In (jset x) (map snd (parts X))) -> x = t -> jvalid J t ->
          le (e_cost (Q (jset t))) (jcost leaf jc t)).
        { intros x t Hx -> Ht.
          assert (Hf : ok J (jset t) /\ Sub (jset t) X /\ jset t <> X /\ jset t <> 0 /\ has_plan Q (jset t) = true).
          { destruct Hx as [Hx|Hx]; apply in_map_iff in Hx; destruct Hx as [[x y] [Ex Hx]]; cbn [fst snd] in Ex; subst; pose proof (Hpf _ Hx) as Hq;
              cbv beta iota in Hq; pose proof (L4 _ Hx) as Hq'; cbn [fst snd] in Hq'; tauto. }
          destruct Hf as [f1 [f2 [f3 [f4 f5]]]]. destruct (L3 _ f4 f2 f3 f5) as [tt [T1 [T2 T3]]]. rewrite <- T3. apply T2; [exact Ht|reflexivity]. }
        apply td_le_trans with (jc (jset l) (jset r) (e_cost (Q (jset l))) (e_cost (Q (jset r)))).
        + destruct (parts_complete (jset l) (jset r)) as [H|H]; [exists l; tauto|exists r; tauto|exact Hd|exact HJ|unfold sbs_union; rewrite Hs; exact HXU| |];
            unfold sbs_union in H; rewrite Hs in H; apply (L4 _ H).
        + assert (Hin : In (jset l, jset r) (parts X) \/ In (jset r, jset l) (parts X)).
          { rewrite <- Hs. apply parts_complete; [exists l; tauto|exists r; tauto|exact Hd|exact HJ|unfold sbs_union; rewrite Hs; exact HXU]. }
          apply td_mono.
          * apply (Hlow l l); [|reflexivity|exact Hl]. destruct Hin as [H|H]; [left|right]; apply in_map_iff; eexists; (split; [|exact H]); reflexivity.
          * apply (Hlow r r); [|reflexivity|exact Hr]. destruct Hin as [H|H]; [right|left]; apply in_map_iff; eexists; (split; [|exact H]); reflexivity.
      - cbn [jcost]. rewrite A4, B4, A3, B3, V4. reflexivity. }
    constructor; [exact L1|exact L2| |exact Hpl].
    intros T Tz TS TH. destruct (N.eq_dec T X) as [->|Hne]; [exact HsX|apply L3; assumption].
  Qed.

  Lemma td_init_wf inf : WF (pt_init inf leaf) U.
  Proof.
    intros T Tz TS TH. unfold has_plan in TH. destruct (N.eqb_spec (sbs_size T) 1) as [E|E]; [|discriminate].
      apply N.eqb_eq in E. apply singleton_iff in E; [|apply (Sub_W64 _ _ TS HU)]. destruct E as [i [Hi ->]].
      exists (JLeaf i). split; [apply desc_leaf; [exact Hi|reflexivity|reflexivity]|]. split.
      + split; [exact Hi|]. split; [reflexivity|]. intros t' Hv Hs. destruct t' as [j|l r].
        * cbn [jset jcost] in *. apply (f_equal ctz) in Hs. rewrite !ctz_pow2 in Hs. subst. apply td_le_refl.
        * exfalso. cbn [jvalid jset] in *. destruct Hv as [Hl [Hr [Hd _]]]. destruct (jset_W64 J l Hl) as [A1 A2], (jset_W64 J r Hr) as [B1 B2].
          destruct (union_size (jset l) (jset r) A1 B1 A2 B2 Hd) as [S1 S2]. unfold sbs_union in S1. rewrite Hs, size_pow2 in S1.
          pose proof (size_pos _ A2). lia.
      + cbn [jcost]. unfold pt_init. cbn [e_cost]. unfold sbs_is_singleton. rewrite size_pow2, N.eqb_refl, ctz_pow2. reflexivity.
  Qed.
  Lemma td_optimal f inf : sbs_size U <= N.of_nat f -> ok J U ->
    exists PT, td f (pt_init inf leaf) U = Some PT /\ solved PT U.
  Proof.
    intros Hf Hok. destruct (td_spec f (pt_init inf leaf) U Hok (Sub_refl U) Hf) as [PT [E [F X W H]]].
    - exact (td_init_wf inf).
    - exists PT. split; [exact E|]. apply W; [apply (ok_W64 J U Hok)|apply Sub_refl|exact H].
  Qed.
End TD.
