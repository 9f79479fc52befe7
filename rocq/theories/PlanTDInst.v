(** * TDbasic and TDMinCutAGaT are instances of memoised top-down enumeration. *)
From Coq Require Import NArith List Bool Lia Sorting.Sorted.
From Verif Require Import Word WordProofs Bitset BitsetProofs GraphSpec Graph GraphProofs ClosureProofs CSGProofs PlanSpec PlanEnum PlanProofs PlanInst PlanAlgos PlanTD PlanMinCut.
Import ListNotations.
Open Scope N_scope.
Arguments N.pow : simpl never.
Arguments N.testbit : simpl never.

Lemma foldM_flat_refine {A B D} (body : A -> B -> option A) (step : A -> D -> option A) (sel : B -> list D) (l : list B) :
  (forall a x, In x l -> forall r, foldM step (sel x) a = Some r -> body a x = Some r) ->
  forall a r, foldM step (flat_map sel l) a = Some r -> foldM body l a = Some r.
Proof.
  induction l as [|x l IH]; intros H a r E; cbn [foldM flat_map] in *; [exact E|]. rewrite foldM_app in E.
  destruct (foldM step (sel x) a) as [a'|] eqn:E1; [|discriminate]. rewrite (H a x (or_introl eq_refl) a' E1).
  apply IH; [intros b y Hy; apply H; right; exact Hy|exact E].
Qed.

Section Inst.
  Context {C : Type}.
  Variables (lt : C -> C -> bool) (jc : N -> N -> C -> C -> C) (inf : C) (leaf : N -> C).
  Hypothesis HCM : cost_model lt jc.
  Variables (n : N) (m : matrix) (f : nat).
  Hypothesis (HG : graph n m) (Hsym : symmetric m) (Hn : n < 64) (Hf : enough f).
  Notation J := (adjacent m).
  Notation U := (N.ones n).
  Notation upd := (pt_update lt jc).
  Let UW := U_W64 leaf n Hn.

  (** Pairs whose first component contains the least vertex. *)
  Lemma least_total a b : W64 a -> W64 b -> a <> 0 -> b <> 0 -> disjoint a b ->
    (least_subset a <? least_subset b) = negb (least_subset b <? least_subset a).
  Proof.
    intros Ha Hb Hza Hzb Hd. destruct (as_set_inhabited a Ha Hza) as [E1 M1], (as_set_inhabited b Hb Hzb) as [E2 M2].
    change (least_subset a) with (it_as_set a). change (least_subset b) with (it_as_set b). rewrite E1, E2.
    assert (ctz a <> ctz b) by (intros E; rewrite E in M1; exact (Hd _ M1 M2)).
    assert (2 ^ ctz a <> 2 ^ ctz b) by (intros E; apply N.pow_inj_r in E; lia).
    destruct (N.ltb_spec (2 ^ ctz a) (2 ^ ctz b)), (N.ltb_spec (2 ^ ctz b) (2 ^ ctz a)); cbn [negb]; try reflexivity; lia.
  Qed.

  Definition td_pick (S O : N) : list (N * N) :=
    if least_subset O <? least_subset (sbs_diff S O) then
      if okb m O then if okb m (sbs_diff S O) then [(O, sbs_diff S O)] else [] else [] else [].
  Definition parts_basic (S : N) : list (N * N) := flat_map (td_pick S) (subs S S).
  Lemma in_td_pick S O p : In p (td_pick S O) <->
    (least_subset O <? least_subset (sbs_diff S O)) = true /\ okb m O = true /\ okb m (sbs_diff S O) = true /\ p = (O, sbs_diff S O).
  Proof.
    unfold td_pick. destruct (_ <? _), (okb m O), (okb m (sbs_diff S O)); cbn [In]; split;
      try (intros [H|[]]; subst; tauto); try (intros []; fail); try (intros [_ [_ [_ ->]]]; left; reflexivity);
      intros [? [? [? ?]]]; discriminate.
  Qed.

  Lemma parts_basic_sound S p : ok J S -> Sub S U -> sbs_size S <> 1 -> In p (parts_basic S) ->
    ok J (fst p) /\ ok J (snd p) /\ disjoint (fst p) (snd p) /\ J (fst p) (snd p) /\ sbs_union (fst p) (snd p) = S.
  Proof.
    intros HS HSU _ Hp. apply in_flat_map in Hp. destruct Hp as [O [HO Hp]]. apply in_td_pick in Hp. destruct Hp as [_ [P1 [P2 ->]]].
    destruct (ok_W64 J S HS) as [HW Hz]. destruct (subs_full leaf n f Hn Hf S HW Hz) as [_ Hin]. apply Hin in HO. destruct HO as [O1 [O2 O3]].
    assert (HOW := Sub_W64 _ _ O1 HW). apply (okb_spec n m HG Hsym) in P1; [|exact HOW]. apply (okb_spec n m HG Hsym) in P2; [|apply W64_diff; exact HW].
    cbn [fst snd]. split; [exact P1|]. split; [exact P2|]. split; [apply disjoint_compl; assumption|].
    split; [apply connected_split; assumption|]. apply union_compl; assumption.
  Qed.
  Lemma parts_basic_complete a b : ok J a -> ok J b -> disjoint a b -> J a b -> Sub (sbs_union a b) U ->
    In (a, b) (parts_basic (sbs_union a b)) \/ In (b, a) (parts_basic (sbs_union a b)).
  Proof.
    intros Ha Hb Hd HJ HS. destruct (ok_union_facts leaf n m HG Hsym Hn a b Ha Hb Hd HJ) as [A1 [B1 [A2 [B2 [Uz [Uo [Ao [Bo [D1 [D2 [Sa [Sb [Na Nb]]]]]]]]]]]]].
    assert (HW : W64 (sbs_union a b)) by (apply W64_union; assumption). destruct (subs_full leaf n f Hn Hf _ HW Uz) as [_ Hin].
    assert (L := least_total a b A1 B1 A2 B2 Hd).
    destruct (least_subset a <? least_subset b) eqn:E; symmetry in L.
    - left. apply in_flat_map. exists a. split; [apply Hin; tauto|]. apply in_td_pick. rewrite D1. tauto.
    - right. apply negb_false_iff in L. apply in_flat_map. exists b. split; [apply Hin; tauto|]. apply in_td_pick. rewrite D2. tauto.
  Qed.

  Lemma enough_plus g d : enough g -> enough (d + g)%nat.
  Proof. unfold enough. intros H. apply (PeanoNat.Nat.le_trans _ g); [exact H|]. apply PeanoNat.Nat.le_add_l. Qed.

  Lemma plan_gen_td d : forall PT S PT', ok J S -> Sub S U -> td lt jc parts_basic d PT S = Some PT' ->
    plan_gen lt jc m (d + f) PT S = Some PT'.
  Proof.
    induction d as [|d IH]; intros PT S PT' HS HSU E; [discriminate|].
    cbn [td] in E. change (Datatypes.S d + f)%nat with (Datatypes.S (d + f)). cbn [plan_gen].
    destruct (has_plan PT S) eqn:Hh; [exact E|].
    assert (Hs1 : sbs_size S <> 1) by (intros E1; unfold has_plan in Hh; rewrite E1 in Hh; discriminate).
    destruct (ok_W64 J S HS) as [HW Hz]. destruct (subs_full leaf n (d + f) Hn (enough_plus f d Hf) S HW Hz) as [El Hin]. rewrite El.
    cbn [for_list]. change (parts_basic S) with (flat_map (td_pick S) (subs S S)) in E. revert E. apply foldM_flat_refine. intros P O HO r Er.
    apply Hin in HO. destruct HO as [O1 [O2 O3]]. assert (HOW := Sub_W64 _ _ O1 HW).
    assert (HDW : W64 (sbs_diff S O)) by (apply W64_diff; exact HW).
    assert (D2 := diff_nz O S HW O1 O3). assert (D1 := Sub_diff O S HW HOW).
    cbv zeta. unfold td_pick in Er. destruct (least_subset O <? least_subset (sbs_diff S O)); [|exact Er].
    rewrite (is_conn_okb n m HG Hsym O HOW O2), (is_conn_okb n m HG Hsym _ HDW D2).
    pose proof (okb_spec n m HG Hsym O HOW) as Ok1. pose proof (okb_spec n m HG Hsym _ HDW) as Ok2.
    destruct (okb m O); [|destruct (okb m (sbs_diff S O)); exact Er].
    destruct (okb m (sbs_diff S O)); [|exact Er]. cbn [foldM fst snd] in Er.
    destruct (td lt jc parts_basic d P O) as [P1|] eqn:E1; [|discriminate].
    rewrite (IH P O P1 (proj1 Ok1 eq_refl) (Sub_trans _ _ _ O1 HSU) E1).
    destruct (td lt jc parts_basic d P1 (sbs_diff S O)) as [P2|] eqn:E2; [|discriminate].
    rewrite (IH P1 _ P2 (proj1 Ok2 eq_refl) (Sub_trans _ _ _ D1 HSU) E2).
    destruct (upd P2 O (sbs_diff S O)); [|discriminate]. exact Er.
  Qed.

  Theorem tdbasic_optimal : connected m U -> U <> 0 ->
    exists PT, tdbasic lt jc m (64 + f) n (pt_init inf leaf) = Some PT /\
      exists t, describes PT U t /\ optimal lt leaf jc J U t /\ jcost leaf jc t = e_cost (PT U).
  Proof.
    intros Hc Hz. assert (HU : ok J U) by (apply ok_connected; [exact Hsym|exact UW|tauto]).
    destruct (td_optimal lt jc leaf HCM J (adjacent_sym m Hsym) parts_basic U UW parts_basic_sound parts_basic_complete 64 inf)
      as [PT [E [t [T1 [T2 T3]]]]]; [|exact HU|].
    - pose proof (popcount_le64 U UW). unfold sbs_size. lia.
    - exists PT. split.
      + unfold tdbasic. rewrite All_ones by lia. apply plan_gen_td; [exact HU|apply Sub_refl|exact E].
      + exists t. split; [apply desc_describes; exact T1|]. tauto.
  Qed.

  (** *** TDMinCutAGaT *)
  Definition parts_mc (S : N) : list (N * N) := match mc_partition m f S with Some l => l | None => [] end.
  Lemma mc_enough g S : ok J S -> Sub S U -> sbs_size S <> 1 -> enough g ->
    exists out, mc_partition m g S = Some out /\
      forall p, In p out <-> exists D, Sub D S /\ D <> S /\ mem (ctz S) D /\ connected m D /\ connected m (sbs_diff S D) /\ p = (D, sbs_diff S D).
  Proof.
    intros HS HSU Hs1 Hg. destruct (ok_W64 J S HS) as [HW Hz].
    apply (mc_partition_spec n m S HG Hsym HW); [apply (ok_connected m Hsym S HW); exact HS|exact Hs1|exact Hz|exact Hg].
  Qed.
  Lemma ccp_facts S D : ok J S -> Sub S U -> Sub D S -> D <> S -> D <> 0 -> connected m D -> connected m (sbs_diff S D) ->
    ok J D /\ ok J (sbs_diff S D) /\ disjoint D (sbs_diff S D) /\ J D (sbs_diff S D) /\ sbs_union D (sbs_diff S D) = S.
  Proof.
    intros HS HSU H1 H2 H3 H4 H5. destruct (ok_W64 J S HS) as [HW Hz].
    split; [apply (ok_connected m Hsym D (Sub_W64 _ _ H1 HW)); tauto|].
    split; [apply (ok_connected m Hsym _ (W64_diff S D HW)); split; [exact H5|apply diff_nz; assumption]|].
    split; [apply disjoint_compl; assumption|]. split; [apply connected_split; assumption|apply union_compl; assumption].
  Qed.
  Lemma parts_mc_sound S p : ok J S -> Sub S U -> sbs_size S <> 1 -> In p (parts_mc S) ->
    ok J (fst p) /\ ok J (snd p) /\ disjoint (fst p) (snd p) /\ J (fst p) (snd p) /\ sbs_union (fst p) (snd p) = S.
  Proof.
    intros HS HSU Hs1 Hp. unfold parts_mc in Hp. destruct (mc_enough f S HS HSU Hs1 Hf) as [out [E Ho]]. rewrite E in Hp.
    apply Ho in Hp. destruct Hp as [D [H1 [H2 [H3 [H4 [H5 ->]]]]]]. cbn [fst snd].
    apply ccp_facts; try assumption. intros ->. exact (mem_0 _ H3).
  Qed.
  Lemma parts_mc_complete a b : ok J a -> ok J b -> disjoint a b -> J a b -> Sub (sbs_union a b) U ->
    In (a, b) (parts_mc (sbs_union a b)) \/ In (b, a) (parts_mc (sbs_union a b)).
  Proof.
    intros Ha Hb Hd HJ HS. destruct (ok_union_facts leaf n m HG Hsym Hn a b Ha Hb Hd HJ) as [A1 [B1 [A2 [B2 [Uz [Uo [Ao [Bo [D1 [D2 [Sa [Sb [Na Nb]]]]]]]]]]]]].
    assert (HW : W64 (sbs_union a b)) by (apply W64_union; assumption).
    assert (HokU : ok J (sbs_union a b)) by (apply ok_join; assumption).
    assert (Hs1 : sbs_size (sbs_union a b) <> 1).
    { destruct (union_size a b A1 B1 A2 B2 Hd) as [S1 _]. pose proof (size_pos a A2). lia. }
    unfold parts_mc. destruct (mc_enough f _ HokU HS Hs1 Hf) as [out [-> Ho]].
    assert (Hm := testbit_ctz _ Uz). fold (mem (ctz (sbs_union a b)) (sbs_union a b)) in Hm.
    pose proof (proj1 (ok_connected m Hsym a A1) Ha) as [Ca _]. pose proof (proj1 (ok_connected m Hsym b B1) Hb) as [Cb _].
    apply mem_union in Hm. destruct Hm as [Hm|Hm]; [left|right]; apply Ho.
    - exists a. rewrite D1. repeat (split; [assumption|]). reflexivity.
    - exists b. rewrite D2. repeat (split; [assumption|]). reflexivity.
  Qed.
  Lemma mc_while_mono S g : forall W l, mc_while m S g W = Some l -> forall g', (g <= g')%nat -> mc_while m S g' W = Some l.
  Proof.
    induction g as [|g IH]; intros W l H g' Hg; [discriminate|]. destruct g' as [|g']; [lia|]. cbn [mc_while] in *.
    destruct W as [|[[a b] c] W]; [exact H|]. destruct (mc_connected m S a c) as [conn|]; [|discriminate]. cbv zeta in *.
    match type of H with match mc_while m S g ?w with _ => _ end = _ => destruct (mc_while m S g w) as [o|] eqn:E; [|discriminate] end.
    rewrite (IH _ _ E g') by lia. exact H.
  Qed.
  Lemma parts_mc_fuel d S : ok J S -> Sub S U -> sbs_size S <> 1 -> mc_partition m (d + f) S = Some (parts_mc S).
  Proof.
    intros HS HSU Hs1. unfold parts_mc. destruct (mc_enough f S HS HSU Hs1 Hf) as [out [E _]]. rewrite E.
    unfold mc_partition in *. destruct (sbs_empty S || sbs_is_singleton S); [discriminate|].
    apply mc_while_mono with f; [exact E|]. apply PeanoNat.Nat.le_add_l.
  Qed.
  Lemma mc_solve_td d : forall PT S PT', ok J S -> Sub S U -> sbs_size S <= N.of_nat d -> WF lt jc leaf J PT S ->
    has_plan PT S = false -> td lt jc parts_mc d PT S = Some PT' ->
    mc_solve lt jc m (d + f) PT S = Some PT'.
  Proof.
    induction d as [|d IH]; intros PT S PT' HS HSU Hd HWF Hh E; [discriminate|].
    cbn [td] in E. rewrite Hh in E. change (Datatypes.S d + f)%nat with (Datatypes.S (d + f)). cbn [mc_solve].
    assert (Hs1 : sbs_size S <> 1) by (intros E1; unfold has_plan in Hh; rewrite E1 in Hh; discriminate).
    rewrite (parts_mc_fuel d S HS HSU Hs1). cbn [for_list].
    destruct (ok_W64 J S HS) as [HW Hz].
    assert (Hps : forall p, In p (parts_mc S) -> In p (parts_mc S)) by tauto.
    assert (HWFs : forall T, T <> 0 -> Sub T S -> T <> S -> has_plan PT T = true -> solved lt jc leaf J PT T).
    { intros T T1 T2 _ T3. apply HWF; assumption. }
    clear HWF Hh. revert PT E HWFs Hps. generalize (parts_mc S) at 1 2 4 as l.
    induction l as [|[a b] l IHl]; intros PT E HWFs Hps; cbn [foldM] in *; [exact E|]. cbn [fst snd] in *.
    destruct (parts_mc_sound S (a, b) HS HSU Hs1 (Hps _ (or_introl eq_refl))) as [P1 [P2 [P3 [P4 P5]]]]. cbn [fst snd] in *.
    destruct (ok_W64 J a P1) as [A1 A2], (ok_W64 J b P2) as [B1 B2]. destruct (union_size a b A1 B1 A2 B2 P3) as [S1 S2].
    rewrite P5 in S1, S2.
    assert (Sa : Sub a S) by (intros i Hi; rewrite <- P5; apply mem_union; left; exact Hi).
    assert (Sb : Sub b S) by (intros i Hi; rewrite <- P5; apply mem_union; right; exact Hi).
    assert (HnX : forall y, Sub y S -> sbs_size y < sbs_size S -> ~ Sub S y).
    { intros y Hy Hlt Hc. assert (y = S) by (apply N.le_antisymm; apply Sub_le; assumption). subst. lia. }
    assert (Wa : WF lt jc leaf J PT a).
    { intros T T1 T2 T3. apply HWFs; [exact T1|apply (Sub_trans _ _ _ T2 Sa)| |exact T3]. intros ->. exact (HnX a Sa S1 T2). }
    destruct (td_spec lt jc leaf HCM J (adjacent_sym m Hsym) parts_mc U parts_mc_sound parts_mc_complete d PT a P1 (Sub_trans _ _ _ Sa HSU) ltac:(lia) Wa)
      as [Q1 [E1 [F1 X1 W1 H1]]]. rewrite E1 in E.
    assert (G1 : (if has_plan PT a then Some PT else mc_solve lt jc m (d + f) PT a) = Some Q1).
    { destruct (has_plan PT a) eqn:Ha.
      - destruct d as [|d']; [discriminate|]. cbn [td] in E1. rewrite Ha in E1. exact E1.
      - apply IH; [exact P1|apply (Sub_trans _ _ _ Sa HSU)|lia|exact Wa|exact Ha|exact E1]. }
    rewrite G1, H1. cbn [negb].
    assert (solved_frame : forall Q Q' y, Sub y S -> sbs_size y < sbs_size S -> post lt jc leaf J Q Q' y ->
       (forall T, T <> 0 -> Sub T S -> T <> S -> has_plan Q T = true -> solved lt jc leaf J Q T) ->
       (forall T, T <> 0 -> Sub T S -> T <> S -> has_plan Q' T = true -> solved lt jc leaf J Q' T)).
    { intros Q Q' y Hy Hlt [pf px pw pp] HQ T T1 T2 T3 T4. destruct (N.eq_dec (N.land T y) T) as [Ea|Ea].
      - apply pw; [exact T1| |exact T4]. intros i Hi. rewrite <- Ea, N.land_spec in Hi. apply andb_prop in Hi. tauto.
      - assert (Hns : ~ Sub T y).
        { intros Hc. apply Ea. apply N.bits_inj. intros i. rewrite N.land_spec. destruct (N.testbit T i) eqn:Et; [rewrite (Hc i Et); reflexivity|reflexivity]. }
        apply (solved_ext lt jc leaf J Q); [exact px|]. apply HQ; try assumption. unfold has_plan in *. rewrite (pf T Hns) in T4. exact T4. }
    pose proof (solved_frame PT Q1 a Sa S1 (Build_post lt jc leaf J PT Q1 a F1 X1 W1 H1) HWFs) as HWFs1.
    assert (Wb : WF lt jc leaf J Q1 b).
    { intros T T1 T2 T3. apply HWFs1; [exact T1|apply (Sub_trans _ _ _ T2 Sb)| |exact T3]. intros ->. exact (HnX b Sb S2 T2). }
    destruct (td_spec lt jc leaf HCM J (adjacent_sym m Hsym) parts_mc U parts_mc_sound parts_mc_complete d Q1 b P2 (Sub_trans _ _ _ Sb HSU) ltac:(lia) Wb)
      as [Q2 [E2 [F2 X2 W2 H2]]]. rewrite E2 in E.
    assert (G2 : (if has_plan Q1 b then Some Q1 else mc_solve lt jc m (d + f) Q1 b) = Some Q2).
    { destruct (has_plan Q1 b) eqn:Hb.
      - destruct d as [|d']; [discriminate|]. cbn [td] in E2. rewrite Hb in E2. exact E2.
      - apply IH; [exact P2|apply (Sub_trans _ _ _ Sb HSU)|lia|exact Wb|exact Hb|exact E2]. }
    rewrite G2, H2. cbn [negb].
    pose proof (solved_frame Q1 Q2 b Sb S2 (Build_post lt jc leaf J Q1 Q2 b F2 X2 W2 H2) HWFs1) as HWFs2.
    destruct (upd Q2 a b) as [Q3|] eqn:E3; [|discriminate].
    apply IHl; [exact E| |intros p Hp; apply Hps; right; exact Hp].
    assert (Hoth : forall T, T <> S -> Q3 T = Q2 T).
    { intros T HT. apply (upd_other lt jc Q2 a b Q3 E3 T). rewrite P5. exact HT. }
    intros T T1 T2 T3 T4. unfold has_plan in T4. rewrite (Hoth T T3) in T4. destruct (HWFs2 T T1 T2 T3 T4) as [t [D1 [D2 D3]]].
    exists t. split; [|split; [exact D2|rewrite (Hoth T T3); exact D3]].
    clear - D1 Hoth T2 T3. revert T2 T3. induction D1 as [i Hi Hi1 Hi2|S' tl tr G1 G2 G3 IH3 G4 IH4 G5]; intros T2 T3; [rewrite <- (Hoth _ T3) in Hi1, Hi2; apply desc_leaf; assumption|].
    assert (Sl : Sub (e_left (Q2 S')) S') by (intros i Hi; rewrite G5; rewrite N.lor_spec; rewrite Hi; reflexivity).
    assert (Sr : Sub (e_right (Q2 S')) S') by (intros i Hi; rewrite G5; rewrite N.lor_spec; rewrite Hi; apply orb_true_r).
    assert (Hne : forall y, Sub y S' -> y <> S).
    { intros y Hy ->. apply T3. apply N.le_antisymm; apply Sub_le; assumption. }
    apply desc_node; [exact G1|unfold has_plan in *; rewrite (Hoth S' T3); exact G2| | |]; rewrite (Hoth S' T3).
    - apply IH3; [apply (Sub_trans _ _ _ Sl T2)|apply Hne; exact Sl].
    - apply IH4; [apply (Sub_trans _ _ _ Sr T2)|apply Hne; exact Sr].
    - exact G5.
  Qed.

  Lemma td_hit parts d PT S : has_plan PT S = true -> td lt jc parts (Datatypes.S d) PT S = Some PT.
  Proof. intros H. cbn [td]. rewrite H. reflexivity. Qed.
  Theorem tdmincut_optimal : connected m U -> U <> 0 ->
    exists PT, tdmincut lt jc m (64 + f) n (pt_init inf leaf) = Some PT /\
      exists t, describes PT U t /\ optimal lt leaf jc J U t /\ jcost leaf jc t = e_cost (PT U).
  Proof.
    intros Hc Hz. assert (HU : ok J U) by (apply ok_connected; [exact Hsym|exact UW|tauto]).
    assert (HsU : sbs_size U = n) by apply popcount_ones.
    destruct (td_optimal lt jc leaf HCM J (adjacent_sym m Hsym) parts_mc U UW parts_mc_sound parts_mc_complete 64 inf)
      as [PT [E [t [T1 [T2 T3]]]]]; [lia|exact HU|].
    unfold tdmincut. destruct (N.ltb_spec 1 n) as [L|L].
    - exists PT. split.
      + rewrite All_ones by lia. apply mc_solve_td; [exact HU|apply Sub_refl|lia| | |exact E].
        * exact (td_init_wf lt jc leaf HCM J (adjacent_sym m Hsym) parts_mc U UW parts_mc_sound parts_mc_complete inf).
        * unfold has_plan. rewrite HsU. destruct (N.eqb_spec n 1); [lia|]. reflexivity.
      + exists t. split; [apply desc_describes; exact T1|]. tauto.
    - exists (pt_init inf leaf). split; [reflexivity|].
      assert (PT = pt_init inf leaf) as ->.
      { assert (Hh : has_plan (pt_init inf leaf) U = true).
        { unfold has_plan. rewrite HsU. assert (n = 1) by (pose proof (size_pos U Hz); lia). subst. reflexivity. }
        pose proof (td_hit parts_mc 63 _ U Hh) as E'. assert (Some PT = Some (pt_init inf leaf)) as H by (rewrite <- E, <- E'; reflexivity). injection H as ->. reflexivity. }
      exists t. split; [apply desc_describes; exact T1|]. tauto.
  Qed.
End Inst.
