(** * Plans of FROM and WHERE: theorems C51 *)
From Coq Require Import NArith ZArith QArith List Bool Arith Lia Permutation Sorted.
From Verif Require Import Word WordProofs Bitset BitsetProofs GraphSpec Graph GraphProofs ClosureProofs PlanSpec PlanEnum PlanProofs PlanAlgos PlanTD PlanMinCut PlanProps MsfProps CSGOrder PlanCcp
  Interp InterpSpec InterpClaims Optimizer OptimizerSpec OptimizerProofs OptimizerProps.
Import ListNotations.
Open Scope N_scope.
Arguments N.pow : simpl never.
Arguments N.testbit : simpl never.

Section Claims.
Context {T : Type}.
Notation row := (list (N * T)).
Implicit Types (c : @clause T) (cs : list (@clause T)).

(** ** the order of the sources does not matter *)
Lemma rows_combine (tab : N -> list T) L : rows_of tab L = map (combine L) (product (map tab L)).
Proof.
  induction L as [|i L IH]; cbn [rows_of map product]; [reflexivity|]. rewrite IH. induction (tab i) as [|x l IHl]; cbn [flat_map]; [reflexivity|].
  rewrite map_app, <- IHl. f_equal. rewrite !map_map. reflexivity.
Qed.
Definition only_get {X} (F : row -> X) : Prop := forall r r', (forall i, get r i = get r' i) -> F r = F r'.
Lemma only_get_cons {X} (F : row -> X) i x : only_get F -> only_get (fun r => F ((i, x) :: r)).
Proof. intros H r r' E. apply H. intros k. cbn [get]. destruct (k =? i); [reflexivity|apply E]. Qed.
Lemma flat_map_map {A B X} (f : A -> B) (g : B -> list X) l : flat_map g (map f l) = flat_map (fun a => g (f a)) l.
Proof. induction l as [|a l IH]; cbn; [reflexivity|]. rewrite IH. reflexivity. Qed.
Lemma flat_map_flat_map {A B X} (f : A -> list B) (g : B -> list X) l : flat_map g (flat_map f l) = flat_map (fun a => flat_map g (f a)) l.
Proof. induction l as [|a l IH]; cbn; [reflexivity|]. rewrite flat_map_app, IH. reflexivity. Qed.
Lemma flat_map_nil {A X} (l : list A) : flat_map (fun _ => @nil X) l = [].
Proof. induction l; cbn; [reflexivity|assumption]. Qed.
Lemma flat_map_split {A X} (f g : A -> list X) l : Permutation (flat_map (fun a => f a ++ g a) l) (flat_map f l ++ flat_map g l).
Proof.
  induction l as [|a l IH]; cbn [flat_map]; [constructor|]. rewrite IH, <- !app_assoc. apply Permutation_app_head. rewrite !app_assoc. apply Permutation_app_tail, Permutation_app_comm.
Qed.
Lemma flat_map_swap {A B X} (h : A -> B -> list X) la lb :
  Permutation (flat_map (fun a => flat_map (fun b => h a b) lb) la) (flat_map (fun b => flat_map (fun a => h a b) la) lb).
Proof.
  induction la as [|a la IH]; cbn [flat_map]; [rewrite flat_map_nil; constructor|].
  rewrite IH. symmetry. apply flat_map_split.
Qed.
Lemma rows_reorder {X} (tab : N -> list T) L L' : Permutation L L' -> NoDup L -> forall F : row -> list X, only_get F ->
  Permutation (flat_map F (rows_of tab L)) (flat_map F (rows_of tab L')).
Proof.
  induction 1 as [|i L L' H IH|i j L|L1 L2 L3 H1 IH1 H2 IH2]; intros ND F HF.
  - reflexivity.
  - cbn [rows_of]. rewrite !flat_map_flat_map. apply flat_map_perm_in. intros x _. rewrite !flat_map_map. apply IH; [inversion ND; assumption|]. apply only_get_cons, HF.
  - cbn [rows_of]. rewrite !flat_map_flat_map.
    assert (Hne : i <> j) by (inversion ND as [|? ? Hn _]; subst; intros ->; apply Hn; left; reflexivity).
    erewrite flat_map_ext; [|intros x; rewrite flat_map_map, flat_map_flat_map; reflexivity].
    erewrite (flat_map_ext (fun x => flat_map F _)); [|intros x; rewrite flat_map_map, flat_map_flat_map; reflexivity].
    rewrite flat_map_swap. apply flat_map_perm_in. intros y _. apply flat_map_perm_in. intros x _. rewrite !flat_map_map.
    erewrite flat_map_ext; [reflexivity|]. intros r. apply HF. intros k. cbn [get]. destruct (N.eqb_spec k j), (N.eqb_spec k i); congruence.
  - rewrite IH1 by assumption. apply IH2; [|exact HF]. eapply Permutation_NoDup; eassumption.
Qed.
Lemma get_combine : forall (combo : list T) a i, get (combine (map N.of_nat (seq a (length combo))) combo) i =
  if i <? N.of_nat a then None else nth_error combo (N.to_nat i - a).
Proof.
  induction combo as [|x combo IH]; intros a i; cbn [length seq map combine get].
  - destruct (i <? N.of_nat a); [reflexivity|]. destruct (N.to_nat i - a)%nat; reflexivity.
  - rewrite IH. destruct (N.eqb_spec i (N.of_nat a)) as [->|Hne].
    + rewrite Nat2N.id, Nat.sub_diag. destruct (N.ltb_spec (N.of_nat a) (N.of_nat a)); [lia|reflexivity].
    + destruct (N.ltb_spec i (N.of_nat (S a))) as [H|H], (N.ltb_spec i (N.of_nat a)) as [H'|H']; try lia; [reflexivity|].
      replace (N.to_nat i - a)%nat with (S (N.to_nat i - S a))%nat by lia. reflexivity.
Qed.
Lemma get_combine_ids (combo : list T) i : get (combine (ids (length combo)) combo) i = row_of combo i.
Proof. unfold ids. rewrite get_combine. destruct (N.ltb_spec i (N.of_nat 0)); [lia|]. unfold row_of. rewrite Nat.sub_0_r. reflexivity. Qed.
Lemma product_length {X} (ls : list (list X)) combo : In combo (product ls) -> length combo = length ls.
Proof.
  revert combo. induction ls as [|l ls IH]; cbn [product]; intros combo H; [destruct H as [<-|[]]; reflexivity|].
  apply in_flat_map in H. destruct H as [x [_ H]]. apply in_map_iff in H. destruct H as [c' [<- H]]. cbn. rewrite (IH c' H). reflexivity.
Qed.
Lemma parts_combine (combo : list T) : parts (length combo) (combine (ids (length combo)) combo) = map Some combo.
Proof.
  unfold parts. erewrite map_ext; [|intros i; apply get_combine_ids]. unfold ids, row_of. rewrite map_map. erewrite map_ext; [|intros i; rewrite Nat2N.id; reflexivity].
  induction combo as [|x combo IH] using rev_ind; [reflexivity|]. rewrite app_length, Nat.add_comm. cbn [length Nat.add]. rewrite seq_S, !map_app. cbn [map Nat.add]. rewrite nth_error_app2, Nat.sub_diag by lia. cbn [nth_error].
  f_equal. rewrite <- IH. apply map_ext_in. intros i Hi. apply in_seq in Hi. apply nth_error_app1. lia.
Qed.
Lemma where_true_hts cs (combo : list T) : where_true cs combo = hts cs (row_of combo).
Proof.
  unfold where_true, hts. induction cs as [|c cs IH]; [reflexivity|]. cbn [forallb]. rewrite IH. f_equal. unfold ht. induction c as [|l c IHc]; [reflexivity|]. cbn [existsb]. rewrite IHc. f_equal.
  destruct l as [ng sm i f j g|refs fn]; cbn [lit_true lit_eval]; [|reflexivity]. destruct (row_of combo i), (row_of combo j); try reflexivity. symmetry. apply eq3_sql.
Qed.
Lemma flat_map_if {A B} (p : A -> bool) (f : A -> B) l : flat_map (fun a => if p a then [f a] else []) l = map f (filter p l).
Proof. induction l as [|a l IH]; cbn; [reflexivity|]. destruct (p a); cbn; rewrite IH; reflexivity. Qed.

(** ** the clauses of a query *)
Lemma clause_W64 n c : (n < 64)%nat -> clause_ok n c -> W64 (clause_sources c).
Proof. intros Hn [_ H]. unfold W64. eapply N.lt_trans; [exact H|]. apply N.pow_lt_mono_r; lia. Qed.
Lemma two_or_less c : W64 (clause_sources c) -> clause_sources c = 0 \/ (exists i, i < 64 /\ clause_sources c = 2 ^ i) \/ is_join c = true.
Proof.
  intros HW. unfold is_join. rewrite size_zero. destruct (N.eqb_spec (clause_sources c) 0) as [E|E]; [left; exact E|right].
  destruct (sbs_size (clause_sources c) =? 1) eqn:E1; [left; apply singleton_iff; assumption|right; reflexivity].
Qed.
Lemma bit_small s n i : s < 2 ^ n -> N.testbit s i = true -> i < n.
Proof. intros H Hi. destruct (N.lt_ge_cases i n) as [|Hn]; [assumption|]. rewrite (testbit_high s n i H Hn) in Hi. discriminate. Qed.
Lemma bits_of_ones n i : N.testbit (N.ones n) i = true <-> i < n.
Proof. split; intros H; [|apply N.ones_spec_low, H]. destruct (N.lt_ge_cases i n) as [|Hn]; [assumption|]. rewrite N.ones_spec_high in H by exact Hn. discriminate. Qed.

(** [E] finds, given enough time, a join tree of all sources *)
Definition finds_tree {C} (E : nat -> option (PlanEnum.table C)) (n : N) : Prop :=
  exists K, forall f, (K <= f)%nat -> exists PT t J, E f = Some PT /\ describes PT (N.ones n) t /\ jvalid J t.

Lemma core {C} (enumerate : option matrix -> nat -> N -> PlanEnum.table C -> option (PlanEnum.table C)) inf leaf weight std_sort sources cs :
  sorts std_sort -> (0 < length sources < 64)%nat -> Forall (clause_ok (length sources)) cs -> Forall plain cs -> delivers_parts sources ->
  finds_tree (fun f => enumerate (adjacency (filter is_join cs) (fun _ => 0)) f (N.of_nat (length sources)) (pt_init inf leaf)) (N.of_nat (length sources)) ->
  exists K, forall f, (K <= f)%nat -> exists p, optimize_joins enumerate inf leaf weight std_sort f sources cs = Some p /\
    (forall rows, answer p rows -> answers_from_where sources cs rows) /\
    (Forall (safe false) sources -> hash_safe sources cs -> safe true p).
Proof.
  intros Hst Hn HC HPl HDP [K HK]. exists (Nat.max K 64). intros f Hf. destruct (HK f) as [PT [t [J [EPT [HD HV]]]]]; [lia|].
  assert (HW : Forall (fun c => W64 (clause_sources c)) cs) by (eapply Forall_impl; [|exact HC]; intros c; apply clause_W64; lia).
  pose proof (classify_spec cs (N.of_nat (length sources)) HW (fun _ => []) []) as [CF CJ]. cbn [app] in CF, CJ.
  unfold optimize_joins. destruct (classify cs (N.of_nat (length sources)) (fun _ => []) []) as [filters joins]. cbn [fst snd] in CF, CJ. subst joins. rewrite EPT.
  set (raw := fun i => nth (N.to_nat i) sources (Scan [])).
  set (sp := fun i => match nth_error sources (N.to_nat i) with Some p => source_plan weight std_sort p (filters i) | None => None end).
  assert (Hraw : forall i, i < N.of_nat (length sources) -> nth_error sources (N.to_nat i) = Some (raw i)) by (intros i Hi; unfold raw; apply nth_error_nth'; lia).
  assert (Hflt : forall i c, In c (filters i) -> is_filter_of i c = true) by (intros i c Hc; rewrite CF in Hc; apply filter_In in Hc; tauto).
  assert (Hsrc : forall i, N.testbit (N.ones (N.of_nat (length sources))) i = true -> exists q, sp i = Some q /\
    (forall rows, answer q rows -> exists t, answer (raw i) (map (fun x => [(i, x)]) t) /\ rows = filter (fun r => hts (filters i) (get r)) (map (fun x => [(i, x)]) t)) /\
    (safe false (raw i) -> safe false q)).
  { intros i Hi. apply bits_of_ones in Hi. unfold sp. rewrite (Hraw i Hi). destruct (source_plan_spec weight std_sort Hst (raw i) (filters i)) as [q [E1 [E2 E3]]].
    { apply Forall_forall. intros c Hc. rewrite CF in Hc. apply filter_In in Hc. rewrite Forall_forall in HC. apply (HC c). tauto. }
    exists q. split; [exact E1|]. split; [|exact E3]. intros rows A. apply E2 in A. destruct A as [l [A ->]].
    destruct (HDP (N.to_nat i) (raw i) (Hraw i Hi) l A) as [tb ->]. unfold part in A. rewrite N2Nat.id in A. exists tb. split; [exact A|]. unfold part. rewrite N2Nat.id. reflexivity. }
  destruct (C35_valid_tree J t HV) as [ND ML].
  assert (Hlen : (length (jleaves t) <= 64)%nat).
  { assert (Hincl : incl (jleaves t) (ids 64)).
    { intros i Hi. assert (Hi64 : i < 64). { apply ML in Hi. destruct (jset_W64 J t HV) as [W _]. eapply bit_small; [exact W|exact Hi]. }
      unfold ids. apply in_map_iff. exists (N.to_nat i). split; [apply N2Nat.id|apply in_seq; lia]. }
    apply (NoDup_incl_length ND) in Hincl. unfold ids in Hincl. rewrite map_length, seq_length in Hincl. exact Hincl. }
  destruct (construct_spec PT raw filters sp (N.ones (N.of_nat (length sources))) Hsrc Hflt J t (N.ones (N.of_nat (length sources))) HD HV (fun k H => H) f (filter is_join cs))
    as [p [Ep [Ej [Ap Sp]]]].
  { lia. } { apply Forall_forall. intros c Hc. apply filter_In in Hc. tauto. }
  { apply Forall_filter. eapply Forall_impl; [|exact HPl]. intros c Hc. exact Hc. }
  rewrite Ep. exists p. split; [reflexivity|]. rewrite Ej in ML.
  assert (HL : forall i, In i (jleaves t) <-> i < N.of_nat (length sources)) by (intros i; rewrite ML; apply bits_of_ones).
  assert (HPm : Permutation (jleaves t) (ids (length sources))).
  { apply NoDup_Permutation; [exact ND| |].
    - unfold ids. apply FinFun.Injective_map_NoDup; [intros a b H; apply Nat2N.inj, H|apply seq_NoDup].
    - intros i. rewrite HL. unfold ids. rewrite in_map_iff. split; [intros H; exists (N.to_nat i); split; [apply N2Nat.id|apply in_seq; lia]|intros [k [<- H]]; apply in_seq in H; lia]. }
  split.
  - intros rows A. destruct (Ap rows A) as [tab [B Pm]]. exists (map tab (ids (length sources))). split.
    + unfold ids. split; [rewrite !map_length, seq_length; reflexivity|]. intros i q tb Hq Ht. rewrite map_map in Ht.
      assert (Hi : (i < length sources)%nat) by (apply nth_error_Some; congruence).
      assert (Et : nth_error (map (fun x => tab (N.of_nat x)) (seq 0 (length sources))) i = Some (tab (N.of_nat i))).
      { rewrite nth_error_map, (nth_error_nth' (seq 0 (length sources)) 0%nat) by (rewrite seq_length; exact Hi). rewrite seq_nth by exact Hi. reflexivity. }
      rewrite Et in Ht. injection Ht as <-. assert (Eq : q = raw (N.of_nat i)).
      { pose proof (Hraw (N.of_nat i) ltac:(lia)) as X. rewrite Nat2N.id in X. congruence. }
      subst q. apply B. apply HL. lia.
    + rewrite Pm. rewrite <- flat_map_if.
      assert (OG : only_get (fun a : row => if holds_at filters (filter is_join cs) t a then [parts (length sources) a] else [])).
      { intros r r' E. assert (E1 : holds_at filters (filter is_join cs) t r = holds_at filters (filter is_join cs) t r').
        { unfold holds_at. f_equal; [apply hts_ext; intros; apply E|]. clear - E. induction (jleaves t) as [|i L IH]; [reflexivity|]. cbn [forallb]. f_equal; [apply hts_ext; intros; apply E|exact IH]. }
        rewrite E1. assert (E2 : parts (length sources) r = parts (length sources) r') by (unfold parts; apply map_ext; exact E). rewrite E2. reflexivity. }
      rewrite (rows_reorder tab _ _ HPm ND _ OG), flat_map_if, rows_combine. unfold from_where.
      assert (Hprod : forall combo, In combo (product (map tab (ids (length sources)))) -> length combo = length sources).
      { intros combo H. apply product_length in H. unfold ids in H. rewrite !map_length, seq_length in H. exact H. }
      assert (Hh : forall combo, length combo = length sources -> holds_at filters (filter is_join cs) t (combine (ids (length sources)) combo) = where_true cs combo).
      { intros combo El. rewrite where_true_hts. unfold holds_at. rewrite Ej.
        assert (Ge : forall i, get (combine (ids (length sources)) combo) i = row_of combo i) by (rewrite <- El; apply get_combine_ids).
        assert (E1 : forall l, hts l (get (combine (ids (length sources)) combo)) = hts l (row_of combo)) by (intros l; apply hts_ext; intros; apply Ge). rewrite E1.
        assert (E2 : forallb (fun i => hts (filters i) (get (combine (ids (length sources)) combo))) (jleaves t) = forallb (fun i => hts (filters i) (row_of combo)) (jleaves t)).
        { clear - E1. induction (jleaves t) as [|i L IH]; [reflexivity|]. cbn [forallb]. rewrite E1, IH. reflexivity. }
        rewrite E2. apply Bool.eq_true_iff_eq. rewrite andb_true_iff. unfold hts. rewrite !forallb_forall. split.
        - intros [H1 H2] c Hc. rewrite Forall_forall in HC, HW. destruct (two_or_less c (HW c Hc)) as [E0|[[i [Hi E0]]|E0]].
          + specialize (H2 0 ltac:(apply HL; lia)). rewrite forallb_forall in H2. apply H2. rewrite CF. apply filter_In. split; [exact Hc|]. unfold is_filter_of. rewrite E0. reflexivity.
          + assert (Hi' : i < N.of_nat (length sources)). { destruct (HC c Hc) as [_ X]. eapply bit_small; [exact X|]. rewrite E0. apply N.pow2_bits_true. }
            specialize (H2 i (proj2 (HL i) Hi')). rewrite forallb_forall in H2. apply H2. rewrite CF. apply filter_In. split; [exact Hc|]. unfold is_filter_of. rewrite E0, (N.eqb_refl (2 ^ i)). apply orb_true_r.
          + apply H1. apply filter_In. split; [apply filter_In; split; assumption|]. apply inside_spec. intros k Hk. apply bits_of_ones. destruct (HC c Hc) as [_ X]. eapply bit_small; eassumption.
        - intros H. split.
          + intros c Hc. apply H. rewrite !filter_In in Hc. tauto.
          + intros i Hi. apply forallb_forall. intros c Hc. apply H. rewrite CF in Hc. apply filter_In in Hc. tauto. }
      assert (Hfin : forall l, (forall combo, In combo l -> length combo = length sources) ->
        map (parts (length sources)) (filter (holds_at filters (filter is_join cs) t) (map (combine (ids (length sources))) l)) = map (map Some) (filter (where_true cs) l)).
      { intros l. induction l as [|combo l IH]; intros HH; [reflexivity|]. assert (El : length combo = length sources) by (apply HH; left; reflexivity). cbn [map filter]. rewrite (Hh combo El).
        destruct (where_true cs combo); cbn [map]; rewrite IH by (intros; apply HH; right; assumption); [|reflexivity]. f_equal. rewrite <- El. apply parts_combine. }
      rewrite Hfin by exact Hprod. reflexivity.
  - intros HSf HH. apply Sp.
    + intros i Hi. apply HL in Hi. rewrite Forall_forall in HSf. apply HSf. eapply nth_error_In. apply Hraw, Hi.
    + intros ng sm i g j h Hc x y Hx Hy. apply filter_In in Hc. destruct Hc as [Hc Hj].
      assert (Hne : i <> j).
      { intros ->. unfold is_join in Hj. cbn [clause_sources fold_right lit_sources] in Hj. rewrite N.lor_diag, N.lor_0_r, size_pow2 in Hj. rewrite andb_false_r in Hj. discriminate. }
      rewrite Forall_forall in HC. pose proof (HC _ Hc) as [_ Hb]. cbn [clause_sources fold_right lit_sources] in Hb. rewrite N.lor_0_r in Hb.
      assert (Har : forall k z, k < N.of_nat (length sources) -> arrives raw filters k z -> arriving sources cs k z).
      { intros k z Hk [tb [A1 [A2 A3]]]. exists (raw k), tb. split; [apply Hraw, Hk|]. split; [unfold part; rewrite N2Nat.id; exact A1|]. split; [exact A2|].
        intros c Hcc Hs. unfold hts in A3. rewrite forallb_forall in A3. assert (Hfc : In c (filters k)).
        { rewrite CF. apply filter_In. split; [exact Hcc|]. unfold is_filter_of. destruct (N.eq_dec (clause_sources c) 0) as [->|Hz]; [reflexivity|]. apply orb_true_iff. right. apply N.eqb_eq.
          apply N.bits_inj. intros m. rewrite N.pow2_bits_eqb. destruct (N.testbit (clause_sources c) m) eqn:Em.
          - rewrite (Hs m Em), N.eqb_refl. reflexivity.
          - destruct (N.eqb_spec k m) as [->|]; [|reflexivity]. exfalso. apply Hz. apply N.bits_inj. intros q. rewrite N.bits_0. destruct (N.testbit (clause_sources c) q) eqn:Eq; [|reflexivity].
            rewrite (Hs q Eq) in Eq. congruence. }
        specialize (A3 c Hfc). rewrite (ht_ext c (get [(k, z)]) (fun j0 => if j0 =? k then Some z else None)) in A3 by reflexivity. unfold ht in A3. apply existsb_exists in A3. destruct A3 as [l [L1 L2]].
        exists l. split; [exact L1|]. destruct (lit_eval l (fun j0 => if j0 =? k then Some z else None)) as [[]|]; cbn in L2; congruence. }
      apply (HH ng sm i g j h Hc Hne); apply Har; try assumption; eapply bit_small; [exact Hb|apply testbit_lor_l, N.pow2_bits_true|exact Hb|apply testbit_lor_r, N.pow2_bits_true].
Qed.

(** ** the join graph *)
Lemma two_elems c : W64 (clause_sources c) -> is_join c = true -> binary c -> exists i j, elems (clause_sources c) = [i; j] /\ i <> j /\ clause_sources c = N.lor (2 ^ i) (2 ^ j).
Proof.
  intros HW HJ HB. unfold is_join in HJ. rewrite size_spec in HJ by exact HW.
  pose proof (StronglySorted_lt_NoDup _ (elems_sorted (clause_sources c))) as ND. pose proof (fun x => in_elems (clause_sources c) x HW) as IE.
  destruct (elems (clause_sources c)) as [|i [|j [|k l]]]; [cbn in HJ; discriminate|cbn in HJ; discriminate| |].
  - exists i, j. split; [reflexivity|]. split; [inversion ND as [|? ? Hn _]; subst; intros ->; apply Hn; left; reflexivity|].
    apply N.bits_inj. intros x. rewrite N.lor_spec, !N.pow2_bits_eqb. destruct (N.testbit (clause_sources c) x) eqn:E.
    + apply IE in E. destruct E as [->|[->|[]]]; rewrite N.eqb_refl; [reflexivity|symmetry; apply orb_true_r].
    + assert (H : ~ In x [i; j]) by (intros H; apply IE in H; congruence).
      destruct (N.eqb_spec i x) as [->|]; [exfalso; apply H; left; reflexivity|]. destruct (N.eqb_spec j x) as [->|]; [exfalso; apply H; right; left; reflexivity|]. reflexivity.
  - exfalso. assert (Hi : N.testbit (clause_sources c) i = true) by (apply IE; cbn; tauto). assert (Hj : N.testbit (clause_sources c) j = true) by (apply IE; cbn; tauto).
    assert (Hk : N.testbit (clause_sources c) k = true) by (apply IE; cbn; tauto).
    inversion ND as [|? ? N1 N2]; subst. inversion N2 as [|? ? N3 N4]; subst. destruct (HB i j k Hi Hj Hk) as [->|[->| ->]]; [apply N1|apply N3|apply N1]; cbn; tauto.
Qed.
Lemma lor_pow2_eq a b i j : a <> b -> i <> j -> N.lor (2 ^ a) (2 ^ b) = N.lor (2 ^ i) (2 ^ j) -> (a = i /\ b = j) \/ (a = j /\ b = i).
Proof.
  intros Hab Hij E.
  assert (Ha : N.testbit (N.lor (2 ^ i) (2 ^ j)) a = true) by (rewrite <- E, N.lor_spec, N.pow2_bits_true; reflexivity).
  assert (Hb : N.testbit (N.lor (2 ^ i) (2 ^ j)) b = true) by (rewrite <- E, N.lor_spec, N.pow2_bits_true; apply orb_true_r).
  rewrite N.lor_spec, !N.pow2_bits_eqb, orb_true_iff, !N.eqb_eq in Ha, Hb. lia.
Qed.
Lemma adjacency_spec (n : nat) : (n < 64)%nat -> forall cs m, Forall (clause_ok n) cs -> Forall binary cs -> Forall (fun c => is_join c = true) cs ->
  (forall a, W64 (m a)) -> graph (N.of_nat n) m -> symmetric m ->
  exists m', adjacency cs m = Some m' /\ graph (N.of_nat n) m' /\ symmetric m' /\ forall i j, edge m' i j <-> edge m i j \/ linked cs i j.
Proof.
  intros Hn. induction cs as [|c cs IH]; intros m HC HB HJ HW HG HS.
  - exists m. split; [reflexivity|]. split; [exact HG|]. split; [exact HS|]. intros i j. split; [tauto|]. intros [H|[_ [c [[] _]]]]. exact H.
  - inversion HC as [|? ? C1 C2]; subst. inversion HB as [|? ? B1 B2]; subst. inversion HJ as [|? ? J1 J2]; subst. cbn [adjacency].
    destruct (two_elems c (clause_W64 n c Hn C1) J1 B1) as [a [b [E [Hab Es]]]]. rewrite E.
    assert (Ha : a < N.of_nat n). { destruct C1 as [_ X]. eapply bit_small; [exact X|]. rewrite Es. apply testbit_lor_l, N.pow2_bits_true. }
    assert (Hb : b < N.of_nat n). { destruct C1 as [_ X]. eapply bit_small; [exact X|]. rewrite Es. apply testbit_lor_r, N.pow2_bits_true. }
    assert (W1 : forall x, W64 (mset m b a true x)) by (apply mset_W64; [exact HW|lia]).
    assert (W2 : forall x, W64 (mset (mset m b a true) a b true x)) by (apply mset_W64; [exact W1|lia]).
    assert (Ed : forall x y, edge (mset (mset m b a true) a b true) x y <-> edge m x y \/ (x = a /\ y = b) \/ (x = b /\ y = a)).
    { intros x y. unfold edge. pose proof (mset_mem (mset m b a true) a b true x y (W1 a) ltac:(lia)) as M1. pose proof (mset_mem m b a true x y (HW b) ltac:(lia)) as M2. rewrite M1. clear M1.
      destruct (N.eqb_spec x a) as [Xa|Xa], (N.eqb_spec y b) as [Yb|Yb]; cbn [andb]; try (split; intros; [right; left; tauto|reflexivity]); rewrite M2; clear M2;
        destruct (N.eqb_spec x b) as [Xb|Xb], (N.eqb_spec y a) as [Ya|Ya]; cbn [andb]; try (split; intros; [right; right; tauto|reflexivity]); (split; [tauto|]; intros [H|[[H1 H2]|[H1 H2]]]; [exact H|congruence|congruence]). }
    destruct (IH (mset (mset m b a true) a b true)) as [m' [E1 [E2 [E3 E4]]]]; try assumption.
    + split; [destruct HG; assumption|]. intros x y H. apply Ed in H. destruct H as [H|[[-> ->]|[-> ->]]]; [apply HG; exact H|tauto|tauto].
    + intros x y H. apply Ed in H. apply Ed. destruct H as [H|H]; [left; apply HS, H|right; tauto].
    + exists m'. split; [exact E1|]. split; [exact E2|]. split; [exact E3|]. intros i j. rewrite E4, Ed. unfold linked. split.
      * intros [[H|H]|[H1 [c' [H2 H3]]]]; [left; exact H| |].
        -- right. assert (i <> j) by (destruct H as [[-> ->]|[-> ->]]; congruence). split; [assumption|]. exists c. split; [left; reflexivity|]. destruct H as [[-> ->]|[-> ->]]; [exact Es|]. rewrite N.lor_comm. exact Es.
        -- right. split; [exact H1|]. exists c'. split; [right; exact H2|exact H3].
      * intros [H|[H1 [c' [[<-|H2] H3]]]]; [tauto| |].
        -- left. right. rewrite Es in H3. destruct (lor_pow2_eq a b i j Hab H1 H3) as [[-> ->]|[-> ->]]; tauto.
        -- right. split; [exact H1|]. exists c'. tauto.
Qed.
Lemma linked_joins n cs i j : (n < 64)%nat -> Forall (clause_ok n) cs -> linked (filter is_join cs) i j <-> linked cs i j.
Proof.
  intros Hn HC. unfold linked. split; intros [H [c [H1 H2]]]; (split; [exact H|]); exists c; (split; [|exact H2]).
  - apply filter_In in H1. tauto.
  - apply filter_In. split; [exact H1|]. rewrite Forall_forall in HC. destruct (two_or_less c (clause_W64 n c Hn (HC c H1))) as [E|[[k [_ E]]|E]]; [| |exact E]; exfalso; rewrite E in H2.
    + assert (X : N.testbit 0 i = true) by (rewrite H2; apply testbit_lor_l, N.pow2_bits_true). rewrite N.bits_0 in X. discriminate.
    + assert (X : N.testbit (2 ^ k) i = true) by (rewrite H2; apply testbit_lor_l, N.pow2_bits_true).
      assert (Y : N.testbit (2 ^ k) j = true) by (rewrite H2; apply testbit_lor_r, N.pow2_bits_true). rewrite N.pow2_bits_eqb, N.eqb_eq in X, Y. congruence.
Qed.
Lemma linked_bound n cs i j : Forall (clause_ok n) cs -> linked cs i j -> i < N.of_nat n /\ j < N.of_nat n.
Proof.
  intros HC [_ [c [H1 H2]]]. rewrite Forall_forall in HC. destruct (HC c H1) as [_ X]. split; (eapply bit_small; [exact X|]); rewrite H2; [apply testbit_lor_l|apply testbit_lor_r]; apply N.pow2_bits_true.
Qed.
Lemma query_graph (n : nat) cs : (0 < n < 64)%nat -> Forall (clause_ok n) cs -> Forall binary cs -> joined n cs ->
  exists m, adjacency (filter is_join cs) (fun _ => 0) = Some m /\ graph (N.of_nat n) m /\ symmetric m /\ connected m (N.ones (N.of_nat n)) /\ forall i j, edge m i j <-> linked cs i j.
Proof.
  intros Hn HC HB HJn.
  destruct (adjacency_spec n ltac:(lia) (filter is_join cs) (fun _ => 0)) as [m [E1 [E2 [E3 E4]]]].
  { apply Forall_filter, HC. } { apply Forall_filter, HB. } { apply Forall_forall. intros c H. apply filter_In in H. tauto. }
  { intros a. unfold W64. reflexivity. }
  { split; [lia|]. intros i j H. unfold edge, mem in H. rewrite N.bits_0 in H. discriminate. }
  { intros i j H. unfold edge, mem in H. rewrite N.bits_0 in H. discriminate. }
  assert (Ed : forall i j, edge m i j <-> linked cs i j).
  { intros i j. rewrite E4, (linked_joins n) by (lia || exact HC). split; [intros [H|H]; [|exact H]; unfold edge, mem in H; rewrite N.bits_0 in H; discriminate|tauto]. }
  exists m. split; [exact E1|]. split; [exact E2|]. split; [exact E3|]. split; [|exact Ed].
  intros i j Hi Hj. apply bits_of_ones in Hi. apply bits_of_ones in Hj. specialize (HJn i j Hi Hj). induction HJn as [i|i j k H IH L].
  - apply path_refl. apply bits_of_ones. exact Hi.
  - destruct (linked_bound n cs j k HC L) as [Hj' _]. eapply path_step; [apply IH; [exact Hi|exact Hj']|apply Ed, L|apply bits_of_ones, Hj].
Qed.
End Claims.

(** ** C51 FROM and WHERE
    A query whose plan is searched with [E]: the plan found by the optimizer exists, and all its answers are answers to FROM and WHERE. *)
Section Theorems.
Context {T : Type} (sources : list (@plan (list (N * T)))) (cs : list (@clause T)) (weight : @clause T -> N)
  (std_sort : (@clause T -> @clause T -> bool) -> list (@clause T) -> list (@clause T)).
Local Notation n := (length sources).

(** [std_sort] sorts; there are 1 to 63 sources, each one a table; no clause is empty or refers to an unknown source; the two sides of an equality
    between two sources have the same type, and it is not written [NOT (x <> y)] *)
Definition proper : Prop := sorts std_sort /\ (0 < n < 64)%nat /\ Forall (clause_ok n) cs /\ Forall plain cs /\ delivers_parts sources.
(** the optimizer ends, and the answers of its plan are the rows of FROM and WHERE *)
Definition plans {C : Type} (E : option matrix -> nat -> N -> PlanEnum.table C -> option (PlanEnum.table C)) (inf : C) (leaf : N -> C) : Prop :=
  exists K, forall fuel, (K <= fuel)%nat -> exists p, optimize_joins E inf leaf weight std_sort fuel sources cs = Some p /\
    forall rows, answer p rows -> answers_from_where sources cs rows.
(** the interpreter runs this plan and delivers these rows *)
Definition runs {C : Type} (E : option matrix -> nat -> N -> PlanEnum.table C -> option (PlanEnum.table C)) (inf : C) (leaf : N -> C) : Prop :=
  exists K, forall fuel, (K <= fuel)%nat -> exists p, optimize_joins E inf leaf weight std_sort fuel sources cs = Some p /\
    forall shuffle row_sort, any_order shuffle -> sorts row_sort -> exists rows, run shuffle row_sort p = Some rows /\ answers_from_where sources cs rows.
Definition executable : Prop := Forall (safe false) sources /\ hash_safe sources cs.
Lemma both {C} (E : option matrix -> nat -> N -> PlanEnum.table C -> option (PlanEnum.table C)) inf leaf : proper ->
  finds_tree (fun f => E (adjacency (filter is_join cs) (fun _ => 0)) f (N.of_nat n) (pt_init inf leaf)) (N.of_nat n) ->
  plans E inf leaf /\ (executable -> runs E inf leaf).
Proof.
  intros [H1 [H2 [H3 [H4 H5]]]] HF. destruct (core E inf leaf weight std_sort sources cs H1 H2 H3 H4 H5 HF) as [K HK]. split.
  - exists K. intros f Hf. destruct (HK f Hf) as [p [E1 [E2 _]]]. exists p. split; assumption.
  - intros [X1 X2]. exists K. intros f Hf. destruct (HK f Hf) as [p [E1 [E2 E3]]]. exists p. split; [exact E1|]. intros sh so Hsh Hso.
    destruct (C46_run sh so p Hsh Hso (E3 X1 X2)) as [rows [R1 R2]]. exists rows. split; [exact R1|apply E2, R2].
Qed.

(** all enumerators but DPccp and PEall: if the sources are connected by clauses of two sources and no clause has more of them *)
Theorem C51_from_where : proper -> Forall binary cs -> joined n cs ->
  forall E, In E (bottom_up ++ top_down) -> forall (C : Type) (lt : C -> C -> bool) jc inf leaf, cost_model lt jc ->
  plans (on_graph (E C lt jc)) inf leaf /\ (executable -> runs (on_graph (E C lt jc)) inf leaf).
Proof.
  intros HP HB HJ E HE C lt jc inf leaf HCM. apply both; [exact HP|]. destruct HP as [_ [Hn [HC _]]].
  destruct (query_graph n cs Hn HC HB HJ) as [m [E1 [E2 [E3 [E4 _]]]]]. rewrite E1. cbn [on_graph].
  destruct (C35_optimal E HE C lt jc inf leaf HCM (N.of_nat n) m ltac:(lia) E2 E3 E4) as [K HK]. exists K. intros f Hf. destruct (HK f Hf) as [PT [t [X1 [X2 [[X3 _] _]]]]].
  exists PT, t, (adjacent m). tauto.
Qed.
(** DPccp needs a join graph in which distances do not change in connected parts, for instance one without cycles *)
Theorem C51_dpccp : proper -> Forall binary cs -> joined n cs ->
  (forall m, (forall i j, edge m i j <-> linked cs i j) -> acyclic m \/ distance_hereditary m (N.ones (N.of_nat n))) ->
  forall (C : Type) (lt : C -> C -> bool) jc inf leaf, cost_model lt jc ->
  plans (on_graph (dpccp lt jc)) inf leaf /\ (executable -> runs (on_graph (dpccp lt jc)) inf leaf).
Proof.
  intros HP HB HJ HD C lt jc inf leaf HCM. apply both; [exact HP|]. destruct HP as [_ [Hn [HC _]]].
  destruct (query_graph n cs Hn HC HB HJ) as [m [E1 [E2 [E3 [E4 E5]]]]]. rewrite E1. cbn [on_graph].
  assert (HDH : distance_hereditary m (N.ones (N.of_nat n))). { destruct (HD m E5) as [Ha|Hd]; [|exact Hd]. apply acyclic_distance_hereditary; assumption. }
  assert (Hz : N.ones (N.of_nat n) <> 0). { intros X. assert (Y : N.testbit (N.ones (N.of_nat n)) 0 = true) by (apply bits_of_ones; lia). rewrite X, N.bits_0 in Y. discriminate. }
  assert (Hlt : N.ones (N.of_nat n) < 2 ^ N.of_nat n) by (rewrite N.ones_equiv; pose proof (N.pow_nonzero 2 (N.of_nat n)); lia).
  destruct (C35_dpccp C lt jc inf leaf HCM (N.of_nat n) m (N.ones (N.of_nat n)) ltac:(lia) E2 E3 HDH Hz Hlt E4) as [K HK]. exists K. intros f Hf. destruct (HK f Hf) as [PT [t [X1 [X2 [[X3 _] _]]]]].
  exists PT, t, (adjacent m). tauto.
Qed.
(** PEall plans every proper query: with cross products and with clauses of any number of sources *)
Theorem C51_pe_all : proper -> forall (C : Type) (lt : C -> C -> bool) jc inf leaf, cost_model lt jc ->
  plans (on_any (pe_all lt jc)) inf leaf /\ (executable -> runs (on_any (pe_all lt jc)) inf leaf).
Proof.
  intros HP C lt jc inf leaf HCM. apply both; [exact HP|]. destruct HP as [_ [Hn [HC _]]]. unfold on_any.
  assert (Hz : N.ones (N.of_nat n) <> 0). { intros X. assert (Y : N.testbit (N.ones (N.of_nat n)) 0 = true) by (apply bits_of_ones; lia). rewrite X, N.bits_0 in Y. discriminate. }
  assert (Hlt : N.ones (N.of_nat n) < 2 ^ N.of_nat n) by (rewrite N.ones_equiv; pose proof (N.pow_nonzero 2 (N.of_nat n)); lia).
  destruct (C35_pe_all C lt jc inf leaf HCM (N.of_nat n) (N.ones (N.of_nat n)) ltac:(lia) Hz Hlt) as [K HK]. exists K. intros f Hf. destruct (HK f Hf) as [PT [t [X1 [X2 [[X3 _] _]]]]].
  exists PT, t, (fun _ _ => True). tauto.
Qed.
End Theorems.
Print Assumptions C51_from_where.
Print Assumptions C51_dpccp.
Print Assumptions C51_pe_all.

(** ** An example: [FROM a, b, c WHERE a.0 = b.0 AND b.1 = c.0 AND a.1 < 10 AND (b.1 = 100 OR c.1 = 7) AND c.1 < 10] *)
Notation tup := (list (option datum)).
Definition tcol (i : nat) (t : tup) : option datum := nth i t None.
Definition tint (z : Z) : option datum := Some (DInt z).
Definition less_than (source : N) (i : nat) (z : Z) : @literal tup :=
  LOther (2 ^ source) (fun args => match args with [Some t] => match tcol i t with Some (DInt x) => Some (Z.ltb x z) | _ => None end | _ => None end).
Definition equals (source : N) (i : nat) (z : Z) : @literal tup :=
  LOther (2 ^ source) (fun args => match args with [Some t] => match tcol i t with Some (DInt x) => Some (Z.eqb x z) | _ => None end | _ => None end).
Definition same_column (i : N) (f : nat) (j : N) (g : nat) : @literal tup := LEqui false true i (tcol f) j (tcol g).
Definition table_of (i : nat) (rows : list tup) : @plan (list (N * tup)) := Scan (map (part i) rows).
Definition a_rows : list tup := [[tint 1; tint 5]; [tint 2; tint 7]; [tint 3; tint 20]; [None; tint 40]; [tint 2; tint 1]].
Definition b_rows : list tup := [[tint 2; tint 100]; [tint 1; tint 10]; [None; tint 1]; [tint 2; tint 50]].
Definition c_rows : list tup := [[tint 100; tint 3]; [tint 50; tint 7]; [tint 50; tint 11]; [tint 10; tint 8]].
Definition abc : list (@plan (list (N * tup))) := [table_of 0 a_rows; table_of 1 b_rows; table_of 2 c_rows].
Definition abc_where : list (@clause tup) :=
  [[same_column 0 0 1 0]; [same_column 2 0 1 1]; [less_than 0 1 10]; [equals 1 1 100; equals 2 1 7]; [less_than 2 1 10]].
Definition plan_with (E : enumerator) (sources : list (@plan (list (N * tup)))) (cs : list (@clause tup)) : option plan :=
  optimize_joins (on_graph (E N N.ltb (cout (fun s => s)))) 1000000 (fun _ => 0) (fun _ => 5) (fun less l => isort less l) 200 sources cs.
Definition run_plan (p : option (@plan (list (N * tup)))) : option (list (list (N * tup))) :=
  match p with Some p => run (fun _ l => l) (fun less l => isort less l) p | None => None end.
Lemma scans_deliver (l : list (list tup)) : delivers_parts (map (fun x => table_of (fst x) (snd x)) (combine (seq 0 (length l)) l)).
Proof.
  intros i p Hp rows A. exists (nth i l []). assert (X : p = table_of i (nth i l [])).
  { assert (G : forall k l, nth_error (map (fun x => table_of (fst x) (snd x)) (combine (seq k (length l)) l)) i = Some p -> p = table_of (k + i) (nth i l [])).
    { clear. induction i as [|i IH]; intros k [|t l] H; cbn in H; try discriminate; [injection H as <-; rewrite Nat.add_0_r; reflexivity|]. apply IH in H. rewrite H. cbn [nth]. f_equal. lia. }
    apply (G 0%nat l Hp). }
  subst p. unfold table_of in A. inversion A; subst. reflexivity.
Qed.
Ltac bit_cases H := repeat (rewrite N.lor_spec in H || rewrite orb_true_iff in H); rewrite ?N.pow2_bits_eqb, ?N.bits_0, ?N.eqb_eq in H.
Lemma arriving_scan sources i rows p t x : nth_error sources (N.to_nat i) = Some (table_of (N.to_nat i) rows) ->
  nth_error sources (N.to_nat i) = Some p -> answer p (map (part (N.to_nat i)) t) -> In x t -> In x rows.
Proof.
  intros E1 E2 A Hx. rewrite E1 in E2. injection E2 as <-. assert (E : map (part (N.to_nat i)) rows = map (part (N.to_nat i)) t) by (unfold table_of in A; inversion A; congruence).
  assert (Hin : In (part (N.to_nat i) x) (map (part (N.to_nat i)) rows)) by (rewrite E; apply in_map, Hx). apply in_map_iff in Hin. destruct Hin as [y [Ey Hy]]. unfold part in Ey. injection Ey as <-. exact Hy.
Qed.
Ltac concrete_permutation :=
  lazymatch goal with
  | |- Permutation [] [] => constructor
  | |- Permutation (?x :: ?l) (?x :: ?r) => apply perm_skip; concrete_permutation
  | |- Permutation (?x :: ?l) (?a :: ?x :: ?r) => apply (@Permutation_cons_app _ l [a] r x); cbn [app]; concrete_permutation
  | |- Permutation (?x :: ?l) (?a :: ?b :: ?x :: ?r) => apply (@Permutation_cons_app _ l [a; b] r x); cbn [app]; concrete_permutation
  | |- Permutation (?x :: ?l) (?a :: ?b :: ?c :: ?x :: ?r) => apply (@Permutation_cons_app _ l [a; b; c] r x); cbn [app]; concrete_permutation
  end.
Theorem C51_inhabited :
  proper abc abc_where (fun less l => isort less l) /\ Forall binary abc_where /\ joined 3 abc_where /\ executable abc abc_where /\
  from_where [a_rows; b_rows; c_rows] abc_where = [[[tint 2; tint 7]; [tint 2; tint 100]; [tint 100; tint 3]]; [[tint 2; tint 7]; [tint 2; tint 50]; [tint 50; tint 7]];
                                                   [[tint 2; tint 1]; [tint 2; tint 100]; [tint 100; tint 3]]; [[tint 2; tint 1]; [tint 2; tint 50]; [tint 50; tint 7]]] /\
  forall E, In E (bottom_up ++ top_down) -> exists rows, run_plan (plan_with E abc abc_where) = Some rows /\
    Permutation (map (parts 3) rows) (map (map Some) (from_where [a_rows; b_rows; c_rows] abc_where)).
Proof.
  split; [|split; [|split; [|split; [|split]]]].
  - split; [apply isort_sorts|]. split; [cbn; lia|]. split; [repeat constructor; discriminate|]. split; [|exact (scans_deliver [a_rows; b_rows; c_rows])].
    repeat apply Forall_cons; try apply Forall_nil; intros ng sm i f j g E0 Hne; try discriminate E0; injection E0; intros; subst; auto.
  - repeat apply Forall_cons; try apply Forall_nil; intros i j k Hi Hj Hk; cbn [abc_where clause_sources fold_right lit_sources same_column less_than equals] in *; bit_cases Hi; bit_cases Hj; bit_cases Hk; intuition (subst; auto; discriminate).
  - assert (L1 : linked abc_where 0 1) by (split; [discriminate|]; exists [same_column 0 0 1 0]; split; [left|]; reflexivity).
    assert (L1' : linked abc_where 1 0) by (split; [discriminate|]; exists [same_column 0 0 1 0]; split; [left|]; reflexivity).
    assert (L2 : linked abc_where 1 2) by (split; [discriminate|]; exists [same_column 2 0 1 1]; split; [right; left|]; reflexivity).
    assert (L2' : linked abc_where 2 1) by (split; [discriminate|]; exists [same_column 2 0 1 1]; split; [right; left|]; reflexivity).
    assert (X : forall i, i < 3 -> i = 0 \/ i = 1 \/ i = 2) by (intros; lia).
    intros i j Hi Hj. apply X in Hi. apply X in Hj.
    destruct Hi as [->|[->| ->]], Hj as [->|[->| ->]]; try apply reach_here; try (eapply reach_next; [apply reach_here|assumption]); eapply reach_next; [|eassumption|idtac|eassumption]; eapply reach_next; try apply reach_here; assumption.
  - split; [repeat constructor|]. assert (HA : forall cs x, arriving abc cs 0 x -> In x a_rows) by (intros cs x [p [t [H1 [H2 [H3 _]]]]]; apply (arriving_scan abc 0 a_rows p t x); assumption || reflexivity).
    assert (HB : forall cs x, arriving abc cs 1 x -> In x b_rows) by (intros cs x [p [t [H1 [H2 [H3 _]]]]]; apply (arriving_scan abc 1 b_rows p t x); assumption || reflexivity).
    assert (HC : forall cs x, arriving abc cs 2 x -> In x c_rows) by (intros cs x [p [t [H1 [H2 [H3 _]]]]]; apply (arriving_scan abc 2 c_rows p t x); assumption || reflexivity).
    intros ng sm i f j g Hc Hne x y Hx Hy. cbn [In abc_where] in Hc. destruct Hc as [E|[E|[E|[E|[E|[]]]]]]; try discriminate E.
    + injection E as <- <- <- <- <- <-. assert (P : passes abc_where 0 x) by (destruct Hx as [p [t [_ [_ [_ H]]]]]; exact H).
      destruct (P [less_than 0 1 10]) as [l [[<-|[]] Hl]]; [right; right; left; reflexivity| |].
      { intros k Hk. cbn [clause_sources fold_right lit_sources less_than] in Hk. bit_cases Hk. destruct Hk as [Hk|Hk]; [symmetry; exact Hk|discriminate]. }
      apply HA in Hx. apply HB in Hy. unfold a_rows, b_rows in Hx, Hy. cbn [In] in Hx, Hy.
      destruct Hx as [<-|[<-|[<-|[<-|[<-|[]]]]]]; try (vm_compute in Hl; discriminate Hl); destruct Hy as [<-|[<-|[<-|[<-|[]]]]]; exact I.
    + injection E as <- <- <- <- <- <-. apply HC in Hx. apply HB in Hy. unfold b_rows, c_rows in Hx, Hy. cbn [In] in Hx, Hy.
      destruct Hx as [<-|[<-|[<-|[<-|[]]]]]; destruct Hy as [<-|[<-|[<-|[<-|[]]]]]; exact I.
  - vm_compute. reflexivity.
  - match goal with |- context [Permutation _ ?r] => let r' := eval vm_compute in r in assert (Er : r = r') by (vm_compute; reflexivity); rewrite Er; clear Er end.
    intros E HE. cbn [In app bottom_up top_down] in HE. repeat (destruct HE as [<-|HE]; [eexists; split; [vm_compute; reflexivity|]|]); [..|destruct HE].
    all: match goal with |- Permutation ?l _ => let l' := eval vm_compute in l in change l with l' end; concrete_permutation.
Qed.

(** ** Queries that cannot be planned
    [plan_with] ends without a plan although the enumerator has ended and delivered a table *)
Definition table_with (E : enumerator) (sources : list (@plan (list (N * tup)))) (cs : list (@clause tup)) : Prop :=
  match adjacency (filter is_join cs) (fun _ => 0) with
  | Some m => E N N.ltb (cout (fun s => s)) m 200%nat (N.of_nat (length sources)) (pt_init 1000000 (fun _ => 0)) <> None
  | None => False
  end.
Definition all_enumerators : list enumerator := bottom_up ++ top_down ++ [fun C lt jc => dpccp lt jc].
Definition ab : list (@plan (list (N * tup))) := [table_of 0 a_rows; table_of 1 b_rows].
(** Finding: [SELECT * FROM a, b, c] has no plan with the bottom-up enumerators, DPccp and TDbasic; the bottom-up enumerators and DPccp do not even
    find one for [SELECT * FROM a, b].  PEall finds one.  (TDMinCut is started outside its contract, MinCutAGaT.hpp 22: an assertion that is
    not part of the model.) *)
Theorem C51_refuted_cross_product : proper abc [] (fun less l => isort less l) /\
  (forall E, In E (bottom_up ++ [(fun C lt jc => dpccp lt jc); (fun C lt jc => tdbasic lt jc)]) -> table_with E abc [] /\ plan_with E abc [] = None) /\
  (forall E, In E (bottom_up ++ [fun C lt jc => dpccp lt jc]) -> table_with E ab [] /\ plan_with E ab [] = None) /\
  optimize_joins (on_any (pe_all N.ltb (cout (fun s => s)))) 1000000 (fun _ => 0) (fun _ => 5) (fun less l => isort less l) 200 abc [] <> None.
Proof.
  split; [|split; [|split]].
  - split; [apply isort_sorts|]. split; [cbn; lia|]. split; [constructor|]. split; [constructor|]. exact (scans_deliver [a_rows; b_rows; c_rows]).
  - intros E HE. unfold bottom_up in HE. cbn [In app] in HE. repeat (destruct HE as [<-|HE]; [split; [vm_compute; discriminate|vm_compute; reflexivity]|]). destruct HE.
  - intros E HE. unfold bottom_up in HE. cbn [In app] in HE. repeat (destruct HE as [<-|HE]; [split; [vm_compute; discriminate|vm_compute; reflexivity]|]). destruct HE.
  - vm_compute. discriminate.
Qed.
(** Finding: a condition on three sources, [a.0 + b.1 = c.0], makes the search for a plan fail even if the sources are connected by other conditions;
    PEall finds a plan *)
Definition sum_is : @literal tup :=
  LOther 7 (fun args => match args with
    | [Some x; Some y; Some z] => match tcol 0 x, tcol 1 y, tcol 0 z with Some (DInt p), Some (DInt q), Some (DInt r) => Some (Z.eqb (p + q) r) | _, _, _ => None end
    | _ => None end).
Definition ternary_where : list (@clause tup) := [[same_column 0 0 1 0]; [same_column 2 0 1 1]; [sum_is]].
Theorem C51_refuted_ternary : proper abc ternary_where (fun less l => isort less l) /\ joined 3 ternary_where /\
  (forall (E : enumerator) C lt jc (inf : C) leaf weight std_sort fuel, optimize_joins (on_graph (E C lt jc)) inf leaf weight std_sort fuel abc ternary_where = None) /\
  optimize_joins (on_any (pe_all N.ltb (cout (fun s => s)))) 1000000 (fun _ => 0) (fun _ => 5) (fun less l => isort less l) 200 abc ternary_where <> None.
Proof.
  split; [|split; [|split]].
  - split; [apply isort_sorts|]. split; [cbn; lia|]. split; [repeat constructor; discriminate|]. split; [|exact (scans_deliver [a_rows; b_rows; c_rows])].
    repeat apply Forall_cons; try apply Forall_nil; intros ng sm i f j g E0 Hne; try discriminate E0; injection E0; intros; subst; auto.
  - assert (L1 : linked ternary_where 0 1) by (split; [discriminate|]; exists [same_column 0 0 1 0]; split; [left|]; reflexivity).
    assert (L1' : linked ternary_where 1 0) by (split; [discriminate|]; exists [same_column 0 0 1 0]; split; [left|]; reflexivity).
    assert (L2 : linked ternary_where 1 2) by (split; [discriminate|]; exists [same_column 2 0 1 1]; split; [right; left|]; reflexivity).
    assert (L2' : linked ternary_where 2 1) by (split; [discriminate|]; exists [same_column 2 0 1 1]; split; [right; left|]; reflexivity).
    assert (X : forall i, i < 3 -> i = 0 \/ i = 1 \/ i = 2) by (intros; lia).
    intros i j Hi Hj. apply X in Hi. apply X in Hj.
    destruct Hi as [->|[->| ->]], Hj as [->|[->| ->]]; try apply reach_here; try (eapply reach_next; [apply reach_here|assumption]); eapply reach_next; [|eassumption|idtac|eassumption]; eapply reach_next; try apply reach_here; assumption.
  - intros. reflexivity.
  - vm_compute. discriminate.
Qed.
(** Finding: [a.0 = b.0] written as [NOT (a.0 <> b.0)], or with columns of different types, becomes a hash join that cannot be executed; with
    any enumerator *)
Theorem C51_refuted_negated_inequality : forall E, In E all_enumerators ->
  table_with E ab [[LEqui true true 0 (tcol 0) 1 (tcol 0)]] /\ plan_with E ab [[LEqui true true 0 (tcol 0) 1 (tcol 0)]] = None /\ plan_with E ab [[LEqui false true 0 (tcol 0) 1 (tcol 0)]] <> None.
Proof. intros E HE. unfold all_enumerators, bottom_up, top_down in HE. cbn [In app] in HE. repeat (destruct HE as [<-|HE]; [split; [vm_compute; discriminate|split; [vm_compute; reflexivity|vm_compute; discriminate]]|]). destruct HE. Qed.
Theorem C51_refuted_different_types : forall E, In E all_enumerators ->
  table_with E ab [[LEqui false false 0 (tcol 0) 1 (tcol 0)]] /\ plan_with E ab [[LEqui false false 0 (tcol 0) 1 (tcol 0)]] = None.
Proof. intros E HE. unfold all_enumerators, bottom_up, top_down in HE. cbn [In app] in HE. repeat (destruct HE as [<-|HE]; [split; [vm_compute; discriminate|vm_compute; reflexivity]|]). destruct HE. Qed.
