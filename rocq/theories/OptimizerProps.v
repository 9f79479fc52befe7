(** * Plan construction: the plan of the joins (for C51) *)
From Coq Require Import NArith ZArith QArith List Bool Arith Lia Permutation Sorted.
From Verif Require Import Word WordProofs Bitset BitsetProofs GraphSpec Graph GraphProofs PlanSpec PlanEnum PlanProofs PlanProps Interp InterpSpec Optimizer OptimizerProofs.
Import ListNotations.
Open Scope N_scope.
Arguments N.pow : simpl never.
Arguments N.testbit : simpl never.

Section Joins.
Context {T : Type}.
Notation row := (list (N * T)).
Implicit Types (c : @clause T) (cs : list (@clause T)).

Lemma hashable_sym a b : hashable a b -> hashable b a.
Proof. destruct a as [[]|], b as [[]|]; cbn; tauto. Qed.

Lemma make_join_spec s1 s2 cond (p q : @plan row) : (forall k, N.testbit s1 k = true -> N.testbit s2 k = true -> False) ->
  Forall (between s1 s2) cond -> Forall plain_lit cond ->
  exists j, make_join s1 s2 cond p q = Some j /\
    (forall rows, answer j rows -> exists l1 l2 Q, answer p l1 /\ answer q l2 /\ Permutation rows (join2 Q l1 l2) /\
      forall tab1 L1 tab2 L2 a b, (forall k, In k L1 <-> N.testbit s1 k = true) -> (forall k, In k L2 <-> N.testbit s2 k = true) ->
        In a (rows_of tab1 L1) -> In b (rows_of tab2 L2) -> Q [a; b] = hts cond (get (a ++ b))) /\
    (safe true p -> safe true q ->
      (forall l1 l2 a b ng sm i f j g, answer p l1 -> answer q l2 -> In a l1 -> In b l2 -> In [LEqui ng sm i f j g] cond ->
         N.testbit s1 i = true -> N.testbit s2 j = true -> hashable (column i f a) (column j g b)) ->
      (forall l1 l2 a b ng sm i f j g, answer p l1 -> answer q l2 -> In a l1 -> In b l2 -> In [LEqui ng sm i f j g] cond ->
         N.testbit s2 i = true -> N.testbit s1 j = true -> hashable (column i f b) (column j g a)) ->
      safe true j).
Proof.
  intros Hd HB HP. unfold make_join. destruct cond as [|c0 cond0].
  { eexists. split; [reflexivity|]. split.
    - intros rows A. inversion A as [| | |pp cat css ls rws F Pm| | | | | |]; subst. inversion F as [|? l1 ? ls1 A1 F1]; subst. inversion F1 as [|? l2 ? ls2 A2 F2]; subst. inversion F2; subst.
      exists l1, l2, (jholds JTrue). split; [exact A1|]. split; [exact A2|]. split; [rewrite <- product2; exact Pm|]. reflexivity.
    - intros S1 S2 _ _. apply safe_cross. repeat constructor; assumption. }
  set (cond := c0 :: cond0) in *. destruct (is_equi cond) eqn:E.
  - destruct (equi_keys_spec s1 s2 cond Hd HB HP E) as [ks [K1 [K2 K3]]]. rewrite K1. eexists. split; [reflexivity|]. split.
    + intros rows A. inversion A as [| | |pp cat css ls rws F Pm| | | | | |]; subst. inversion F as [|? l1 ? ls1 A1 F1]; subst. inversion F1 as [|? l2 ? ls2 A2 F2]; subst. inversion F2; subst.
      exists l1, l2, (jholds (JEqui ks)). split; [exact A1|]. split; [exact A2|]. split; [rewrite <- product2; exact Pm|].
      intros tab1 L1 tab2 L2 a b H1 H2 Ha Hb. cbn [jholds]. eapply K2; eassumption.
    + intros S1 S2 Ho1 Ho2. apply safe_equi; [exact S1|exact S2|]. intros l l' x y k1 k2 A1 A2 Hx Hy Hk. destruct (K3 k1 k2 Hk) as [ng [sm [i [f [j [g [HI [[B1 [B2 [-> ->]]]|[B1 [B2 [-> ->]]]]]]]]]]].
      * eapply Ho1; eassumption.
      * apply hashable_sym. eapply Ho2; eassumption.
  - eexists. split; [reflexivity|]. split.
    + intros rows A. inversion A as [| | |pp cat css ls rws F Pm| | | | | |]; subst. inversion F as [|? l1 ? ls1 A1 F1]; subst. inversion F1 as [|? l2 ? ls2 A2 F2]; subst. inversion F2; subst.
      eexists l1, l2, _. split; [exact A1|]. split; [exact A2|]. split; [rewrite <- product2; exact Pm|].
      intros tab1 L1 tab2 L2 a b H1 H2 Ha Hb. cbn [jholds concat]. rewrite app_nil_r. exact (cnf_eval_tr cond (get (a ++ b))).
    + intros S1 S2 _ _. apply safe_theta. repeat constructor; assumption.
Qed.

Section Construct.
Context {C : Type} (PT : PlanEnum.table C) (raw : N -> @plan row) (flt : N -> list (@clause T)) (sources : N -> option (@plan row)) (srcs : N).
Hypothesis src_ok : forall i, N.testbit srcs i = true -> exists q, sources i = Some q /\
  (forall rows, answer q rows -> exists t, answer (raw i) (map (fun x => [(i, x)]) t) /\ rows = filter (fun r => hts (flt i) (get r)) (map (fun x => [(i, x)]) t)) /\
  (safe false (raw i) -> safe false q).
Hypothesis flt_ok : forall i c, In c (flt i) -> is_filter_of i c = true.

(** the clauses that hold of a row of the subtree [t] *)
Definition holds_at (J0 : list (@clause T)) (t : jtree) (r : row) : bool :=
  hts (filter (inside (jset t)) J0) (get r) && forallb (fun i => hts (flt i) (get r)) (jleaves t).
(** a row of source [i] that can reach a join *)
Definition arrives (i : N) (x : T) : Prop := exists t, answer (raw i) (map (fun x => [(i, x)]) t) /\ In x t /\ hts (flt i) (get [(i, x)]) = true.

Lemma is_join_not_single i c : is_join c = true -> inside (2 ^ i) c = false.
Proof.
  intros H. destruct (inside (2 ^ i) c) eqn:E; [|reflexivity]. exfalso. rewrite inside_spec in E. unfold is_join in H. rewrite size_zero in H.
  destruct (N.eq_dec (clause_sources c) 0) as [E0|E0]; [rewrite E0 in H; discriminate|].
  assert (X : clause_sources c = 2 ^ i).
  { apply N.bits_inj. intros k. rewrite N.pow2_bits_eqb. destruct (N.testbit (clause_sources c) k) eqn:Ek.
    - apply E in Ek. rewrite N.pow2_bits_eqb in Ek. symmetry. exact Ek.
    - destruct (N.eqb_spec i k) as [->|]; [|reflexivity]. exfalso. apply E0. apply N.bits_inj. intros m. rewrite N.bits_0.
      destruct (N.testbit (clause_sources c) m) eqn:Em; [|reflexivity]. pose proof (E _ Em) as Em'. rewrite N.pow2_bits_eqb in Em'. apply N.eqb_eq in Em'. congruence. }
  rewrite X, size_pow2 in H. rewrite andb_false_r in H. discriminate.
Qed.
Lemma filter_none {A} (p : A -> bool) l : (forall x, In x l -> p x = false) -> filter p l = [].
Proof. induction l as [|x l IH]; intros H; [reflexivity|]. cbn. rewrite (H x) by (left; reflexivity). apply IH. intros; apply H; right; assumption. Qed.
Lemma filter_all {A} (p : A -> bool) l : (forall x, In x l -> p x = true) -> filter p l = l.
Proof. induction l as [|x l IH]; intros H; [reflexivity|]. cbn. rewrite (H x) by (left; reflexivity). f_equal. apply IH. intros; apply H; right; assumption. Qed.
Lemma hts_ext cs env env' : (forall c i, In c cs -> N.testbit (clause_sources c) i = true -> env i = env' i) -> hts cs env = hts cs env'.
Proof.
  unfold hts. induction cs as [|c cs IH]; intros H; [reflexivity|]. cbn [forallb]. f_equal.
  - apply ht_ext. intros i Hi. apply (H c i); [left; reflexivity|exact Hi].
  - apply IH. intros c' i Hc Hi. apply (H c' i); [right; exact Hc|exact Hi].
Qed.
Lemma flt_ext i env env' : env i = env' i -> hts (flt i) env = hts (flt i) env'.
Proof.
  intros H. apply hts_ext. intros c k Hc Hk. apply flt_ok in Hc. unfold is_filter_of in Hc. apply orb_prop in Hc. destruct Hc as [Hc|Hc]; apply N.eqb_eq in Hc; rewrite Hc in Hk.
  - rewrite N.bits_0 in Hk. discriminate.
  - rewrite N.pow2_bits_eqb in Hk. apply N.eqb_eq in Hk. subst k. exact H.
Qed.
Lemma hts_split (s s1 s2 : N) cs env : (forall c, inside s1 c = true -> inside s c = true) -> (forall c, inside s2 c = true -> inside s c = true) ->
  hts (filter (inside s) cs) env =
  hts (filter (inside s1) cs) env && (hts (filter (inside s2) (filter (fun c => negb (inside s1 c)) cs)) env &&
    hts (filter (inside s) (filter (fun c => negb (inside s2 c)) (filter (fun c => negb (inside s1 c)) cs))) env).
Proof.
  intros H1 H2. unfold hts. induction cs as [|c cs IH]; [reflexivity|]. cbn [filter].
  destruct (inside s1 c) eqn:E1; cbn [negb filter].
  - rewrite (H1 c E1). cbn [forallb]. rewrite IH, !andb_assoc. reflexivity.
  - destruct (inside s2 c) eqn:E2; cbn [negb filter].
    + rewrite (H2 c E2). cbn [forallb]. rewrite IH. destruct (ht c env); cbn [andb]; [reflexivity|]. rewrite andb_false_r. reflexivity.
    + destruct (inside s c); cbn [forallb]; [|exact IH]. rewrite IH. destruct (ht c env); cbn [andb]; [reflexivity|]. rewrite !andb_false_r. reflexivity.
Qed.
Lemma filter_rest (s s1 s2 : N) cs : (forall c, inside s1 c = true -> inside s c = true) -> (forall c, inside s2 c = true -> inside s c = true) ->
  filter (fun c => negb (inside s c)) (filter (fun c => negb (inside s2 c)) (filter (fun c => negb (inside s1 c)) cs)) = filter (fun c => negb (inside s c)) cs.
Proof.
  intros H1 H2. induction cs as [|c cs IH]; [reflexivity|]. cbn [filter].
  destruct (inside s1 c) eqn:E1; cbn [negb filter]; [rewrite (H1 c E1); exact IH|]. destruct (inside s2 c) eqn:E2; cbn [negb filter]; [rewrite (H2 c E2); exact IH|].
  destruct (inside s c); cbn [negb]; [exact IH|f_equal; exact IH].
Qed.
Lemma inside_mono s s' c : (forall k, N.testbit s k = true -> N.testbit s' k = true) -> inside s c = true -> inside s' c = true.
Proof. rewrite !inside_spec. auto. Qed.
Lemma Forall_filter {A} (P : A -> Prop) p l : Forall P l -> Forall P (filter p l).
Proof. rewrite !Forall_forall. intros H x Hx. apply filter_In in Hx. apply H. tauto. Qed.

Lemma construct_spec J t : forall s, describes PT s t -> jvalid J t -> (forall k, N.testbit s k = true -> N.testbit srcs k = true) ->
  forall fuel J0, (length (jleaves t) <= fuel)%nat -> Forall (fun c => is_join c = true) J0 -> Forall plain_lit J0 ->
  exists p, construct PT sources fuel s J0 = Some (p, filter (fun c => negb (inside s c)) J0) /\ jset t = s /\
    (forall rows, answer p rows -> exists tab, (forall i, In i (jleaves t) -> answer (raw i) (map (fun x => [(i, x)]) (tab i))) /\
       Permutation rows (filter (holds_at J0 t) (rows_of tab (jleaves t)))) /\
    ((forall i, In i (jleaves t) -> safe false (raw i)) ->
     (forall ng sm i f j g, In [LEqui ng sm i f j g] J0 -> forall x y, arrives i x -> arrives j y -> hashable (f x) (g y)) -> safe true p).
Proof.
  induction t as [i|t1 IH1 t2 IH2]; intros s HD HV HS fuel J0 Hf HJ HP.
  - inversion HD as [i' Hi Hl Hr Es|]; subst. destruct fuel as [|fuel]; [cbn in Hf; lia|]. cbn [construct]. rewrite Hl, Hr. cbn [sbs_empty]. change (0 =? 0) with true. cbn [andb].
    rewrite size_pow2, ctz_pow2. change (1 =? 1) with true. destruct (src_ok i) as [q [Eq [Aq Sq]]]; [apply HS, N.pow2_bits_true|]. rewrite Eq.
    exists q. rewrite Forall_forall in HJ.
    assert (EJ : filter (fun c => negb (inside (2 ^ i) c)) J0 = J0) by (apply filter_all; intros c Hc; rewrite (is_join_not_single i c (HJ c Hc)); reflexivity).
    split; [rewrite EJ; reflexivity|]. split; [reflexivity|]. split.
    + intros rows A. destruct (Aq rows A) as [t [A1 ->]]. exists (fun _ => t). cbn [jleaves]. split; [intros k [<-|[]]; exact A1|].
      cbn [rows_of]. assert (E : flat_map (fun x => map (cons (i, x)) [[]]) t = map (fun x => [(i, x)]) t) by (clear; induction t as [|x t IH]; [reflexivity|]; cbn [flat_map]; rewrite IH; reflexivity).
      rewrite E. unfold holds_at. cbn [jset jleaves forallb]. rewrite (filter_none (inside (2 ^ i)) J0) by (intros c Hc; apply is_join_not_single, HJ, Hc).
      erewrite filter_ext; [reflexivity|]. intros r. unfold hts at 2. cbn [forallb andb]. rewrite andb_true_r. reflexivity.
    + intros Hs _. assert (S0 : safe false q) by (apply Sq, Hs; left; reflexivity).
      clear - S0. inversion S0; subst; [apply safe_scan|apply safe_filter|apply safe_disjunctive|apply safe_cross|apply safe_theta|apply safe_project|apply safe_once|apply safe_limit|apply safe_group|apply safe_aggregate|apply safe_sort]; assumption.
  - inversion HD as [|s' tl tr Hsz D1 D2 Es]; subst s' tl tr. cbn [jvalid] in HV. destruct HV as [V1 [V2 [Vd VJ]]]. cbn [jleaves] in Hf. rewrite app_length in Hf.
    assert (Hlen : forall t, (1 <= length (jleaves t))%nat) by (intros t; induction t; cbn [jleaves length]; [lia|rewrite app_length; lia]).
    pose proof (Hlen t1) as Hlen1. pose proof (Hlen t2) as Hlen2. destruct fuel as [|fuel]; [lia|]. cbn [construct].
    set (l := e_left (PT s)) in *. set (r := e_right (PT s)) in *.
    assert (Hsl : forall k, N.testbit l k = true -> N.testbit s k = true) by (intros k Hk; rewrite Es; apply testbit_lor_l, Hk).
    assert (Hsr : forall k, N.testbit r k = true -> N.testbit s k = true) by (intros k Hk; rewrite Es; apply testbit_lor_r, Hk).
    destruct (IH1 l D1 V1 (fun k H => HS k (Hsl k H)) fuel J0 ltac:(lia) HJ HP) as [p [Ep [Jl [Ap Sp]]]].
    set (J1 := filter (fun c => negb (inside l c)) J0) in *.
    destruct (IH2 r D2 V2 (fun k H => HS k (Hsr k H)) fuel J1 ltac:(lia) (Forall_filter _ _ _ HJ) (Forall_filter _ _ _ HP)) as [q [Eq [Jr [Aq Sq]]]].
    set (J2 := filter (fun c => negb (inside r c)) J1) in *.
    destruct (jset_W64 J t1 V1) as [_ Hz1]. destruct (jset_W64 J t2 V2) as [_ Hz2]. rewrite Jl in Hz1. rewrite Jr in Hz2.
    unfold sbs_empty. apply N.eqb_neq in Hz1, Hz2. rewrite Hz1, Hz2. cbn [andb orb]. rewrite Ep, Eq.
    assert (Hd : forall k, N.testbit l k = true -> N.testbit r k = true -> False) by (intros k K1 K2; rewrite Jl, Jr in Vd; exact (Vd k K1 K2)).
    destruct (C35_valid_tree J t1 V1) as [ND1 M1]. destruct (C35_valid_tree J t2 V2) as [ND2 M2]. rewrite Jl in M1. rewrite Jr in M2. unfold mem in M1, M2.
    assert (Ejs : jset (JNode t1 t2) = s) by (cbn [jset]; rewrite Jl, Jr; symmetry; exact Es).
    change (fun c : @clause T => sbs_is_subset (clause_sources c) s) with (@inside T s).
    assert (I1 : forall c, inside l c = true -> inside s c = true) by (intros c; apply inside_mono, Hsl).
    assert (I2 : forall c, inside r c = true -> inside s c = true) by (intros c; apply inside_mono, Hsr).
    assert (Hbt : Forall (between l r) (filter (inside s) J2)).
    { apply Forall_forall. intros c Hc. apply filter_In in Hc. destruct Hc as [Hc H0]. unfold J2, J1 in Hc. apply filter_In in Hc. destruct Hc as [Hc H2']. apply filter_In in Hc. destruct Hc as [_ H1'].
      apply negb_true_iff in H1', H2'. unfold between. rewrite <- Es. tauto. }
    destruct (make_join_spec l r (filter (inside s) J2) p q Hd Hbt) as [j [Ej [Aj Sj]]]; [unfold J2, J1; repeat apply Forall_filter; exact HP|].
    rewrite Ej. exists j. split; [do 2 f_equal; exact (filter_rest s l r J0 I1 I2)|]. split; [exact Ejs|].
    assert (Hrows : forall rows, answer j rows -> exists tab, (forall i, In i (jleaves (JNode t1 t2)) -> answer (raw i) (map (fun x => [(i, x)]) (tab i))) /\
              Permutation rows (filter (holds_at J0 (JNode t1 t2)) (rows_of tab (jleaves (JNode t1 t2))))).
    { intros rows A. destruct (Aj rows A) as [l1 [l2 [Q [A1 [A2 [Pm HQ]]]]]]. destruct (Ap l1 A1) as [tab1 [B1 P1]]. destruct (Aq l2 A2) as [tab2 [B2 P2]].
      exists (fun i => if N.testbit l i then tab1 i else tab2 i). cbn [jleaves].
      assert (T1 : forall i, In i (jleaves t1) -> (if N.testbit l i then tab1 i else tab2 i) = tab1 i) by (intros i Hi; apply M1 in Hi; rewrite Hi; reflexivity).
      assert (T2 : forall i, In i (jleaves t2) -> (if N.testbit l i then tab1 i else tab2 i) = tab2 i).
      { intros i Hi. apply M2 in Hi. destruct (N.testbit l i) eqn:El; [exfalso; exact (Hd i El Hi)|reflexivity]. }
      split.
      - intros i Hi. apply in_app_iff in Hi. destruct Hi as [Hi|Hi]; [rewrite (T1 i Hi); apply B1, Hi|rewrite (T2 i Hi); apply B2, Hi].
      - rewrite Pm, (join2_perm Q _ _ _ _ P1 P2), rows_app, (rows_ext _ tab1 (jleaves t1) T1), (rows_ext _ tab2 (jleaves t2) T2).
        rewrite (join2_filter Q (holds_at J0 (JNode t1 t2))); [reflexivity|].
        intros a b Ha Hb. rewrite (HQ tab1 (jleaves t1) tab2 (jleaves t2) a b M1 M2 Ha Hb). unfold holds_at. rewrite Ejs, Jl, Jr. cbn [jleaves]. rewrite forallb_app, (hts_split s l r J0 _ I1 I2).
        fold J1 J2.
        assert (Ga : forall i, In i (jleaves t1) -> get (a ++ b) i = get a i) by (intros i Hi; apply (get_app_l tab1 (jleaves t1)); assumption).
        assert (Gb : forall i, In i (jleaves t2) -> get (a ++ b) i = get b i).
        { intros i Hi. apply (get_app_r tab1 (jleaves t1)); [exact Ha|]. intros X. apply M1 in X. apply M2 in Hi. exact (Hd i X Hi). }
        rewrite (hts_ext (filter (inside l) J0) (get (a ++ b)) (get a)).
        2: { intros c i Hc Hi. apply filter_In in Hc. destruct Hc as [_ Hc]. apply Ga, M1. rewrite inside_spec in Hc. apply Hc, Hi. }
        rewrite (hts_ext (filter (inside r) J1) (get (a ++ b)) (get b)).
        2: { intros c i Hc Hi. apply filter_In in Hc. destruct Hc as [_ Hc]. apply Gb, M2. rewrite inside_spec in Hc. apply Hc, Hi. }
        assert (F1 : forallb (fun i => hts (flt i) (get (a ++ b))) (jleaves t1) = forallb (fun i => hts (flt i) (get a)) (jleaves t1)).
        { clear - Ga flt_ok. induction (jleaves t1) as [|i L IH]; [reflexivity|]. cbn [forallb]. f_equal; [apply flt_ext, Ga; left; reflexivity|apply IH; intros; apply Ga; right; assumption]. }
        assert (F2 : forallb (fun i => hts (flt i) (get (a ++ b))) (jleaves t2) = forallb (fun i => hts (flt i) (get b)) (jleaves t2)).
        { clear - Gb flt_ok. induction (jleaves t2) as [|i L IH]; [reflexivity|]. cbn [forallb]. f_equal; [apply flt_ext, Gb; left; reflexivity|apply IH; intros; apply Gb; right; assumption]. }
        rewrite F1, F2.
        destruct (hts (filter (inside l) J0) (get a)), (forallb (fun i => hts (flt i) (get a)) (jleaves t1)), (hts (filter (inside r) J1) (get b)), (forallb (fun i => hts (flt i) (get b)) (jleaves t2)), (hts (filter (inside s) J2) (get (a ++ b))); reflexivity. }
    split; [exact Hrows|]. intros Hs Hh.
    assert (Hs1 : safe true p) by (apply Sp; [intros i Hi; apply Hs; cbn [jleaves]; apply in_app_iff; left; exact Hi|exact Hh]).
    assert (Hs2 : safe true q).
    { apply Sq; [intros i Hi; apply Hs; cbn [jleaves]; apply in_app_iff; right; exact Hi|]. intros ng sm i f k g Hc. apply (Hh ng sm). unfold J1 in Hc. apply filter_In in Hc. tauto. }
    assert (Harr : forall (t : jtree) J' (rows : list row) a i, (exists tab, (forall i, In i (jleaves t) -> answer (raw i) (map (fun x => [(i, x)]) (tab i))) /\ Permutation rows (filter (holds_at J' t) (rows_of tab (jleaves t)))) ->
              In a rows -> In i (jleaves t) -> exists x, get a i = Some x /\ arrives i x).
    { intros t J' rows a i [tab [B Pm]] Ha Hi. apply (Permutation_in _ Pm) in Ha. apply filter_In in Ha. destruct Ha as [Ha Hh']. destruct (rows_get tab (jleaves t) a i Ha Hi) as [x [Ex Hx]].
      exists x. split; [exact Ex|]. exists (tab i). split; [apply B, Hi|]. split; [exact Hx|]. unfold holds_at in Hh'. apply andb_prop in Hh'. destruct Hh' as [_ Hh']. rewrite forallb_forall in Hh'.
      rewrite <- (Hh' i Hi). apply flt_ext. cbn [get]. rewrite N.eqb_refl. symmetry. exact Ex. }
    assert (Hcond : forall c, In c (filter (inside s) J2) -> In c J0) by (intros c Hc; unfold J2, J1 in Hc; rewrite !filter_In in Hc; tauto).
    apply Sj; [exact Hs1|exact Hs2| |]; intros l1 l2 a b ng sm i f k g A1 A2 Ha Hb Hc Hi Hk.
    + destruct (Harr t1 J0 l1 a i (Ap l1 A1) Ha) as [x [Ex Hx]]; [apply M1, Hi|]. destruct (Harr t2 J1 l2 b k (Aq l2 A2) Hb) as [y [Ey Hy]]; [apply M2, Hk|].
      unfold column. rewrite Ex, Ey. apply (Hh ng sm i f k g (Hcond _ Hc)); assumption.
    + destruct (Harr t2 J1 l2 b i (Aq l2 A2) Hb) as [x [Ex Hx]]; [apply M2, Hi|]. destruct (Harr t1 J0 l1 a k (Ap l1 A1) Ha) as [y [Ey Hy]]; [apply M1, Hk|].
      unfold column. rewrite Ex, Ey. apply (Hh ng sm i f k g (Hcond _ Hc)); assumption.
Qed.
End Construct.
End Joins.
