(** * Plan construction: proofs for C51 *)
From Coq Require Import NArith ZArith QArith List Bool Arith Lia Permutation Sorted.
From Verif Require Import Word WordProofs Bitset BitsetProofs GraphSpec Graph GraphProofs PlanSpec PlanEnum PlanProofs PlanProps Interp InterpSpec Optimizer.
Import ListNotations.
Open Scope N_scope.
Arguments N.pow : simpl never.
Arguments N.testbit : simpl never.

Section Gen.
Context {T : Type}.
Notation row := (list (N * T)).
Implicit Types (c : @clause T) (cs : list (@clause T)) (env : N -> option T).

(** ** truth *)
Definition tr (b : option bool) : bool := match b with Some true => true | _ => false end.
Definition ht c env : bool := existsb (fun l => tr (lit_eval l env)) c.
Definition hts cs env : bool := forallb (fun c => ht c env) cs.

Lemma eq3_sql a b : tr (eq3 a b) = sql_equal a b.
Proof.
  destruct a as [[x|p|s]|], b as [[y|q|t]|]; cbn [eq3 sql_equal tr]; try reflexivity; try (destruct (datum_eq_dec _ _) as [E|E]; [discriminate E|reflexivity]).
  - destruct (datum_eq_dec (DInt x) (DInt y)) as [E|E]; [injection E as ->; rewrite Z.eqb_refl; reflexivity|].
    destruct (Z.eqb_spec x y); [congruence|reflexivity].
  - destruct (datum_eq_dec (DReal p) (DReal q)) as [E|E]; [injection E as ->; rewrite Z.eqb_refl, Pos.eqb_refl; reflexivity|].
    destruct (Z.eqb_spec (Qnum p) (Qnum q)) as [E1|E1]; [|reflexivity]. destruct (Pos.eqb_spec (Qden p) (Qden q)) as [E2|E2]; [|reflexivity].
    exfalso. apply E. f_equal. destruct p, q; cbn in *; congruence.
  - destruct (list_eq_dec N.eq_dec s t) as [E1|E1], (datum_eq_dec (DChars s) (DChars t)) as [E|E]; try reflexivity; congruence.
Qed.
Lemma clause_eval_tr c env : tr (clause_eval c env) = ht c env.
Proof.
  unfold clause_eval, ht. induction c as [|l c IH]; [reflexivity|]. cbn [fold_right existsb]. rewrite <- IH.
  destruct (lit_eval l env) as [[]|], (fold_right (fun l b => or_3 (lit_eval l env) b) (Some false) c) as [[]|]; reflexivity.
Qed.
Lemma cnf_eval_tr cs env : tr (cnf_eval cs env) = hts cs env.
Proof.
  unfold cnf_eval, hts. induction cs as [|c cs IH]; [reflexivity|]. cbn [fold_right forallb]. rewrite <- IH, <- clause_eval_tr.
  destruct (clause_eval c env) as [[]|], (fold_right (fun c b => and3 (clause_eval c env) b) (Some true) cs) as [[]|]; reflexivity.
Qed.

(** ** predicates depend only on their sources *)
Lemma testbit_lor_l a b i : N.testbit a i = true -> N.testbit (N.lor a b) i = true.
Proof. intros H. rewrite N.lor_spec, H. reflexivity. Qed.
Lemma testbit_lor_r a b i : N.testbit b i = true -> N.testbit (N.lor a b) i = true.
Proof. intros H. rewrite N.lor_spec, H. apply orb_true_r. Qed.
Lemma elems_testbit refs i : In i (elems refs) -> N.testbit refs i = true.
Proof. rewrite elems_def. intros H. apply filter_In in H. tauto. Qed.
Lemma lit_ext (l : @literal T) env env' : (forall i, N.testbit (lit_sources l) i = true -> env i = env' i) -> lit_eval l env = lit_eval l env'.
Proof.
  destruct l as [ng sm i f j g|refs fn]; cbn [lit_sources lit_eval]; intros H.
  - rewrite (H i), (H j); [reflexivity|apply testbit_lor_r|apply testbit_lor_l]; apply N.pow2_bits_true.
  - f_equal. apply map_ext_in. intros i Hi. apply H, elems_testbit, Hi.
Qed.
Lemma clause_sources_cons l c : clause_sources (l :: c) = N.lor (lit_sources l) (clause_sources c). Proof. reflexivity. Qed.
Lemma ht_ext c env env' : (forall i, N.testbit (clause_sources c) i = true -> env i = env' i) -> ht c env = ht c env'.
Proof.
  unfold ht. induction c as [|l c IH]; intros H; [reflexivity|]. cbn [existsb]. rewrite clause_sources_cons in H. f_equal.
  - f_equal. apply lit_ext. intros i Hi. apply H, testbit_lor_l, Hi.
  - apply IH. intros i Hi. apply H, testbit_lor_r, Hi.
Qed.

(** ** classification *)
Definition is_filter_of (i : N) c : bool := N.eqb (clause_sources c) 0 || N.eqb (clause_sources c) (2 ^ i).
Definition is_join c : bool := negb (sbs_size (clause_sources c) =? 0) && negb (sbs_size (clause_sources c) =? 1).
Lemma size_zero s : sbs_size s =? 0 = (s =? 0).
Proof. destruct (N.eqb_spec s 0) as [->|E]; [reflexivity|]. apply size_pos in E. apply N.eqb_neq. lia. Qed.
Lemma classify_spec cs n : Forall (fun c => W64 (clause_sources c)) cs -> forall filters joins,
  (forall i, fst (classify cs n filters joins) i = filters i ++ filter (is_filter_of i) cs) /\
  snd (classify cs n filters joins) = joins ++ filter is_join cs.
Proof.
  induction cs as [|c cs IH]; intros HW filters joins; cbn [classify].
  - split; [intros i|]; cbn; rewrite app_nil_r; reflexivity.
  - inversion HW as [|x l Hc Hcs]; subst. specialize (IH Hcs). unfold is_filter_of, is_join in *. cbn [filter]. rewrite size_zero.
    destruct (N.eqb_spec (clause_sources c) 0) as [E0|E0]; cbn [orb negb andb].
    + destruct (IH (fun i => filters i ++ [c]) joins) as [A B]. split; [|exact B]. intros i. rewrite A, <- app_assoc. reflexivity.
    + destruct (sbs_size (clause_sources c) =? 1) eqn:E1; cbn [negb].
      * apply singleton_iff in E1; [|exact Hc]. destruct E1 as [k [Hk Ek]]. rewrite Ek, ctz_pow2.
        destruct (IH (fun i => if i =? k then filters i ++ [c] else filters i) joins) as [A B]. split; [|exact B].
        intros i. rewrite A. destruct (N.eqb_spec i k) as [->|Hne].
        -- rewrite N.eqb_refl, <- app_assoc. reflexivity.
        -- destruct (N.eqb_spec (2 ^ k) (2 ^ i)) as [Ep|_]; [|reflexivity]. apply (f_equal ctz) in Ep. rewrite !ctz_pow2 in Ep. congruence.
      * destruct (IH filters (joins ++ [c])) as [A B]. split.
        -- intros i. rewrite A. destruct (N.eqb_spec (clause_sources c) (2 ^ i)) as [Ep|_]; [|reflexivity]. rewrite Ep, size_pow2 in E1. discriminate.
        -- rewrite B, <- app_assoc. reflexivity.
Qed.

(** ** filters *)
Section Filters.
Context (weight : @clause T -> N) (std_sort : (@clause T -> @clause T -> bool) -> list (@clause T) -> list (@clause T)).
Hypothesis Hst : sorts std_sort.
Lemma dissect_spec cs : Forall (fun c => c <> []) cs -> forall w cur done,
  exists fs, dissect weight cs w cur done = Some fs /\ concat fs = concat done ++ cur ++ cs.
Proof.
  induction cs as [|c cs IH]; intros Hne w cur done; cbn [dissect].
  - eexists. split; [reflexivity|]. destruct cur; [rewrite app_nil_r; reflexivity|]. rewrite concat_app. cbn [concat]. rewrite !app_nil_r. reflexivity.
  - inversion Hne as [|x l Hc Hcs]; subst. destruct c as [|l c]; [congruence|]. destruct (negb _ && _)%bool.
    + destruct (IH Hcs (weight_of weight (l :: c)) [l :: c] (done ++ [cur])) as [fs [E F]]. exists fs. split; [exact E|]. rewrite F, concat_app. cbn [concat].
      rewrite app_nil_r, <- app_assoc. reflexivity.
    + match goal with |- exists fs, dissect _ _ ?w' ?c' ?d' = _ /\ _ => destruct (IH Hcs w' c' d') as [fs [E F]] end.
      exists fs. split; [exact E|]. rewrite F, <- app_assoc. reflexivity.
Qed.
Lemma weight_sort cs : Permutation (std_sort (fun a b => weight_of weight a <? weight_of weight b) cs) cs.
Proof.
  apply Hst.
  - intros x _. apply N.ltb_irrefl.
  - intros x y z _ _ _ H1 H2. apply N.ltb_lt in H1, H2. apply N.ltb_lt. lia.
  - intros x y z _ _ _ H1 H2 H3 H4. apply N.ltb_ge in H1, H2, H3, H4. split; apply N.ltb_ge; lia.
Qed.
Lemma optimize_filter_spec cs : cs <> [] -> Forall (fun c => c <> []) cs -> exists fs, optimize_filter weight std_sort cs = Some fs /\ Permutation (concat fs) cs.
Proof.
  intros Hz Hne. unfold optimize_filter. destruct cs as [|c0 cs0]; [congruence|]. set (cs := c0 :: cs0) in *. pose proof (weight_sort cs) as HP.
  set (srt := std_sort _ cs) in *. clearbody srt.
  destruct (dissect_spec srt) with (w := 0) (cur := @nil (@clause T)) (done := @nil (list (@clause T))) as [fs [E F]].
  { eapply Permutation_Forall; [symmetry; exact HP|exact Hne]. }
  exists fs. split; [exact E|]. rewrite F. exact HP.
Qed.
Lemma hts_app cs cs' env : hts (cs ++ cs') env = hts cs env && hts cs' env. Proof. apply forallb_app. Qed.
Lemma hts_perm cs cs' env : Permutation cs cs' -> hts cs env = hts cs' env.
Proof.
  unfold hts. induction 1 as [|x l l' H IH|x y l|l1 l2 l3 H1 IH1 H2 IH2]; cbn [forallb]; [reflexivity|rewrite IH; reflexivity| |congruence].
  rewrite !andb_assoc. f_equal. apply andb_comm.
Qed.
Lemma any3_tr (l : list (option bool)) : tr (any3 l) = existsb tr l.
Proof.
  unfold any3. induction l as [|b l IH]; [reflexivity|]. cbn [fold_right existsb]. rewrite <- IH.
  destruct b as [[]|], (fold_right or3 (Some false) l) as [[]|]; reflexivity.
Qed.
Lemma existsb_map {A B} (f : A -> B) (p : B -> bool) l : existsb p (map f l) = existsb (fun x => p (f x)) l.
Proof. induction l as [|x l IH]; cbn; [reflexivity|]. rewrite IH. reflexivity. Qed.
Lemma add_filter_ans (p : @plan row) f rows : answer (add_filter p f) rows <-> exists l, answer p l /\ rows = filter (fun r => hts f (get r)) l.
Proof.
  assert (D : (exists l1 l2 c, f = [l1 :: l2 :: c]) \/ add_filter p f = Filter (fun r => cnf_eval f (get r)) p).
  { destruct f as [|[|l1 [|l2 c]] [|f1 f2]]; cbn [add_filter]; try (right; reflexivity). left. eauto. }
  destruct D as [[l1 [l2 [c ->]]]|D].
  - cbn [add_filter]. set (ls := l1 :: l2 :: c).
    assert (E : forall l : list row, filter (fun r => match any3 (map (fun q => q r) (map (fun l0 r0 => lit_eval l0 (get r0)) ls)) with Some true => true | _ => false end) l
                          = filter (fun r => hts [ls] (get r)) l).
    { intros l. apply filter_ext. intros r. match goal with |- match ?e with _ => _ end = _ => change (tr e = hts [ls] (get r)) end.
      rewrite any3_tr, map_map, existsb_map. unfold hts. cbn [forallb]. rewrite andb_true_r. reflexivity. }
    split.
    + intros A. inversion A; subst. eexists. split; [eassumption|]. apply E.
    + intros [l [A ->]]. rewrite <- E. apply ans_disjunctive. exact A.
  - rewrite D.
    assert (E : forall l : list row, filter (fun r => match cnf_eval f (get r) with Some true => true | _ => false end) l = filter (fun r => hts f (get r)) l).
    { intros l. apply filter_ext. intros r. change (tr (cnf_eval f (get r)) = hts f (get r)). apply cnf_eval_tr. }
    split.
    + intros A. inversion A; subst. eexists. split; [eassumption|]. apply E.
    + intros [l [A ->]]. rewrite <- E. apply ans_filter. exact A.
Qed.
Lemma filter_filter {A} (p q : A -> bool) l : filter p (filter q l) = filter (fun x => q x && p x) l.
Proof. induction l as [|x l IH]; cbn; [reflexivity|]. destruct (q x); cbn; [destruct (p x)|]; rewrite IH; reflexivity. Qed.
Lemma add_filters_ans fs : forall (p : @plan row) rows,
  answer (fold_left add_filter fs p) rows <-> exists l, answer p l /\ rows = filter (fun r => hts (concat fs) (get r)) l.
Proof.
  induction fs as [|f fs IH]; intros p rows; cbn [fold_left concat].
  - split; [intros A; exists rows; split; [exact A|]|intros [l [A ->]]].
    + unfold hts. cbn [forallb]. symmetry. clear. induction rows as [|x l IH]; cbn; [reflexivity|]. rewrite IH. reflexivity.
    + replace (filter _ l) with l; [exact A|]. unfold hts. cbn [forallb]. clear. induction l as [|x l IH]; cbn; [reflexivity|]. rewrite <- IH. reflexivity.
  - rewrite IH. split.
    + intros [l [A ->]]. apply add_filter_ans in A. destruct A as [l' [A ->]]. exists l'. split; [exact A|]. rewrite filter_filter. apply filter_ext. intros r. rewrite hts_app. reflexivity.
    + intros [l [A ->]]. exists (filter (fun r => hts f (get r)) l). split; [apply add_filter_ans; eauto|]. rewrite filter_filter. apply filter_ext. intros r. rewrite hts_app. reflexivity.
Qed.
Lemma add_filters_safe fs : forall (p : @plan row), safe false p -> safe false (fold_left add_filter fs p).
Proof.
  induction fs as [|f fs IH]; intros p Hp; cbn [fold_left]; [exact Hp|]. apply IH.
  destruct f as [|[|l1 [|l2 c]] [|f1 f2]]; cbn [add_filter]; first [apply safe_filter; exact Hp|apply safe_disjunctive; exact Hp].
Qed.
Lemma source_plan_spec (p : @plan row) cs : Forall (fun c => c <> []) cs -> exists q, source_plan weight std_sort p cs = Some q /\
  (forall rows, answer q rows <-> exists l, answer p l /\ rows = filter (fun r => hts cs (get r)) l) /\ (safe false p -> safe false q).
Proof.
  intros Hne. unfold source_plan. destruct cs as [|c0 cs0].
  - exists p. split; [reflexivity|]. split; [|tauto]. intros rows. exact (add_filters_ans [] p rows).
  - set (cs := c0 :: cs0) in *. destruct (optimize_filter_spec cs) as [fs [E HP]]; [subst cs; congruence|exact Hne|]. rewrite E.
    eexists. split; [reflexivity|]. split; [|apply add_filters_safe]. intros rows. rewrite add_filters_ans.
    split; intros [l [A ->]]; exists l; (split; [exact A|]); apply filter_ext; intros r; [|symmetry]; apply hts_perm; exact HP.
Qed.
End Filters.

(** ** all combinations of the tables [tab i], [i] in [L] *)
Fixpoint rows_of (tab : N -> list T) (L : list N) : list row :=
  match L with
  | [] => [[]]
  | i :: L' => flat_map (fun x => map (cons (i, x)) (rows_of tab L')) (tab i)
  end.
Lemma rows_app tab L1 L2 : rows_of tab (L1 ++ L2) = flat_map (fun a => map (app a) (rows_of tab L2)) (rows_of tab L1).
Proof.
  induction L1 as [|i L IH]; cbn [app rows_of].
  - cbn [flat_map]. rewrite app_nil_r. induction (rows_of tab L2) as [|r rs IHr]; cbn [map]; [reflexivity|]. f_equal. exact IHr.
  - rewrite IH. induction (tab i) as [|x l IHl]; cbn [flat_map]; [reflexivity|]. rewrite flat_map_app, IHl. f_equal.
    clear. induction (rows_of tab L) as [|r rs IHr]; cbn [flat_map map]; [reflexivity|]. rewrite map_app, map_map, IHr. reflexivity.
Qed.
Lemma rows_ext tab tab' L : (forall i, In i L -> tab i = tab' i) -> rows_of tab L = rows_of tab' L.
Proof. induction L as [|i L IH]; intros H; cbn [rows_of]; [reflexivity|]. rewrite (H i) by (left; reflexivity). rewrite IH by (intros; apply H; right; assumption). reflexivity. Qed.
Lemma rows_keys tab L r : In r (rows_of tab L) -> map fst r = L.
Proof.
  revert r. induction L as [|i L IH]; cbn [rows_of]; intros r H.
  - destruct H as [<-|[]]. reflexivity.
  - apply in_flat_map in H. destruct H as [x [_ H]]. apply in_map_iff in H. destruct H as [r' [<- H]]. cbn [map fst]. rewrite (IH r' H). reflexivity.
Qed.
Lemma rows_get tab L r i : In r (rows_of tab L) -> In i L -> exists x, get r i = Some x /\ In x (tab i).
Proof.
  revert r. induction L as [|k L IH]; cbn [rows_of In]; intros r H Hi; [destruct Hi|].
  apply in_flat_map in H. destruct H as [x [Hx H]]. apply in_map_iff in H. destruct H as [r' [<- H]]. cbn [get].
  destruct (N.eqb_spec i k) as [->|Hne]; [exists x; split; [reflexivity|exact Hx]|]. apply IH; [exact H|]. destruct Hi as [->|Hi]; [congruence|exact Hi].
Qed.
Lemma get_none (r : row) i : ~ In i (map fst r) -> get r i = None.
Proof. induction r as [|[k x] r IH]; cbn [map fst get In]; intros H; [reflexivity|]. destruct (N.eqb_spec i k) as [->|Hne]; [tauto|]. apply IH. tauto. Qed.
Lemma get_app (a b : row) i : get (a ++ b) i = match get a i with Some x => Some x | None => get b i end.
Proof. induction a as [|[k x] a IH]; cbn [app get]; [reflexivity|]. destruct (i =? k); [reflexivity|exact IH]. Qed.
Lemma get_app_l tab L (a b : row) i : In a (rows_of tab L) -> In i L -> get (a ++ b) i = get a i.
Proof. intros Ha Hi. rewrite get_app. destruct (rows_get tab L a i Ha Hi) as [x [-> _]]. reflexivity. Qed.
Lemma get_app_r tab L (a b : row) i : In a (rows_of tab L) -> ~ In i L -> get (a ++ b) i = get b i.
Proof. intros Ha Hi. rewrite get_app, (get_none a); [reflexivity|]. rewrite (rows_keys tab L a Ha). exact Hi. Qed.

(** ** the join of two lists *)
Definition join2 (Q : list row -> bool) (A B : list row) : list row := flat_map (fun a => map (app a) (filter (fun b => Q [a; b]) B)) A.
Lemma product2 Q (A B : list row) : map (@concat (N * T)) (filter Q (product [A; B])) = join2 Q A B.
Proof.
  unfold join2. cbn [product].
  assert (E : forall B : list row, flat_map (fun x => map (cons x) [[]]) B = map (fun x => [x]) B).
  { clear. induction B as [|b B IH]; [reflexivity|]. cbn [flat_map]. rewrite IH. reflexivity. }
  rewrite E. induction A as [|a A IH]; cbn [flat_map]; [reflexivity|]. rewrite filter_app, map_app, IH. f_equal. rewrite map_map. clear.
  induction B as [|b B IH]; [reflexivity|]. cbn [map filter]. destruct (Q [a; b]); cbn [map concat]; rewrite IH; [rewrite app_nil_r|]; reflexivity.
Qed.
Lemma flat_map_perm {X Y} (f : X -> list Y) l l' : Permutation l l' -> Permutation (flat_map f l) (flat_map f l').
Proof.
  induction 1 as [|x l l' H IH|x y l|l1 l2 l3 H1 IH1 H2 IH2]; cbn [flat_map]; [constructor|apply Permutation_app_head, IH| |etransitivity; eassumption].
  rewrite !app_assoc. apply Permutation_app_tail, Permutation_app_comm.
Qed.
Lemma flat_map_perm_in {X Y} (f g : X -> list Y) l : (forall x, In x l -> Permutation (f x) (g x)) -> Permutation (flat_map f l) (flat_map g l).
Proof. induction l as [|x l IH]; cbn [flat_map]; intros H; [constructor|]. apply Permutation_app; [apply H; left; reflexivity|apply IH; intros; apply H; right; assumption]. Qed.
Lemma filter_perm {X} (p : X -> bool) l l' : Permutation l l' -> Permutation (filter p l) (filter p l').
Proof.
  induction 1 as [|x l l' H IH|x y l|l1 l2 l3 H1 IH1 H2 IH2]; cbn [filter]; [constructor| | |etransitivity; eassumption].
  - destruct (p x); [constructor|]; exact IH.
  - destruct (p x), (p y); try reflexivity. constructor.
Qed.
Lemma join2_perm Q A A' B B' : Permutation A A' -> Permutation B B' -> Permutation (join2 Q A B) (join2 Q A' B').
Proof.
  intros HA HB. unfold join2. etransitivity; [apply flat_map_perm; exact HA|]. apply flat_map_perm_in. intros a _. apply Permutation_map, filter_perm, HB.
Qed.
Lemma join2_filter Q P P1 P2 A B : (forall a b, In a A -> In b B -> P (a ++ b) = P1 a && (P2 b && Q [a; b])) ->
  join2 Q (filter P1 A) (filter P2 B) = filter P (flat_map (fun a => map (app a) B) A).
Proof.
  intros H. unfold join2. induction A as [|a A IH]; cbn [filter flat_map]; [reflexivity|]. rewrite filter_app.
  rewrite <- IH by (intros; apply H; [right; assumption|assumption]).
  assert (E : filter P (map (app a) B) = if P1 a then map (app a) (filter (fun b => Q [a; b]) (filter P2 B)) else []).
  { assert (HB : forall b, In b B -> P (a ++ b) = P1 a && (P2 b && Q [a; b])) by (intros; apply H; [left; reflexivity|assumption]). clear - HB.
    induction B as [|b B IH]; cbn [map filter]; [destruct (P1 a); reflexivity|]. rewrite HB by (left; reflexivity).
    rewrite IH by (intros; apply HB; right; assumption). destruct (P1 a); cbn [andb]; [|reflexivity].
    destruct (P2 b); cbn [andb filter]; [|reflexivity]. destruct (Q [a; b]); reflexivity. }
  rewrite E. destruct (P1 a); reflexivity.
Qed.

(** ** keys of a hash join *)
Definition inside (s : N) c : bool := sbs_is_subset (clause_sources c) s.
Lemma inside_spec s c : inside s c = true <-> forall i, N.testbit (clause_sources c) i = true -> N.testbit s i = true.
Proof. apply subset_spec. Qed.
(** a condition between the sets [s1] and [s2] *)
Definition between (s1 s2 : N) c : Prop := inside (N.lor s1 s2) c = true /\ inside s1 c = false /\ inside s2 c = false.
Lemma sql_equal_sym a b : sql_equal a b = sql_equal b a.
Proof.
  destruct a as [x|], b as [y|]; cbn [sql_equal]; try reflexivity. destruct (datum_eq_dec x y), (datum_eq_dec y x); try reflexivity; congruence.
Qed.
Lemma pow2_or_bits i j k : N.testbit (N.lor (2 ^ i) (2 ^ j)) k = true <-> k = i \/ k = j.
Proof.
  rewrite N.lor_spec, orb_true_iff, !N.pow2_bits_eqb, !N.eqb_eq. split; (intros [H|H]; [left|right]; congruence).
Qed.
Lemma between_cases s1 s2 ng sm i f j g : (forall k, N.testbit s1 k = true -> N.testbit s2 k = true -> False) ->
  between s1 s2 [LEqui ng sm i f j g] ->
  i <> j /\ ((N.testbit s1 i = true /\ N.testbit s2 j = true) \/ (N.testbit s1 i = false /\ N.testbit s2 i = true /\ N.testbit s1 j = true)).
Proof.
  intros Hd [H1 [H2 H3]]. rewrite inside_spec in H1. cbn [clause_sources fold_right lit_sources] in H1. rewrite N.lor_0_r in H1.
  assert (Hi : N.testbit (N.lor s1 s2) i = true) by (apply H1, pow2_or_bits; left; reflexivity).
  assert (Hj : N.testbit (N.lor s1 s2) j = true) by (apply H1, pow2_or_bits; right; reflexivity).
  assert (N1 : ~ (N.testbit s1 i = true /\ N.testbit s1 j = true)).
  { intros [A B]. rewrite (proj2 (inside_spec s1 _)) in H2; [discriminate|]. cbn [clause_sources fold_right lit_sources]. rewrite N.lor_0_r. intros k Hk. apply pow2_or_bits in Hk. destruct Hk as [->| ->]; assumption. }
  assert (N2 : ~ (N.testbit s2 i = true /\ N.testbit s2 j = true)).
  { intros [A B]. rewrite (proj2 (inside_spec s2 _)) in H3; [discriminate|]. cbn [clause_sources fold_right lit_sources]. rewrite N.lor_0_r. intros k Hk. apply pow2_or_bits in Hk. destruct Hk as [->| ->]; assumption. }
  rewrite N.lor_spec, orb_true_iff in Hi, Hj.
  destruct (N.testbit s1 i) eqn:A1, (N.testbit s2 i) eqn:A2, (N.testbit s1 j) eqn:B1, (N.testbit s2 j) eqn:B2; try tauto; (split; [intros ->; first [congruence|tauto]|tauto]).
Qed.
Definition plain_lit c : Prop := forall ng sm i f j g, c = [LEqui ng sm i f j g] -> i <> j -> ng = false /\ sm = true.
Lemma equi_keys_spec s1 s2 cs : (forall k, N.testbit s1 k = true -> N.testbit s2 k = true -> False) ->
  Forall (between s1 s2) cs -> Forall plain_lit cs -> forallb clause_is_equi cs = true ->
  exists ks, equi_keys s1 s2 cs = Some ks /\
    (forall tab1 L1 tab2 L2 a b, (forall k, In k L1 <-> N.testbit s1 k = true) -> (forall k, In k L2 <-> N.testbit s2 k = true) ->
      In a (rows_of tab1 L1) -> In b (rows_of tab2 L2) -> forallb (fun '(f, g) => sql_equal (f a) (g b)) ks = hts cs (get (a ++ b))) /\
    (forall k1 k2, In (k1, k2) ks -> exists ng sm i f j g, In [LEqui ng sm i f j g] cs /\
       ((N.testbit s1 i = true /\ N.testbit s2 j = true /\ k1 = column i f /\ k2 = column j g) \/
        (N.testbit s2 i = true /\ N.testbit s1 j = true /\ k1 = column j g /\ k2 = column i f))).
Proof.
  intros Hd. induction cs as [|c cs IH]; intros HB HP HE.
  - exists []. split; [reflexivity|]. split; [reflexivity|]. intros k1 k2 [].
  - inversion HB as [|? ? HB1 HB2]; subst. inversion HP as [|? ? HP1 HP2]; subst. cbn [forallb] in HE. apply andb_prop in HE. destruct HE as [HE1 HE2].
    destruct (IH HB2 HP2 HE2) as [ks [E [F G]]]. destruct c as [|l [|? ?]]; try discriminate. destruct l as [ng sm i f j g|]; [|discriminate].
    destruct (between_cases s1 s2 ng sm i f j g Hd HB1) as [Hne Hc]. destruct (HP1 ng sm i f j g eq_refl Hne) as [-> ->].
    cbn [equi_keys]. rewrite E.
    assert (Hval : forall env, hts ([LEqui false true i f j g] :: cs) env =
              match env i, env j with Some x, Some y => sql_equal (f x) (g y) | _, _ => false end && hts cs env).
    { intros env. unfold hts at 1. cbn [forallb]. change (forallb (fun c => ht c env) cs) with (hts cs env). f_equal. unfold ht. cbn [existsb lit_eval]. rewrite orb_false_r.
      destruct (env i) as [x|], (env j) as [y|]; try reflexivity. apply eq3_sql. }
    destruct Hc as [[A1 A2]|[A0 [A1 A2]]].
    + rewrite A1, A2. eexists. split; [reflexivity|]. split.
      * intros tab1 L1 tab2 L2 a b H1 H2 Ha Hb. rewrite Hval. cbn [forallb]. rewrite (F tab1 L1 tab2 L2 a b H1 H2 Ha Hb). f_equal.
        assert (Hi : In i L1) by (apply H1, A1). assert (Hj : In j L2) by (apply H2, A2). assert (Hj' : ~ In j L1) by (intros X; apply H1 in X; eapply Hd; eassumption).
        rewrite (get_app_l tab1 L1 a b i Ha Hi), (get_app_r tab1 L1 a b j Ha Hj'). unfold column.
        destruct (get a i) as [x|]; [|reflexivity]. destruct (get b j); [reflexivity|]. destruct (f x); reflexivity.
      * intros k1 k2 [Ek|Hk].
        -- injection Ek as <- <-. exists false, true, i, f, j, g. split; [left; reflexivity|]. left. tauto.
        -- destruct (G k1 k2 Hk) as [ng' [sm' [i' [f' [j' [g' [X Y]]]]]]]. exists ng', sm', i', f', j', g'. split; [right; exact X|exact Y].
    + rewrite A0, A1, A2. eexists. split; [reflexivity|]. split.
      * intros tab1 L1 tab2 L2 a b H1 H2 Ha Hb. rewrite Hval. cbn [forallb]. rewrite (F tab1 L1 tab2 L2 a b H1 H2 Ha Hb). f_equal.
        assert (Hi : In i L2) by (apply H2, A1). assert (Hj : In j L1) by (apply H1, A2). assert (Hi' : ~ In i L1) by (intros X; apply H1 in X; congruence).
        rewrite (get_app_l tab1 L1 a b j Ha Hj), (get_app_r tab1 L1 a b i Ha Hi'). unfold column.
        destruct (get b i) as [x|]; [|destruct (get a j) as [y|]; [destruct (g y)|]; reflexivity]. destruct (get a j) as [y|]; [apply sql_equal_sym|reflexivity].
      * intros k1 k2 [Ek|Hk].
        -- injection Ek as <- <-. exists false, true, i, f, j, g. split; [left; reflexivity|]. right. tauto.
        -- destruct (G k1 k2 Hk) as [ng' [sm' [i' [f' [j' [g' [X Y]]]]]]]. exists ng', sm', i', f', j', g'. split; [right; exact X|exact Y].
Qed.
End Gen.
