(** * The interpreter: theorems C46-C50 *)
From Coq Require Import NArith ZArith QArith List Bool Arith Lia Permutation Sorted.
From Verif Require Import Word WordProofs Interp InterpSpec InterpProofs InterpJoins InterpOps InterpAggs InterpProps.
Import ListNotations.

Section Claims.
Context {R : Type} (shuffle : forall A : Type, list A -> list A) (std_sort : (R -> R -> bool) -> list R -> list R).
Notation run := (run shuffle std_sort).
Definition tt3 (x : option bool) : bool := match x with Some true => true | _ => false end.

(** ** C46 Plans *)
(** every safe plan ends with a correct answer *)
Theorem C46_run p : any_order shuffle -> sorts std_sort -> safe true p -> exists rows, run p = Some rows /\ answer p rows.
Proof. intros Hsh Hst Hs. destruct (exec_ok shuffle Hsh std_sort Hst p true Hs) as [bs OK]. eexists. eapply run_okk. exact OK. Qed.
(** scans, filters and projections keep the order of the rows *)
Theorem C46_scan (rows : list R) : run (Scan rows) = Some rows.
Proof. pose proof (run_okk shuffle std_sort true _ _ (scan_ok shuffle std_sort true rows)) as [E _]. rewrite E, (proj2 (chunks_ok false rows)). reflexivity. Qed.
Theorem C46_filter p c : any_order shuffle -> sorts std_sort -> safe false c ->
  exists rows, run c = Some rows /\ answer c rows /\ run (Filter p c) = Some (filter (fun r => tt3 (p r)) rows).
Proof.
  intros Hsh Hst Hs. destruct (exec_ok shuffle Hsh std_sort Hst c false Hs) as [bs OK]. destruct (run_okk shuffle std_sort _ _ _ OK) as [E A].
  exists (flat_map tuples bs). split; [exact E|]. split; [exact A|].
  assert (OK' : okk shuffle std_sort true (Filter p c) (filter nonempty (map (drop_unless (fun r => is_true (p r))) bs))).
  { eapply (pass_ok shuffle std_sort true c bs (fun r => is_true (p r)) (FFilter p)); [reflexivity|reflexivity| |exact OK]. intros l Hl. apply ans_filter, Hl. }
  destruct (run_okk shuffle std_sort _ _ _ OK') as [E' _]. rewrite E'. f_equal. destruct OK as [B _].
  rewrite tuples_nonempty by (apply Forall_map; eapply Forall_impl; [|exact B]; intros b Hb; apply bok_drop, Hb).
  clear. induction bs as [|b bs IH]; cbn [map flat_map]; [reflexivity|]. rewrite filter_app, drop_unless_tuples, IH. reflexivity.
Qed.
(** a disjunction is TRUE if one of the predicates is, whatever the others are *)
Theorem C46_disjunctive ps c : any_order shuffle -> sorts std_sort -> safe false c ->
  exists rows, run c = Some rows /\ answer c rows /\ run (Disjunctive ps c) = Some (filter (fun r => existsb (fun p => tt3 (p r)) ps) rows).
Proof.
  intros Hsh Hst Hs. destruct (exec_ok shuffle Hsh std_sort Hst c false Hs) as [bs OK]. destruct (run_okk shuffle std_sort _ _ _ OK) as [E A].
  exists (flat_map tuples bs). split; [exact E|]. split; [exact A|].
  assert (OK' : okk shuffle std_sort true (Disjunctive ps c) (filter nonempty (map (drop_unless (fun r => existsb (fun p => is_true (p r)) ps)) bs))).
  { eapply (pass_ok shuffle std_sort true c bs (fun r => existsb (fun p => is_true (p r)) ps) (FDisjunctive ps)); [reflexivity|reflexivity| |exact OK].
    intros l Hl. erewrite filter_ext; [apply ans_disjunctive, Hl|]. intros r. cbn beta. rewrite any3_true. clear. induction ps as [|q qs IH]; cbn; [reflexivity|]. rewrite IH. reflexivity. }
  destruct (run_okk shuffle std_sort _ _ _ OK') as [E' _]. rewrite E'. f_equal. destruct OK as [B _].
  rewrite tuples_nonempty by (apply Forall_map; eapply Forall_impl; [|exact B]; intros b Hb; apply bok_drop, Hb).
  clear. induction bs as [|b bs IH]; cbn [map flat_map]; [reflexivity|]. rewrite filter_app, drop_unless_tuples, IH. reflexivity.
Qed.
Theorem C46_project f c : any_order shuffle -> sorts std_sort -> safe true c ->
  exists rows, run c = Some rows /\ answer c rows /\ run (Project f c) = Some (map f rows).
Proof.
  intros Hsh Hst Hs. destruct (exec_ok shuffle Hsh std_sort Hst c true Hs) as [bs OK]. destruct (run_okk shuffle std_sort _ _ _ OK) as [E A].
  exists (flat_map tuples bs). split; [exact E|]. split; [exact A|].
  destruct (run_okk shuffle std_sort _ _ _ (project_ok shuffle std_sort true c f bs OK)) as [E' _]. rewrite E'. f_equal.
  clear. induction bs as [|b bs IH]; cbn [map flat_map]; [reflexivity|]. rewrite map_app, project_tuples, IH. reflexivity.
Qed.
Theorem C46_project_once r : run (ProjectOnce r) = Some [r].
Proof. destruct (run_okk shuffle std_sort true _ _ (once_ok shuffle std_sort true r)) as [E _]. rewrite E. cbn [flat_map]. rewrite (proj2 (single_ok r)). reflexivity. Qed.

(** ** C47 Joins *)
(** the result is the Cartesian product of the children's results without the combinations for which the condition is not TRUE *)
Theorem C47_join p cat cs : any_order shuffle -> sorts std_sort -> safe true (Join p cat cs) ->
  exists ls rows, Forall2 answer cs ls /\ run (Join p cat cs) = Some rows /\ Permutation rows (map cat (filter (jholds p) (product ls))).
Proof. intros Hsh Hst Hs. destruct (C46_run _ Hsh Hst Hs) as [rows [E A]]. inversion A; subst. eauto. Qed.
(** what the hash join does with any keys: NULL finds NULL, a string finds nothing *)
Theorem C47_hash_join_exact ks cat c c' : any_order shuffle -> sorts std_sort -> safe true c -> safe true c' ->
  exists l l' rows, run c = Some l /\ answer c l /\ run c' = Some l' /\ answer c' l' /\ run (Join (JEqui ks) cat [c; c']) = Some rows /\
    Permutation rows (map cat (filter (same_keys ks) (product [l; l']))).
Proof.
  intros Hsh Hst Hs Hs'. destruct (exec_ok shuffle Hsh std_sort Hst c true Hs) as [bs OK]. destruct (exec_ok shuffle Hsh std_sort Hst c' true Hs') as [bs' OK'].
  destruct (equi_gen shuffle Hsh std_sort ks cat c c' bs bs' OK OK') as [bs'' [H1 [H2 H3]]].
  destruct (run_okk shuffle std_sort _ _ _ OK) as [E A]. destruct (run_okk shuffle std_sort _ _ _ OK') as [E' A'].
  do 3 eexists. split; [exact E|]. split; [exact A|]. split; [exact E'|]. split; [exact A'|]. split; [|exact H2]. apply run_blocks. exact H3.
Qed.
Theorem C47_refuted_null f g cat (r s : R) : any_order shuffle -> sorts std_sort -> f r = None -> g s = None ->
  run (Join (JEqui [(f, g)]) cat [Scan [r]; Scan [s]]) = Some [cat [r; s]] /\
  forall rows, answer (Join (JEqui [(f, g)]) cat [Scan [r]; Scan [s]]) rows -> rows = [].
Proof.
  intros Hsh Hst Hf Hg. split.
  - destruct (C47_hash_join_exact [(f, g)] cat (Scan [r]) (Scan [s]) Hsh Hst (safe_scan true [r]) (safe_scan true [s])) as [l [l' [rows [E [_ [E' [_ [E'' P]]]]]]]].
    rewrite C46_scan in E, E'. injection E as <-. injection E' as <-. rewrite E''. f_equal. cbn in P. rewrite Hf, Hg in P. cbn in P. apply Permutation_sym, Permutation_length_1_inv in P. exact P.
  - intros rows H. inversion H as [| | |? ? ? ls ? HF P| | | | | |]; subst. inversion HF as [|? ? ? ? A1 HF1]; subst. inversion HF1 as [|? ? ? ? A2 HF2]; subst. inversion HF2; subst.
    inversion A1; subst. inversion A2; subst. cbn in P. rewrite Hf in P. cbn in P. apply Permutation_sym, Permutation_nil in P. exact P.
Qed.
Theorem C47_refuted_strings f g cat (r s : R) x : any_order shuffle -> sorts std_sort -> f r = Some (DChars x) -> g s = Some (DChars x) ->
  run (Join (JEqui [(f, g)]) cat [Scan [r]; Scan [s]]) = Some [] /\
  answer (Join (JEqui [(f, g)]) cat [Scan [r]; Scan [s]]) [cat [r; s]].
Proof.
  intros Hsh Hst Hf Hg. split.
  - destruct (C47_hash_join_exact [(f, g)] cat (Scan [r]) (Scan [s]) Hsh Hst (safe_scan true [r]) (safe_scan true [s])) as [l [l' [rows [E [_ [E' [_ [E'' P]]]]]]]].
    rewrite C46_scan in E, E'. injection E as <-. injection E' as <-. rewrite E''. f_equal. cbn in P. rewrite Hf, Hg in P. cbn in P. apply Permutation_sym, Permutation_nil in P. exact P.
  - apply (ans_join _ cat _ [[r]; [s]]); [repeat constructor|]. cbn [product flat_map map app filter jholds forallb]. rewrite Hf, Hg. unfold sql_equal.
    destruct (datum_eq_dec (DChars x) (DChars x)) as [_|F]; [apply Permutation_refl|congruence].
Qed.

(** ** C48 Limits *)
Theorem C48_limit limit offset c : any_order shuffle -> sorts std_sort -> safe false c -> (limit + offset < 2 ^ 64)%N ->
  exists rows, run c = Some rows /\ answer c rows /\ run (Limit limit offset c) = Some (firstn (N.to_nat limit) (skipn (N.to_nat offset) rows)).
Proof.
  intros Hsh Hst Hs Hlo. destruct (exec_ok shuffle Hsh std_sort Hst c false Hs) as [bs OK]. destruct (run_okk shuffle std_sort _ _ _ OK) as [E A].
  exists (flat_map tuples bs). split; [exact E|]. split; [exact A|].
  destruct (run_okk shuffle std_sort _ _ _ (limit_ok shuffle std_sort true limit offset c bs Hlo OK)) as [E' _]. rewrite E'. f_equal. destruct OK as [B _].
  destruct (limit_blocks_ok limit offset bs B 0%N) as [D F]. rewrite tuples_nonempty, F, good_firstn by assumption. reflexivity.
Qed.
(** [offset + limit] is computed modulo 2^64: then no row is left, however many there are *)
Theorem C48_refuted_overflow limit offset c : any_order shuffle -> sorts std_sort -> safe false c ->
  (limit < 2 ^ 64)%N -> (offset < 2 ^ 64)%N -> (2 ^ 64 <= limit + offset)%N -> run (Limit limit offset c) = Some [].
Proof.
  intros Hsh Hst Hs Hl Ho Hlo. destruct (exec_ok shuffle Hsh std_sort Hst c false Hs) as [bs [A [B C]]].
  destruct (limit_blocks_ok limit offset bs A 0%N) as [D F].
  assert (G : forall (l : list R) n, good limit offset n l = []).
  { assert (El : (limit_end limit offset < offset)%N).
    { unfold limit_end, add64, wrap. replace (offset + limit)%N with ((limit + offset - 2 ^ 64) + 1 * 2 ^ 64)%N by lia. rewrite N.mod_add by (clear; lia). rewrite N.mod_small; lia. }
    induction l as [|x l IH]; intros n; cbn [good]; [reflexivity|]. rewrite IH, app_nil_r. unfold out_of.
    destruct (N.ltb_spec n offset) as [_|H]; [reflexivity|]. destruct (N.leb_spec (limit_end limit offset) n) as [_|H']; [reflexivity|]. exfalso. clear -El H H'. lia. }
  rewrite G in F. assert (E : filter nonempty (limit_blocks limit offset 0 bs) = []).
  { clear -D F. induction D as [|b bs0 Hb D IH]; [reflexivity|]. cbn [flat_map] in F. apply app_eq_nil in F as [F1 F2]. cbn [filter]. unfold nonempty at 1. rewrite (proj2 (tuples_nil b Hb) F1). cbn. apply IH, F2. }
  change (@nil R) with (flat_map (@tuples R) []). apply run_blocks. intros fs sts K. cbn [Interp.exec].
  specialize (C (FLimit limit offset :: fs) (state0 :: sts) ltac:(discriminate)).
  pose proof (feed_limit shuffle limit offset fs bs A state0 sts) as FL. cbn [counter state0] in FL. rewrite E in FL. cbn [feed] in FL. destruct FL as [s' [u FL]].
  rewrite FL in C. cbn [sim] in C. destruct C as [u' [-> _]]. cbn. eauto.
Qed.

(** ** C49 Grouping and aggregation *)
(** one row per key that occurs, with the aggregates of the rows that have this key *)
Theorem C49_group keys aggs mk c : any_order shuffle -> sorts std_sort -> safe true (Group keys aggs mk c) ->
  exists l ks rows, answer c l /\ run (Group keys aggs mk c) = Some rows /\ NoDup ks /\ (forall k, In k ks <-> In k (map (key_of keys) l)) /\
    Forall2 (fun k r => exists cs, r = mk k cs /\ Forall2 (agg_value (members keys l k)) aggs cs) ks rows.
Proof. intros Hsh Hst Hs. destruct (C46_run _ Hsh Hst Hs) as [rows [E A]]. inversion A; subst. do 3 eexists. repeat (split; [eassumption|]). assumption. Qed.
(** one row, even without any input *)
Theorem C49_aggregate aggs mk c : any_order shuffle -> sorts std_sort -> safe true (Aggregate aggs mk c) ->
  exists l cs, answer c l /\ run (Aggregate aggs mk c) = Some [mk cs] /\ Forall2 (agg_value l) aggs cs.
Proof. intros Hsh Hst Hs. destruct (C46_run _ Hsh Hst Hs) as [rows [E A]]. inversion A; subst. do 2 eexists. repeat (split; [eassumption|]). assumption. Qed.

(** ** C50 Sorting *)
Theorem C50_sort order c : any_order shuffle -> sorts std_sort -> safe true (Sort order c) ->
  exists l rows, answer c l /\ run (Sort order c) = Some rows /\ Permutation rows l /\ StronglySorted (fun x y => ~ precedes order y x) rows.
Proof. intros Hsh Hst Hs. destruct (C46_run _ Hsh Hst Hs) as [rows [E A]]. inversion A; subst. do 2 eexists. repeat (split; [eassumption|]). assumption. Qed.
End Claims.

(** ** The library assumptions can be met *)
Section Isort.
Context {A : Type} (less : A -> A -> bool).
Fixpoint insert (x : A) (l : list A) : list A := match l with [] => [x] | y :: l' => if less y x then y :: insert x l' else x :: l end.
Fixpoint isort (l : list A) : list A := match l with [] => [] | x :: l' => insert x (isort l') end.
Lemma insert_perm x l : Permutation (insert x l) (x :: l).
Proof. induction l as [|y l IH]; cbn; [apply Permutation_refl|]. destruct (less y x); [|apply Permutation_refl]. eapply Permutation_trans; [apply perm_skip, IH|apply perm_swap]. Qed.
Lemma isort_perm l : Permutation (isort l) l.
Proof. induction l as [|x l IH]; cbn; [constructor|]. eapply Permutation_trans; [apply insert_perm|]. constructor. exact IH. Qed.
End Isort.
Lemma isort_sorts {R : Type} : @sorts R (fun less l => isort less l).
Proof.
  intros less l H1 H2 H3. split; [apply isort_perm|].
  assert (HH : forall x y z, In x l -> In y l -> In z l -> less x y = true -> less z y = false -> less x z = true).
  { intros x y z Hx Hy Hz E1 E2. destruct (less x z) eqn:E3; [reflexivity|]. exfalso. destruct (less z x) eqn:E4; [rewrite (H2 z x y) in E2 by assumption; discriminate|].
    destruct (less y z) eqn:E5; [rewrite (H2 x y z) in E3 by assumption; discriminate|].
    destruct (H3 x z y Hx Hz Hy E3 E4 E2 E5) as [F _]. congruence. }
  assert (G : forall s, incl s l -> StronglySorted (fun x y => less y x = false) (isort less s)).
  { induction s as [|x s IH]; intros Hi; cbn [isort]; [constructor|]. assert (Hs : incl s l) by (intros y Hy; apply Hi; right; exact Hy). specialize (IH Hs).
    assert (Hx : In x l) by (apply Hi; left; reflexivity).
    assert (Ht : incl (isort less s) l) by (intros y Hy; apply Hs; eapply Permutation_in; [apply isort_perm|exact Hy]).
    revert IH Ht. generalize (isort less s). intros t St Ht. induction St as [|y t St IHt Hy]; cbn [insert]; [constructor; constructor|].
    assert (Hyl : In y l) by (apply Ht; left; reflexivity). assert (Htl : incl t l) by (intros z Hz; apply Ht; right; exact Hz).
    destruct (less y x) eqn:E.
    - constructor; [apply IHt, Htl|]. apply Forall_forall. intros z Hz. apply (Permutation_in _ (insert_perm less x t)) in Hz. destruct Hz as [<-|Hz].
      + destruct (less x y) eqn:E'; [|reflexivity]. specialize (H1 x Hx). rewrite (H2 x y x) in H1 by assumption. discriminate.
      + rewrite Forall_forall in Hy. exact (Hy z Hz).
    - constructor; [constructor; assumption|]. constructor; [exact E|]. apply Forall_forall. intros z Hz. rewrite Forall_forall in Hy. specialize (Hy z Hz).
      destruct (less z x) eqn:E'; [|reflexivity]. rewrite (HH z x y) in Hy by (auto; apply Htl, Hz). discriminate. }
  apply G. intros x Hx. exact Hx.
Qed.
Lemma id_any_order : any_order (fun A l => l).
Proof. intros A l. apply Permutation_refl. Qed.

(** ** Concrete plans *)
Definition row := list (option datum).
Definition col (i : nat) (r : row) : option datum := nth i r None.
Definition int (z : Z) : option datum := Some (DInt z).
Definition icol (i : nat) (r : row) : option Z := match col i r with Some (DInt z) => Some z | _ => None end.
Definition dcol (i : nat) (r : row) : option Q := match col i r with Some (DInt z) => Some (inject_Z z) | Some (DReal q) => Some q | _ => None end.
Definition lt3 (i : nat) (z : Z) (r : row) : option bool := match icol i r with Some x => Some (x <? z)%Z | None => None end.
Definition run_id (p : @plan row) : option (list row) := run (fun _ l => l) (fun less l => isort less l) p.

(** SELECT a.0, COUNT of all, SUM(b.1), AVG(b.1), MIN(b.1) FROM a, b WHERE a.0 = b.0 AND a.1 < 10 GROUP BY a.0 ORDER BY a.0 DESC LIMIT 2 OFFSET 0 *)
Definition A_rows : list row := [[int 1; int 5]; [int 2; int 7]; [int 3; int 20]; [int 4; None]; [int 2; int 1]].
Definition B_rows : list row := [[int 2; int 100]; [int 1; int 10]; [None; int 1]; [int 2; int 50]].
Definition example_join : @plan row := Join (JEqui [(col 0, col 0)]) (@concat _) [Filter (lt3 1 10) (Scan A_rows); Scan B_rows].
Definition example : @plan row :=
  Limit 2 0 (Sort [(col 0, false)] (Group [col 0] [CountAll; SumI (icol 3); Avg (dcol 3); MinI (icol 3)] (fun k cs => k ++ cs) example_join)).
Ltac inv_scan := match goal with H : answer (Scan _) _ |- _ => inversion H; subst; clear H | H : answer (Filter _ _) _ |- _ => inversion H; subst; clear H end.
Lemma example_join_safe : safe true example_join.
Proof.
  apply safe_equi; [repeat constructor|constructor|]. intros l l' x y f g Hl Hl' Hx Hy [[= <- <-]|[]]. repeat inv_scan. cbn in Hx, Hy.
  repeat (destruct Hx as [<-|Hx]; [cbn; repeat (destruct Hy as [<-|Hy]; [exact I|]); destruct Hy|]). destruct Hx.
Qed.
Lemma example_join_answer l : answer example_join l -> forall r, In r l ->
  r = [int 1; int 5; int 1; int 10] \/ r = [int 2; int 7; int 2; int 100] \/ r = [int 2; int 7; int 2; int 50] \/ r = [int 2; int 1; int 2; int 100] \/ r = [int 2; int 1; int 2; int 50].
Proof.
  intros H r Hr. inversion H as [| | |? ? ? ls ? HF P| | | | | |]; subst. inversion HF as [|? ? ? ? A1 HF1]; subst. inversion HF1 as [|? ? ? ? A2 HF2]; subst. inversion HF2; subst.
  repeat inv_scan. apply (Permutation_in _ P) in Hr. revert Hr. vm_compute. intuition.
Qed.
Lemma example_join_length l : answer example_join l -> length l = 5%nat.
Proof.
  intros H. inversion H as [| | |? ? ? ls ? HF P| | | | | |]; subst. inversion HF as [|? ? ? ? A1 HF1]; subst. inversion HF1 as [|? ? ? ? A2 HF2]; subst. inversion HF2; subst.
  repeat inv_scan. rewrite (Permutation_length P). vm_compute. reflexivity.
Qed.
Theorem C46_inhabited : safe true example /\ run_id example = Some [[int 2; int 4; int 300; Some (DReal (43200 # 576)); int 50]; [int 1; int 1; int 10; Some (DReal (10 # 1)); int 10]].
Proof.
  split; [|vm_compute; reflexivity]. apply safe_limit; [lia|]. apply safe_sort.
  - apply safe_group; [exact example_join_safe|]. intros l Hl. pose proof (example_join_answer l Hl) as HA. rewrite (example_join_length l Hl). split; [lia|]. split.
    + intros r e Hr [<-|[]]. destruct (HA r Hr) as [->|[->|[->|[->| ->]]]]; exact I.
    + assert (HS : forall k, In k (map (key_of [col 0]) l) -> exists r, In r (members [col 0] l k) /\ icol 3 r <> None).
      { intros k Hk. apply in_map_iff in Hk as [r [<- Hr]]. exists r. split.
        - unfold members. apply filter_In. split; [exact Hr|]. destruct (list_eq_dec cell_eq_dec (key_of [col 0] r) (key_of [col 0] r)); congruence.
        - destruct (HA r Hr) as [->|[->|[->|[->| ->]]]]; discriminate. }
      intros k a Hk [<-|[<-|[<-|[<-|[]]]]]; cbn [agg_safe]; [exact I|exact (HS k Hk)| |exact I]. split.
      * destruct (HS k Hk) as [r [Hr _]]. intros F. rewrite F in Hr. destruct Hr.
      * intros r Hr. unfold members in Hr. apply filter_In in Hr as [Hr _]. destruct (HA r Hr) as [->|[->|[->|[->| ->]]]]; discriminate.
  - intros l Hl. right. intros e asc [[= <- <-]|[]]. inversion Hl as [| | | | | | |? ? ? ? l0 ks ? A0 ND KS F| |]; subst. left. intros r Hr.
    assert (K : exists k cs, r = k ++ cs /\ In k ks).
    { clear -F Hr. induction F as [|k r' ks rows [cs [-> _]] F IH]; [destruct Hr|]. destruct Hr as [<-|Hr]; [exists k, cs; split; [reflexivity|left; reflexivity]|]. destruct (IH Hr) as [k' [cs' [E Hin]]]. exists k', cs'. split; [exact E|right; exact Hin]. }
    destruct K as [k [cs [-> Hk]]]. apply KS in Hk. apply in_map_iff in Hk as [r0 [<- Hr0]]. destruct (example_join_answer l0 A0 r0 Hr0) as [->|[->|[->|[->| ->]]]]; cbn; unfold int; eauto.
Qed.

(** a filter above a hash join clears the join's block, and the join then writes to a dead slot of it *)
Definition many : list row := repeat [int 1; int 1] 65.
Definition filter_above : @plan row := Filter (lt3 1 1) (Join (JEqui [(col 0, col 0)]) (@concat _) [Scan many; Scan [[int 1]]]).
Theorem C47_refuted_filter_above_hash_join : run_id filter_above = None /\ answer filter_above [] /\ safe true (Join (JEqui [(col 0, col 0)]) (@concat _) [Scan many; Scan [[int 1]]]).
Proof.
  split; [vm_compute; reflexivity|]. split.
  - change (@nil row) with (filter (fun r => match lt3 1 1 r with Some true => true | _ => false end) (map (@concat _) (filter (jholds (JEqui [(col 0, col 0)])) (product [many; [[int 1]]])))).
    apply ans_filter. apply (ans_join _ _ _ [many; [[int 1]]]); [repeat constructor|]. apply Permutation_refl.
  - apply safe_equi; [constructor|constructor|]. intros l l' x y f g Hl Hl' Hx Hy [[= <- <-]|[]]. repeat inv_scan. apply repeat_spec in Hx. subst x. destruct Hy as [<-|[]]. exact I.
Qed.
Lemma Forall2_len {A B} (P : A -> B -> Prop) l l' : Forall2 P l l' -> length l = length l'.
Proof. induction 1; cbn; congruence. Qed.
(** a string is a group of its own each time it occurs *)
Definition by_string : @plan row := Group [col 0] [CountAll] (fun k cs => k ++ cs) (Scan [[Some (DChars [97%N])]; [Some (DChars [97%N])]]).
Theorem C49_refuted_string_keys : run_id by_string = Some [[Some (DChars [97%N]); int 1]; [Some (DChars [97%N]); int 1]] /\ answer by_string [[Some (DChars [97%N]); int 2]] /\
  forall rows, answer by_string rows -> length rows = 1%nat.
Proof.
  split; [vm_compute; reflexivity|]. split.
  - apply (ans_group _ _ _ _ [[Some (DChars [97%N])]; [Some (DChars [97%N])]] [[Some (DChars [97%N])]]); [constructor|repeat constructor; intros []|intros k; cbn; tauto|].
    constructor; [|constructor]. exists [int 2]. split; [reflexivity|]. constructor; [|constructor]. exists 2%Z. split; [reflexivity|]. split; [lia|]. exists 0%Z. reflexivity.
  - intros rows H. inversion H as [| | | | | | |? ? ? ? l0 ks ? A0 ND KS F| |]; subst. inv_scan. rewrite <- (Forall2_len _ _ _ F).
    assert (E : forall k, In k ks <-> k = [Some (DChars [97%N])]) by (intros k; rewrite KS; cbn; intuition congruence).
    destruct ks as [|k ks]; [exfalso; apply (proj2 (E _) eq_refl)|]. assert (k = [Some (DChars [97%N])]) by (apply E; left; reflexivity). subst k.
    destruct ks as [|k ks]; [reflexivity|]. exfalso. assert (k = [Some (DChars [97%N])]) by (apply E; right; left; reflexivity). subst k. inversion ND as [|? ? Hn _]; subst. apply Hn. left. reflexivity.
Qed.
(** AVG divides by the number of rows, not of values *)
Definition avg_null : @plan row := Aggregate [Avg (dcol 0)] (fun cs => cs) (Scan [[None]; [int 2]]).
Theorem C49_refuted_avg_null : (exists q, run_id avg_null = Some [[Some (DReal q)]] /\ (q == 1)%Q) /\ forall rows, answer avg_null rows -> exists q, rows = [[Some (DReal q)]] /\ (q == 2)%Q.
Proof.
  split; [eexists; split; [vm_compute; reflexivity|reflexivity]|]. intros rows H. inversion H as [| | | | | | | |? ? ? l0 cs A0 F|]; subst. inv_scan. inversion F as [|? ? ? ? HA F']; subst. inversion F'; subst.
  destruct HA as [q [-> Hq]]. exists q. split; [reflexivity|]. rewrite Hq. reflexivity.
Qed.
(** SUM and AVG of no values are 0 instead of NULL *)
Theorem C49_refuted_sum_of_nothing :
  run_id (Aggregate [SumI (icol 0); Avg (dcol 0)] (fun cs => cs) (Scan [])) = Some [[int 0; Some (DReal 0)]] /\
  forall rows, answer (Aggregate [SumI (icol 0); Avg (dcol 0)] (fun cs => cs) (Scan [])) rows -> rows = [[None; None]].
Proof.
  split; [vm_compute; reflexivity|]. intros rows H. inversion H as [| | | | | | | |? ? ? l0 cs A0 F|]; subst. inv_scan.
  inversion F as [|? ? ? ? HA F1]; subst. inversion F1 as [|? ? ? ? HB F2]; subst. inversion F2; subst. cbn in HA, HB. subst. reflexivity.
Qed.
(** the assertion on the result of a comparison fails if a column of ORDER BY has a NULL *)
Theorem C50_refuted_null x : run_id (Sort [(col 0, true)] (Scan [[None]; [x]])) = None.
Proof. destruct x as [[z|q|c]|]; reflexivity. Qed.
(** inhabitation of the other theorems *)
Theorem C48_inhabited : run_id (Limit 2 1 (Scan A_rows)) = Some [[int 2; int 7]; [int 3; int 20]].
Proof. vm_compute. reflexivity. Qed.
Theorem C49_inhabited : safe true (Aggregate [CountAll; Count (col 1); SumI (icol 1); MaxI (icol 1)] (fun cs => cs) (Scan A_rows)) /\
  run_id (Aggregate [CountAll; Count (col 1); SumI (icol 1); MaxI (icol 1)] (fun cs => cs) (Scan A_rows)) = Some [[int 5; int 4; int 33; int 20]].
Proof.
  split; [|vm_compute; reflexivity]. apply safe_aggregate; [constructor|]. intros l a Hl. inv_scan. intros [<-|[<-|[<-|[<-|[]]]]]; cbn [agg_safe]; try exact I.
  exists [int 1; int 5]. split; [left; reflexivity|discriminate].
Qed.
Theorem C50_inhabited : safe true (Sort [(col 0, true); (col 1, false)] (Scan [[int 2; int 1]; [int 1; int 5]; [int 2; int 7]])) /\
  run_id (Sort [(col 0, true); (col 1, false)] (Scan [[int 2; int 1]; [int 1; int 5]; [int 2; int 7]])) = Some [[int 1; int 5]; [int 2; int 7]; [int 2; int 1]].
Proof.
  split; [|vm_compute; reflexivity]. apply safe_sort; [constructor|]. intros l Hl. inv_scan. right. intros e asc [[= <- <-]|[[= <- <-]|[]]]; left; intros r [<-|[<-|[<-|[]]]]; cbn; unfold int; eauto.
Qed.
Theorem C47_inhabited : run_id (Join JTrue (@concat _) [Scan [[int 1]; [int 2]]; Scan [[int 3]]; Scan [[int 4]; [int 5]]]) =
  Some [[int 1; int 3; int 4]; [int 1; int 3; int 5]; [int 2; int 3; int 4]; [int 2; int 3; int 5]].
Proof. vm_compute. reflexivity. Qed.
