(** * C53: minimizing the schemas of a plan does not change what it computes *)
From Coq Require Import NArith ZArith List Bool Arith Lia.
From Verif Require Import Interp InterpSpec InterpClaims Finish FinishSpec FinishProps Minimize MinimizeSpec MinimizeSim MinimizeSchemas MinimizeRows MinimizeSem MinimizeSound MinimizeProofs.
Import ListNotations.

(** the values of rows with names *)
Definition values (l : list (list ((option N * N) * option datum))) : list row := map (map snd) l.

(** minimization succeeds, keeps the schema of the result; the plan, executed by positions, computes what the original plan says by names; a second minimization
    changes nothing; the scans only deliver columns of the result and columns that the plan uses *)
Theorem C53_minimize text fn_sem un_sem bin_sem truth o : built text fn_sem un_sem bin_sem truth true o ->
  exists o' p', minimize [] true o = Some o' /\ sch o' = sch o /\ lower text fn_sem un_sem bin_sem truth o' = Some p' /\
    (forall rows, answer p' rows -> exists l, answer (by_name fn_sem un_sem bin_sem truth o) l /\ rows = values l) /\
    (safe true (by_name fn_sem un_sem bin_sem truth o) -> safe true p') /\
    (full o' -> minimize [] true o' = Some o') /\
    (forall X id, In X (scans o') -> In id X -> In id (shown o) \/ In id (mentioned o')).
Proof.
  intros B. destruct (minimize_top text fn_sem un_sem bin_sem truth o [] B) as [o' [E [Es [[p' [El [SM SF]]] [HA HS]]]]].
  exists o', p'. split; [exact E|]. split; [exact Es|]. split; [exact El|]. split; [exact SM|]. split; [apply SF|]. split; [intros Hf; apply HA, Hf|exact HS].
Qed.

(** executed by the interpreter *)
Theorem C53_run text fn_sem un_sem bin_sem truth o (shuffle : forall A : Type, list A -> list A) (std_sort : (row -> row -> bool) -> list row -> list row) :
  any_order shuffle -> sorts std_sort -> built text fn_sem un_sem bin_sem truth true o -> safe true (by_name fn_sem un_sem bin_sem truth o) ->
  exists o' p' l, minimize [] true o = Some o' /\ lower text fn_sem un_sem bin_sem truth o' = Some p' /\ run shuffle std_sort p' = Some (values l) /\
    answer (by_name fn_sem un_sem bin_sem truth o) l.
Proof.
  intros Hsh Hst B Hs. destruct (C53_minimize text fn_sem un_sem bin_sem truth o B) as [o' [p' [E [_ [El [SM [SF _]]]]]]].
  destruct (C46_run shuffle std_sort p' Hsh Hst (SF Hs)) as [rows [Er A]]. destruct (SM rows A) as [l [Al ->]]. exists o', p', l. tauto.
Qed.

(** the plan that was not minimized computes the same *)
Theorem C53_without text fn_sem un_sem bin_sem truth o : built text fn_sem un_sem bin_sem truth true o ->
  exists p, lower text fn_sem un_sem bin_sem truth o = Some p /\ (forall rows, answer p rows -> exists l, answer (by_name fn_sem un_sem bin_sem truth o) l /\ rows = values l) /\
    (safe true (by_name fn_sem un_sem bin_sem truth o) -> safe true p).
Proof. intros B. destruct (good_itself text fn_sem un_sem bin_sem truth o B) as [p [E [SM SF]]]. exists p. split; [exact E|]. split; [exact SM|apply SF]. Qed.

(** ** A concrete case: SELECT t.a, SUM(t.b) FROM t, u WHERE t.k = u.k AND u.c GROUP BY t.a LIMIT 10, with tables t(k, a, b, z) and u(k, c, z) *)
Definition x_truth (c : cell) : option bool := match c with Some (DInt z) => Some (negb (Z.eqb z 0)) | _ => None end.
Notation i z := (Some (DInt z)).
Notation col t n := (ECol (Some t) n None).
Definition tS : schema := [(Some 1%N, 1%N); (Some 1%N, 2%N); (Some 1%N, 3%N); (Some 1%N, 4%N)].
Definition uS : schema := [(Some 2%N, 1%N); (Some 2%N, 5%N); (Some 2%N, 4%N)].
Definition t_rows : list row := [[i 1; i 10; i 100; i 0]; [i 2; i 10; i 200; i 0]; [i 3; i 11; i 300; i 0]; [i 3; i 10; i 400; i 0]].
Definition u_rows : list row := [[i 1; i 1; i 7]; [i 2; i 0; i 7]; [i 3; i 1; i 7]; [i 9; i 1; i 7]].
Definition x_sum : aggregate := Agg 50 (Some (KSumI, col 1%N 3%N)).
Definition x_join : op := OJoin (JColumns [((Some 2%N, 1%N), (Some 1%N, 1%N))]) (tS ++ uS) [OScan tS t_rows tS; OFilter false [[(false, col 2%N 5%N)]] uS (OScan uS u_rows uS)].
Definition x_plan : op :=
  OLimit 10 0 [(Some 1%N, 2%N); (None, 50%N)] (OProject [col 1%N 2%N; EAgg 50] [(Some 1%N, 2%N); (None, 50%N)]
    (OGroup [col 1%N 2%N] [x_sum] ([(Some 1%N, 2%N)] ++ map agg_id [x_sum]) x_join)).
Definition x_lower := lower ex_text ex_fn ex_un ex_bin x_truth.
Definition x_run (o : op) : option (list row) := match x_lower o with Some p => run_id p | None => None end.
Definition x_min (o : op) : option (list row) := match minimize [] true o with Some o' => x_run o' | None => None end.
Definition x_names (o : op) : option (list row) := match run (fun _ l => l) (fun _ l => l) (by_name ex_fn ex_un ex_bin x_truth o) with Some l => Some (values l) | None => None end.
Lemma x_col c t n : In (Some t, n) (sch c) -> readable ex_text ex_fn ex_un ex_bin x_truth c (col t n).
Proof. intros H. split; [intros x [<-|[]]; exact H|]. intros []. Qed.
Lemma x_agg c n : In (None, n) (sch c) -> readable ex_text ex_fn ex_un ex_bin x_truth c (EAgg n).
Proof. intros H. split; [intros x [<-|[]]; exact H|]. intros []. Qed.
Ltac nodup := repeat constructor; cbn; intuition discriminate.
Theorem C53_inhabited :
  built ex_text ex_fn ex_un ex_bin x_truth true x_plan /\
  option_map scans (minimize [] true x_plan) = Some [[(Some 1%N, 2%N); (Some 1%N, 3%N); (Some 1%N, 1%N)]; [(Some 2%N, 1%N); (Some 2%N, 5%N)]] /\
  x_min x_plan = Some [[i 10; i 500]; [i 11; i 300]] /\ x_run x_plan = x_min x_plan /\ x_names x_plan = x_min x_plan.
Proof.
  split; [|split; [vm_compute; reflexivity|split; [vm_compute; reflexivity|split; vm_compute; reflexivity]]].
  unfold x_plan. apply (b_limit _ _ _ _ _ true 10 0 (OProject _ _ _)). apply b_project; [|discriminate|reflexivity|intros; nodup|intros e [<-|[<-|[]]]; [apply x_col|apply x_agg]; cbn; tauto].
  apply b_group; [|exact I|reflexivity|cbn; nodup|intros e [<-|[]]; apply x_col; cbn; tauto|intros a e [<-|[]] [<-|[]]; apply x_col; cbn; tauto].
  apply (b_equi _ _ _ _ _ false _ (OScan tS t_rows tS) (OFilter false _ _ _)); [constructor; [nodup|repeat constructor]| |cbn; nodup|exact I|intros a b [[= <- <-]|[]]; cbn; tauto].
  apply (b_filter _ _ _ _ _ false false _ (OScan uS u_rows uS)); [constructor; [nodup|repeat constructor]|discriminate|intros cl l [<-|[]] [<-|[]]; apply x_col; cbn; tauto].
Qed.

Theorem C53_run_inhabited : let o := OProject [col 1%N 2%N] [(Some 1%N, 2%N)] x_join in
  built ex_text ex_fn ex_un ex_bin x_truth true o /\ safe true (by_name ex_fn ex_un ex_bin x_truth o) /\ x_min o = Some [[i 10]; [i 11]; [i 10]].
Proof.
  split; [|split; [|vm_compute; reflexivity]].
  - destruct C53_inhabited as [B _]. inversion B as [| | | | | |? ? ? ? B1| | |]; subst. inversion B1 as [| | | |? ? ? ? B2| | | | |]; subst. inversion B2 as [| | | | | | |? ? ? ? ? B3| |]; subst. apply b_project; [exact B3|discriminate|reflexivity|intros; nodup|intros e [<-|[]]; apply x_col; cbn; tauto].
  - cbn [MinimizeSpec.by_name x_join map]. constructor. apply safe_equi; [constructor|constructor; constructor|]. intros l l' x y f g A A' Hx Hy [E|[]]. injection E as <- <-. inversion A; subst. inversion A' as [|? ? ? A2| | | | | | | |]; subst. inversion A2; subst.
    apply filter_In in Hy. destruct Hy as [Hy _]. cbn in Hx, Hy.
    repeat (destruct Hx as [<-|Hx]; [repeat (destruct Hy as [<-|Hy]; [vm_compute; exact I|]); destruct Hy|]). destruct Hx.
Qed.

(** ** Where the program goes wrong
    aggregation above a filter above a nested query: SELECT SUM(q.y) FROM (SELECT a AS x, b AS y FROM t) AS q WHERE q.x sums x *)
Definition q_nested : op := OProject [col 1%N 2%N; col 1%N 3%N] [(Some 3%N, 1%N); (Some 3%N, 2%N)] (OScan tS t_rows tS).
Definition q_filter : op := OFilter false [[(false, col 3%N 1%N)]] [(Some 3%N, 1%N); (Some 3%N, 2%N)] q_nested.
Lemma x_nested : built ex_text ex_fn ex_un ex_bin x_truth false q_filter.
Proof.
  apply (b_filter _ _ _ _ _ false false _ q_nested); [|discriminate|intros cl l [<-|[]] [<-|[]]; apply x_col; cbn; tauto].
  apply b_project; [constructor; [nodup|repeat constructor]|discriminate|reflexivity|intros; nodup|intros e [<-|[<-|[]]]; apply x_col; cbn; tauto].
Qed.
Theorem C53_refuted_nested_aggregate :
  let o := OAggregate [Agg 60 (Some (KSumI, col 3%N 2%N))] [(None, 60%N)] q_filter in
  built ex_text ex_fn ex_un ex_bin x_truth false q_filter /\ ~ straight q_filter /\
  x_names o = Some [[i 1000]] /\ x_run o = Some [[i 1000]] /\ x_min o = Some [[i 41]].
Proof. split; [exact x_nested|]. split; [intros []|]. split; [vm_compute; reflexivity|split; vm_compute; reflexivity]. Qed.
(** a join whose left child is a filter above a nested query: SELECT q.y, u.k FROM (SELECT a AS x, b AS y FROM t) AS q, u WHERE q.x; the column is not there *)
Theorem C53_refuted_nested_join :
  let o := OProject [col 3%N 2%N; col 2%N 1%N] [(Some 3%N, 2%N); (Some 2%N, 1%N)] (OJoin (JCnf []) (sch q_filter ++ uS) [q_filter; OScan uS [[i 1; i 1; i 7]] uS]) in
  x_names o = Some [[i 100; i 1]; [i 200; i 1]; [i 300; i 1]; [i 400; i 1]] /\ x_run o = x_names o /\
  x_min o = Some [[None; i 1]; [None; i 1]; [None; i 1]; [None; i 1]].
Proof. split; [vm_compute; reflexivity|split; vm_compute; reflexivity]. Qed.
(** ORDER BY and columns with the same name: SELECT a, a FROM t ORDER BY a throws an exception *)
Theorem C53_refuted_duplicates :
  let p := OProject [col 1%N 2%N; col 1%N 2%N] [(Some 1%N, 2%N); (Some 1%N, 2%N)] (OScan tS t_rows tS) in
  built ex_text ex_fn ex_un ex_bin x_truth true p /\ minimize [] true (OSort [(col 1%N 3%N, true)] (sch p) p) = None.
Proof.
  split; [|vm_compute; reflexivity]. apply b_project; [constructor; [nodup|repeat constructor]|discriminate|reflexivity|discriminate|intros e [<-|[<-|[]]]; apply x_col; cbn; tauto].
Qed.
(** ORDER BY a column that is not selected, with a computed column: SELECT a + b FROM t ORDER BY a.  The plan is that of C52: a projection to a and a + b, a sort,
    and a projection to a + b, which finds its column by its printed form; without minimization it works, but minimization looks for b *)
Theorem C53_refuted_computed :
  let sum := EBin 0%N (col 1%N 2%N) (col 1%N 3%N) in
  let below := OProject [col 1%N 2%N; sum] [(Some 1%N, 2%N); (None, 1000%N)] (OScan tS [[i 1; i 10; i 100; i 0]] tS) in
  let o := OProject [sum] [(None, 1000%N)] (OSort [(col 1%N 2%N, true)] (sch below) below) in
  ex_text sum = 1000%N /\ x_run o = Some [[i 110]] /\ minimize [] true o = None.
Proof. split; [reflexivity|split; vm_compute; reflexivity]. Qed.
(** a table with an alias: FROM t AS q; the interpreter looks for the columns of the alias in the table *)
Theorem C53_refuted_alias :
  let o S := OProject [ECol (fst (hd (None, 0%N) S)) 2%N None] [(fst (hd (None, 0%N) S), 2%N)] (OScan tS t_rows S) in
  x_run (o tS) = Some [[i 10]; [i 10]; [i 11]; [i 10]] /\ x_run (o (map (fun id => (Some 9%N, snd id)) tS)) = None.
Proof. split; vm_compute; reflexivity. Qed.
(** a nested query of which no column is used: SELECT COUNT of all FROM (SELECT a FROM t) AS q; the second minimization reads the first of no projections *)
Theorem C53_refuted_second :
  let o := OAggregate [Agg 61 None] [(None, 61%N)] (OProject [col 1%N 2%N] [(Some 3%N, 1%N)] (OScan tS t_rows tS)) in
  built ex_text ex_fn ex_un ex_bin x_truth true o /\ exists o', minimize [] true o = Some o' /\ x_run o' = Some [[i 4]] /\ ~ full o' /\ minimize [] true o' = None.
Proof.
  split.
  - apply (b_aggregate _ _ _ _ _ true [Agg 61 None]); [|exact I|discriminate|cbn; nodup|intros a e [<-|[]] []].
    apply b_project; [constructor; [nodup|repeat constructor]|discriminate|reflexivity|intros; nodup|intros e [<-|[]]; apply x_col; cbn; tauto].
  - eexists. split; [vm_compute; reflexivity|]. split; [vm_compute; reflexivity|]. split; [|vm_compute; reflexivity]. intros [_ [H _]]. apply H. reflexivity.
Qed.
