(** * What a plan means by the names of its columns, and plans as the optimizer builds them (specification for C53) *)
From Coq Require Import NArith ZArith List Bool.
From Verif Require Import Interp InterpSpec Finish FinishSpec Minimize.
Import ListNotations.

(** a row with the names of its values *)
Notation nrow := (list ((option N * N) * option datum)).
Fixpoint lookup (id : ident) (r : nrow) : cell :=
  match r with [] => None | (x, v) :: r' => if ident_eqb x id then v else lookup id r' end.
(** the columns that an expression uses *)
Fixpoint uses (e : expr) : list ident :=
  match e with
  | ECol t n _ => [(t, n)]
  | EAgg n => [(None, n)]
  | EConst _ => []
  | EFn _ e => uses e
  | EUn _ e => uses e
  | EBin _ l r => uses l ++ uses r
  end.

Section Spec.
Context (text : expr -> N) (fn_sem : N -> cell -> cell) (un_sem : N -> cell -> cell) (bin_sem : N -> cell -> cell -> cell) (truth : cell -> option bool).

(** the value of an expression, the truth of a condition *)
Fixpoint ev (r : nrow) (e : expr) : cell :=
  match e with
  | ECol t n _ => lookup (t, n) r
  | EAgg n => lookup (None, n) r
  | EConst v => v
  | EFn f e => fn_sem f (ev r e)
  | EUn o e => un_sem o (ev r e)
  | EBin o l r' => bin_sem o (ev r l) (ev r r')
  end.
Definition literal (r : nrow) (l : bool * expr) : option bool := if fst l then not3 (truth (ev r (snd l))) else truth (ev r (snd l)).
Definition disjunction (r : nrow) (cl : list (bool * expr)) : option bool := fold_right Minimize.or3 (Some false) (map (literal r) cl).
Definition condition (r : nrow) (f : cnf) : option bool := fold_right and3 (Some true) (map (disjunction r) f).
Definition name_agg (a : aggregate) : @agg nrow :=
  match a with
  | Agg _ None => CountAll
  | Agg _ (Some (KCount, e)) => Count (fun r => ev r e)
  | Agg _ (Some (KSumI, e)) => SumI (fun r => int_of (ev r e))
  | Agg _ (Some (KSumD, e)) => SumD (fun r => real_of (ev r e))
  | Agg _ (Some (KAvg, e)) => Avg (fun r => real_of (ev r e))
  | Agg _ (Some (KMinI, e)) => MinI (fun r => int_of (ev r e))
  | Agg _ (Some (KMaxI, e)) => MaxI (fun r => int_of (ev r e))
  | Agg _ (Some (KMinD, e)) => MinD (fun r => real_of (ev r e))
  | Agg _ (Some (KMaxD, e)) => MaxD (fun r => real_of (ev r e))
  end.
Definition left_first (L : schema) (k : ident * ident) : ident * ident := if existsb (ident_eqb (fst k)) L then k else (snd k, fst k).

(** ** The plan by names: no positions, no schemas but the names of computed columns; a join puts the rows together *)
Fixpoint by_name (o : op) : @plan nrow :=
  match o with
  | OScan T rows _ => Scan (map (combine T) rows)
  | OFilter _ f _ c => Filter (fun r => condition r f) (by_name c)
  | OJoin (JCnf f) _ cs => Join (JPred (fun rs => condition (concat rs) f)) (@concat _) (map by_name cs)
  | OJoin (JColumns ks) _ cs =>
      Join (JEqui (map (fun k => let k' := left_first (match cs with c :: _ => sch c | [] => [] end) k in (lookup (fst k'), lookup (snd k'))) ks))
           (@concat _) (map by_name cs)
  | OProject es N c => Project (fun r => combine N (map (ev r) es)) (by_name c)
  | OOnce es N => ProjectOnce (combine N (map (ev []) es))
  | OLimit limit offset _ c => Limit limit offset (by_name c)
  | OGroup ks aggs N c => Group (map (fun e r => ev r e) ks) (map name_agg aggs) (fun k cs => combine N (k ++ cs)) (by_name c)
  | OAggregate aggs N c => Aggregate (map name_agg aggs) (fun cs => combine N cs) (by_name c)
  | OSort order _ c => Sort (map (fun o => ((fun r => ev r (fst o)), snd o)) order) (by_name c)
  end.

(** ** Plans as the optimizer builds them
    all columns of an expression exist below, and a column that is named like its printed form has its value *)
Definition readable (c : op) (e : expr) : Prop :=
  incl (uses e) (sch c) /\
  (computed e -> In (None, text e) (sch c) -> forall l r, answer (by_name c) l -> In r l -> lookup (None, text e) r = ev r e).
(** operators whose tuples begin with the columns of their schema: not filters and sorts above projections and groupings *)
Fixpoint based (o : op) : Prop :=
  match o with
  | OScan _ _ _ | OJoin _ _ _ => True
  | OFilter _ _ _ c | OSort _ _ c | OLimit _ _ _ c => based c
  | _ => False
  end.
Fixpoint straight (o : op) : Prop :=
  match o with
  | OFilter _ _ _ c | OSort _ _ c => based c
  | OLimit _ _ _ c => straight c
  | _ => True
  end.
(** [built top o]: [top] says that [o] is the top of the plan, where columns can have the same name *)
Inductive built : bool -> op -> Prop :=
  | b_scan top T rows : NoDup T -> Forall (fun r => length r = length T) rows -> built top (OScan T rows T)
  | b_filter top d f c :
      built false c -> (d = true -> exists cl, f = [cl]) -> (forall cl l, In cl f -> In l cl -> readable c (snd l)) -> built top (OFilter d f (sch c) c)
  | b_theta top f cs :
      Forall (built false) cs -> cs <> [] -> NoDup (flat_map sch cs) -> Forall straight (removelast cs) ->
      (forall cl l, In cl f -> In l cl -> incl (uses (snd l)) (flat_map sch cs)) -> built top (OJoin (JCnf f) (flat_map sch cs) cs)
  | b_equi top ks c0 c1 :
      built false c0 -> built false c1 -> NoDup (sch c0 ++ sch c1) -> straight c0 ->
      (forall a b, In (a, b) ks -> (In a (sch c0) /\ In b (sch c1)) \/ (In a (sch c1) /\ In b (sch c0))) -> built top (OJoin (JColumns ks) (sch c0 ++ sch c1) [c0; c1])
  | b_project (top : bool) es N c :
      built false c -> es <> [] -> length es = length N -> (top = false -> NoDup N) -> (forall e, In e es -> readable c e) -> built top (OProject es N c)
  | b_once (top : bool) es N : es <> [] -> length es = length N -> (top = false -> NoDup N) -> (forall e, In e es -> uses e = []) -> built top (OOnce es N)
  | b_limit top limit offset c : built top c -> built top (OLimit limit offset (sch c) c)
  | b_group top ks aggs N c :
      built false c -> straight c -> length ks = length N -> NoDup (N ++ map agg_id aggs) -> (forall e, In e ks -> readable c e) ->
      (forall a e, In a aggs -> In e (agg_args a) -> readable c e) -> built top (OGroup ks aggs (N ++ map agg_id aggs) c)
  | b_aggregate top aggs c :
      built false c -> straight c -> aggs <> [] -> NoDup (map agg_id aggs) -> (forall a e, In a aggs -> In e (agg_args a) -> readable c e) ->
      built top (OAggregate aggs (map agg_id aggs) c)
  | b_sort top order c : built false c -> (forall o, In o order -> readable c (fst o)) -> built top (OSort order (sch c) c).
End Spec.
(** no operator below computes nothing at all *)
Fixpoint full (o : op) : Prop :=
  match o with
  | OScan _ _ _ => True
  | OJoin _ _ cs => (fix all (cs : list op) : Prop := match cs with [] => True | c :: cs' => full c /\ all cs' end) cs
  | OFilter _ _ _ c | OLimit _ _ _ c | OSort _ _ c | OGroup _ _ _ c => full c
  | OProject es _ c => es <> [] /\ full c
  | OOnce es _ => es <> []
  | OAggregate aggs _ c => aggs <> [] /\ full c
  end.
(** the schemas of the scans, and the columns that expressions of the plan use *)
Fixpoint scans (o : op) : list schema :=
  match o with
  | OScan _ _ X => [X]
  | OJoin _ _ cs => flat_map scans cs
  | OFilter _ _ _ c | OLimit _ _ _ c | OSort _ _ c | OGroup _ _ _ c | OProject _ _ c | OAggregate _ _ c => scans c
  | OOnce _ _ => []
  end.
Definition used (o : op) : list ident :=
  match o with
  | OFilter _ f _ _ => flat_map (fun l => uses (snd l)) (concat f)
  | OJoin (JCnf f) _ _ => flat_map (fun l => uses (snd l)) (concat f)
  | OJoin (JColumns ks) _ _ => flat_map (fun k => [fst k; snd k]) ks
  | OProject es _ _ | OOnce es _ => flat_map uses es
  | OGroup ks aggs _ _ => flat_map uses (ks ++ flat_map agg_args aggs)
  | OAggregate aggs _ _ => flat_map uses (flat_map agg_args aggs)
  | OSort order _ _ => flat_map (fun k => uses (fst k)) order
  | OScan _ _ _ | OLimit _ _ _ _ => []
  end.
Fixpoint mentioned (o : op) : list ident :=
  used o ++
  match o with
  | OScan _ _ _ | OOnce _ _ => []
  | OJoin _ _ cs => flat_map mentioned cs
  | OFilter _ _ _ c | OLimit _ _ _ c | OSort _ _ c | OGroup _ _ _ c | OProject _ _ c | OAggregate _ _ c => mentioned c
  end.
(** the columns of the result that come from below *)
Fixpoint shown (o : op) : list ident :=
  match o with
  | OScan _ _ X | OFilter _ _ X _ | OJoin _ X _ | OSort _ X _ => X
  | OLimit _ _ _ c => shown c
  | OProject _ _ _ | OOnce _ _ | OGroup _ _ _ _ | OAggregate _ _ _ => []
  end.
