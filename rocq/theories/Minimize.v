(** * Model of the schemas of plans, of their minimization and of their use by the interpreter

    src/IR/Operator.cpp 331-583 ([SchemaMinimizer]), src/parse/AST.cpp 145-175 and include/mutable/IR/CNF.hpp 96-143 ([get_required]),
    include/mutable/catalog/Schema.hpp 118-280 ([find], [has], [&], [|=]), src/backend/Interpreter.cpp (which schema each operator uses to find the
    columns of its tuples).

    An operator has the schema that the optimizer gave it; the tuples that arrive at an operator have the schema of their pipeline, which can
    be another one.  Simplifications: a schema is the list of its names, without types and constraints; an expression is one of C52; an
    aggregate has at most one argument. *)
From Coq Require Import NArith ZArith QArith List Bool.
From Verif Require Import Interp Finish.
Import ListNotations.

Notation "'do' x <- a ; b" := (match a with Some x => b | None => None end) (at level 200, x name, a at level 100, b at level 200).

(** ** Schemas *)
(** [Schema::has], [None] is the exception for an ambiguous name *)
Definition has (S : schema) (id : ident) : option bool :=
  match positions S id 0 with [] => Some false | [_] => Some true | _ => None end.
(** [operator|=], Schema.hpp 212-219 *)
Fixpoint union (S A : schema) : option schema :=
  match A with
  | [] => Some S
  | id :: A' => do h <- has S id; union (if h then S else S ++ [id]) A'
  end.
(** [operator&], Schema.hpp 258-270 *)
Fixpoint inter (L S : schema) : option schema :=
  match L with
  | [] => Some []
  | id :: L' => do h <- has S id; do I <- inter L' S; Some (if h then id :: I else I)
  end.
(** [operator==], Schema.hpp 222-226 *)
Fixpoint all_in (A S : schema) : option bool :=
  match A with
  | [] => Some true
  | id :: A' => do h <- has S id; if h then all_in A' S else Some false
  end.
Definition same_names (A B : schema) : option bool := do x <- all_in A B; if x then all_in B A else Some false.
(** [add_constraints], Operator.cpp 350-364, searches each name of [S]; here only the exception matters *)
Fixpoint searchable (S C : schema) : bool :=
  match S with [] => true | id :: S' => match has C id with Some _ => searchable S' C | None => false end end.

(** ** What expressions need *)
(** [Expr::get_required], AST.cpp 145-175 *)
Definition add_name (S : schema) (id : ident) : schema := match has S id with Some false => S ++ [id] | _ => S end.
Fixpoint need (e : expr) (acc : schema) : schema :=
  match e with
  | ECol t n _ => add_name acc (t, n)
  | EAgg n => add_name acc (None, n)
  | EConst _ => acc
  | EFn _ e => need e acc
  | EUn _ e => need e acc
  | EBin _ l r => need r (need l acc)
  end.
Definition required_by (e : expr) : schema := need e [].
(** the union for several expressions *)
Fixpoint unions (S : schema) (es : list expr) : option schema :=
  match es with [] => Some S | e :: es' => do S' <- union S (required_by e); unions S' es' end.

(** conditions: a conjunction of disjunctions of expressions, possibly negated *)
Notation cnf := (list (list (bool * expr))).
(** CNF.hpp 96-101 and 138-143 *)
Fixpoint cnf_required (f : cnf) (S : schema) : option schema :=
  match f with
  | [] => Some S
  | cl :: f' => do R <- unions [] (map snd cl); do S' <- union S R; cnf_required f' S'
  end.

(** ** Plans with schemas *)
Inductive akind := KCount | KSumI | KSumD | KAvg | KMinI | KMaxI | KMinD | KMaxD.
(** an aggregate: its printed form, its function, its argument ([None]: COUNT of all rows) *)
Inductive aggregate := Agg (name : N) (arg : option (akind * expr)).
Definition agg_id (a : aggregate) : ident := match a with Agg n _ => (None, n) end.
Definition agg_args (a : aggregate) : list expr := match a with Agg _ (Some (_, e)) => [e] | Agg _ None => [] end.
(** the predicate of a join: equalities of two columns, or another one *)
Inductive jcond := JColumns (ks : list (ident * ident)) | JCnf (f : cnf).
Inductive op :=
  | OScan (T : schema) (rows : list row) (S : schema)           (** [T]: the schema of the table *)
  | OFilter (disjunctive : bool) (f : cnf) (S : schema) (c : op)
  | OJoin (j : jcond) (S : schema) (cs : list op)
  | OProject (es : list expr) (S : schema) (c : op)
  | OOnce (es : list expr) (S : schema)                         (** a projection without child *)
  | OLimit (limit offset : N) (S : schema) (c : op)
  | OGroup (ks : list expr) (aggs : list aggregate) (S : schema) (c : op)
  | OAggregate (aggs : list aggregate) (S : schema) (c : op)
  | OSort (order : list (expr * bool)) (S : schema) (c : op).
(** [Operator::schema()] *)
Definition sch (o : op) : schema :=
  match o with
  | OScan _ _ X | OFilter _ _ X _ | OJoin _ X _ | OProject _ X _ | OOnce _ X | OLimit _ _ X _ | OGroup _ _ X _ | OAggregate _ X _ | OSort _ X _ => X
  end.

(** ** [SchemaMinimizer], Operator.cpp 331-559; [R] is [required], [top] is [is_top_of_plan_].  [None]: an exception, a failed assertion or an
    access to the first element of an empty vector. *)
(** lines 418-434: which projections stay *)
Fixpoint keep_columns (R : schema) (top : bool) (es : list expr) (Sc : schema) : option (list expr * schema) :=
  match es, Sc with
  | e :: es', id :: S' =>
      do k <- (if top then Some true else has R id);
      do r <- keep_columns R top es' S';
      Some (if k then (e :: fst r, id :: snd r) else r)
  | [], _ => Some ([], [])
  | _ :: _, [] => None
  end.
(** lines 469-485 and 512-528: which aggregates stay; their names must be in [Sc] *)
Fixpoint keep_aggs (R : schema) (top : bool) (aggs : list aggregate) (Sc : schema) : option (list aggregate) :=
  match aggs with
  | [] => Some []
  | a :: aggs' =>
      do k <- (if top then Some true else has R (agg_id a));
      if k
      then do h <- has Sc (agg_id a); if h then do r <- keep_aggs R top aggs' Sc; Some (a :: r) else None
      else keep_aggs R top aggs' Sc
  end.
Definition insist_subset (R S : schema) : option bool := do I <- inter R S; same_names R I.
Definition j_required (j : jcond) : option schema :=
  match j with
  | JColumns ks => (fix go ks (S : schema) := match ks with [] => Some S | k :: ks' => do S' <- union S (add_name [fst k] (snd k)); go ks' S' end) ks []
  | JCnf f => cnf_required f []
  end.

Fixpoint minimize (R : schema) (top : bool) (o : op) {struct o} : option op :=
  match o with
  | OScan T rows Sc => if top then Some o else do R' <- inter R Sc; Some (OScan T rows R')
  | OFilter d f Sc c =>
      if top
      then do c' <- minimize Sc false c; if searchable Sc (sch c') then Some (OFilter d f Sc c') else None
      else
        do F <- cnf_required f [];
        do ok <- insist_subset R Sc;
        if negb ok then None else
        do R1 <- union R F;
        do c' <- minimize R1 false c;
        if searchable R (sch c') then Some (OFilter d f R c') else None
  | OJoin j Sc cs =>
      do F <- j_required j;
      do below <- (if top then Some Sc else union R F);
      do ok <- (if top then Some true else insist_subset R Sc);
      if negb ok then None else
      let S' := if top then Sc else R in
      do cs' <- (fix go (cs : list op) : option (list op) :=
        match cs with
        | [] => Some []
        | c :: cs1 =>
            do Rc <- inter below (sch c);
            do c' <- minimize Rc false c;
            if searchable S' (sch c') then do cs1' <- go cs1; Some (c' :: cs1') else None
        end) cs;
      Some (OJoin j S' cs')
  | OProject es Sc c =>
      do kept <- keep_columns R top es Sc;
      do R1 <- unions [] (fst kept);
      match es with
      | [] => None
      | _ :: _ =>
          do c' <- minimize R1 false c;
          if searchable (snd kept) (sch c') then Some (OProject (fst kept) (snd kept) c') else None
      end
  | OOnce es Sc =>
      do kept <- keep_columns R top es Sc;
      do R1 <- unions [] (fst kept);
      match es with [] => None | _ :: _ => Some (OOnce (fst kept) (snd kept)) end
  | OLimit limit offset Sc c => do c' <- minimize R top c; Some (OLimit limit offset (sch c') c')
  | OGroup ks aggs Sc c =>
      do K <- unions [] ks;
      do kept <- keep_aggs R top aggs Sc;
      do R1 <- unions K (flat_map agg_args kept);
      let ours := firstn (length ks) Sc ++ map agg_id kept in
      do c' <- minimize R1 false c;
      if searchable (firstn (length ks) ours) (sch c') then Some (OGroup ks kept ours c') else None
  | OAggregate aggs Sc c =>
      match aggs with
      | [] => None
      | _ :: _ =>
          do kept <- keep_aggs R top aggs Sc;
          do R1 <- unions [] (flat_map agg_args kept);
          do c' <- minimize R1 false c;
          Some (OAggregate kept (map agg_id kept) c')
      end
  | OSort order Sc c =>
      if top
      then do c' <- minimize Sc false c; if searchable Sc (sch c') then Some (OSort order Sc c') else None
      else
        do F <- unions [] (map fst order);
        do ok <- insist_subset R Sc;
        if negb ok then None else
        do R1 <- union R F;
        do c' <- minimize R1 false c;
        if searchable R (sch c') then Some (OSort order R c') else None
  end.

(** ** Execution: the plan of C46 that the interpreter executes, with columns by position *)
(** the schema of the tuples that leave an operator: [Pipeline::schema()] *)
Fixpoint pipe (o : op) : schema :=
  match o with
  | OScan _ _ X | OJoin _ X _ | OProject _ X _ | OOnce _ X | OGroup _ _ X _ | OAggregate _ X _ => X
  | OFilter _ _ _ c | OLimit _ _ _ c | OSort _ _ c => pipe c
  end.

Section Exec.
Context (text : expr -> N) (fn_sem : N -> cell -> cell) (un_sem : N -> cell -> cell) (bin_sem : N -> cell -> cell -> cell). (** C31 *)
Context (truth : cell -> option bool).                          (** the truth value of a cell *)

(** an expression on tuples of one schema, [StackMachine::emit] *)
Notation on S := (emit text fn_sem un_sem bin_sem S).
(** [StackMachineBuilder], StackMachine.cpp 63-200, on several tuples: [load] finds a column *)
Fixpoint comp {X : Type} (load : ident -> option (X -> cell)) (e : expr) : option (X -> cell) :=
  match e with
  | ECol t n _ => load (t, n)
  | EAgg n => load (None, n)
  | EConst v => Some (fun _ => v)
  | EFn f e => do g <- comp load e; Some (fun x => fn_sem f (g x))
  | EUn o e => do g <- comp load e; Some (fun x => un_sem o (g x))
  | EBin o l r => do g <- comp load l; do h <- comp load r; Some (fun x => bin_sem o (g x) (h x))
  end.
Definition not3 (b : option bool) : option bool := match b with Some b => Some (negb b) | None => None end.
Definition and3 (a b : option bool) : option bool :=
  match a, b with Some false, _ | _, Some false => Some false | Some true, Some true => Some true | _, _ => None end.
Definition or3 (a b : option bool) : option bool :=
  match a, b with Some true, _ | _, Some true => Some true | Some false, Some false => Some false | _, _ => None end.
(** a literal, a clause and a CNF, StackMachine.cpp 581-618; [cmp] compiles an expression *)
Definition comp_lit {X} (cmp : expr -> option (X -> cell)) (l : bool * expr) : option (X -> option bool) :=
  do g <- cmp (snd l); Some (fun x => if fst l then not3 (truth (g x)) else truth (g x)).
Definition comp_clause {X} (cmp : expr -> option (X -> cell)) (cl : list (bool * expr)) : option (X -> option bool) :=
  do gs <- all_some (map (comp_lit cmp) cl); Some (fun x => fold_right (fun g b => or3 (g x) b) (Some false) gs).
Definition comp_cnf {X} (cmp : expr -> option (X -> cell)) (f : cnf) : option (X -> option bool) :=
  do gs <- all_some (map (comp_clause cmp) f); Some (fun x => fold_right (fun g b => and3 (g x) b) (Some true) gs).
(** [find_id] with several schemas, StackMachine.cpp 64-73: the first one that has the name *)
Fixpoint load_multi (Ss : list schema) (id : ident) : option (list row -> cell) :=
  match Ss with
  | [] => None
  | Sc :: Ss' =>
      match positions Sc id 0 with
      | [] => do g <- load_multi Ss' id; Some (fun rs => g (tl rs))
      | [i] => Some (fun rs => nth i (hd [] rs) None)
      | _ => None
      end
  end.

(** [JoinData::emit_load_attrs] (Interpreter.cpp 613-623) and [compile_load] (lines 107-135): the columns of a tuple [r] of schema [I] that occur in [S] are
    written to a tuple [out] of schema [S] *)
Fixpoint set_nth (i : nat) (v : cell) (r : row) : row :=
  match r, i with
  | [], _ => []
  | _ :: r', 0%nat => v :: r'
  | x :: r', Datatypes.S i' => x :: set_nth i' v r'
  end.
Fixpoint load_attrs (S I : schema) (i : nat) : option (row -> row -> row) :=
  match I with
  | [] => Some (fun _ out => out)
  | id :: I' =>
      do rest <- load_attrs S I' (Datatypes.S i);
      match positions S id 0 with
      | [] => Some rest
      | [j] => Some (fun r out => rest r (set_nth j (nth i r None) out))
      | _ => None
      end
  end.
Definition fresh (S : schema) : row := repeat None (length S).

Definition int_of (c : cell) : option Z := match c with Some (DInt z) => Some z | _ => None end.
Definition real_of (c : cell) : option Q := match c with Some (DInt z) => Some (inject_Z z) | Some (DReal q) => Some q | _ => None end.
Definition mk_agg {X} (k : akind) (g : X -> cell) : @agg X :=
  match k with
  | KCount => Count g
  | KSumI => SumI (fun r => int_of (g r)) | KSumD => SumD (fun r => real_of (g r)) | KAvg => Avg (fun r => real_of (g r))
  | KMinI => MinI (fun r => int_of (g r)) | KMaxI => MaxI (fun r => int_of (g r))
  | KMinD => MinD (fun r => real_of (g r)) | KMaxD => MaxD (fun r => real_of (g r))
  end.
(** lines 752-768 and 786-803 *)
Definition comp_agg (S : schema) (a : aggregate) : option (@agg row) :=
  match a with
  | Agg _ None => Some CountAll
  | Agg _ (Some (k, e)) => do g <- on S e; Some (mk_agg k g)
  end.
(** lines 684-700: which side of an equality belongs to the left child *)
Definition side (S : schema) (k : ident * ident) : option (ident * ident) :=
  do h <- has S (fst k); Some (if h then k else (snd k, fst k)).
(** [Tuple::clone] with the schema of the child (lines 1037-1041, 1129-1136): of the tuples of all children but the last the interpreter keeps as many columns
    as the child's schema has *)
Fixpoint clones (ns : list nat) (rs : list row) : list row :=
  match ns, rs with
  | n :: ((_ :: _) as ns'), r :: rs' => firstn n r :: clones ns' rs'
  | _, _ => rs
  end.
(** lines 1110-1123: the loads of all children, in order *)
Fixpoint load_all (ls : list (row -> row -> row)) (rs : list row) (out : row) : row :=
  match ls, rs with
  | l :: ls', r :: rs' => load_all ls' rs' (l r out)
  | _, _ => out
  end.

Fixpoint lower (o : op) : option (@plan row) :=
  match o with
  | OScan T rows Sc =>                          (* lines 899-920; line 66: each name must be one of the table *)
      do ok <- all_in Sc T;
      if negb ok then None else
      do ld <- load_attrs Sc T 0; Some (Scan (map (fun r => ld r (fresh Sc)) rows))
  | OFilter d f Sc c =>                         (* lines 859-892, 955-985: the schema of the pipeline *)
      do p <- lower c;
      if d
      then match f with cl :: _ => do gs <- all_some (map (comp_lit (on (pipe c))) cl); Some (Disjunctive gs p) | [] => None end
      else do g <- comp_cnf (on (pipe c)) f; Some (Filter g p)
  | OJoin (JColumns ks) Sc cs =>                (* lines 643-722, 990-1044, 1450-1462 *)
      match cs with
      | [c0; c1] =>
          do p0 <- lower c0;
          do p1 <- lower c1;
          do ks' <- all_some (map (side (sch c0)) ks);
          do fs <- all_some (map (fun k => load_col (pipe c0) (fst k)) ks');
          do gs <- all_some (map (fun k => load_col (pipe c1) (snd k)) ks');
          do l0 <- load_attrs Sc (pipe c0) 0;
          do l1 <- load_attrs Sc (pipe c1) 0;
          Some (Join (JEqui (combine fs gs)) (fun rs => load_all [l0; l1] (clones [length (sch c0); length (sch c1)] rs) (fresh Sc)) [p0; p1])
      | _ => None
      end
  | OJoin (JCnf f) Sc cs =>                     (* lines 626-641, 1045-1138, 1463-1475 *)
      do ps <- (fix go (cs : list op) : option (list (@plan row)) :=
        match cs with [] => Some [] | c :: cs' => do p <- lower c; do ps <- go cs'; Some (p :: ps) end) cs;
      do ls <- all_some (map (fun c => load_attrs Sc (pipe c) 0) cs);
      let ns := map (fun c => length (sch c)) cs in
      let cat rs := load_all ls (clones ns rs) (fresh Sc) in
      match f with
      | [] => Some (Join JTrue cat ps)
      | _ :: _ => do g <- comp_cnf (comp (load_multi (map pipe cs))) f; Some (Join (JPred (fun rs => g (clones ns rs))) cat ps)
      end
  | OProject es Sc c =>                         (* lines 585-604: the schema of the pipeline *)
      do p <- lower c;
      do gs <- all_some (map (on (pipe c)) es);
      Some (Project (fun r => map (fun g => g r) gs) p)
  | OOnce es Sc => do gs <- all_some (map (on []) es); Some (ProjectOnce (map (fun g => g []) gs))
  | OLimit limit offset Sc c => do p <- lower c; Some (Limit limit offset p)
  | OGroup ks aggs Sc c =>                      (* lines 730-770: the schema of the child *)
      do p <- lower c;
      do gs <- all_some (map (on (sch c)) ks);
      do as' <- all_some (map (comp_agg (sch c)) aggs);
      Some (Group gs as' (fun k cs => k ++ cs) p)
  | OAggregate aggs Sc c =>                     (* lines 772-806: the schema of the child *)
      do p <- lower c;
      do as' <- all_some (map (comp_agg (sch c)) aggs);
      Some (Aggregate as' (fun cs => cs) p)
  | OSort order Sc c =>                         (* lines 851-857, 1397-1406, 1595: the schema of the pipeline *)
      do p <- lower c;
      do gs <- all_some (map (fun o => on (pipe c) (fst o)) order);
      Some (Sort (combine gs (map snd order)) p)
  end.
End Exec.
