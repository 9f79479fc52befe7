(** * Model of the query graph's clauses and of the construction of plans

    src/IR/QueryGraph.cpp 418-437, 1655-1688, 1915-1928 (which clause becomes a filter, which a join, the join graph),
    src/IR/Optimizer.cpp 63-106 (splitting of filters), 212-290 (plans of the sources), 322-375 (plan of the joins) and
    src/backend/Interpreter.cpp 645-705, 1450 (what a hash join accepts).

    The sources of the query have the numbers [0 .. n-1]; a set of sources is a bitset (C01).  A tuple of a source has the type [T]; a row
    of a plan is the list of its parts, each with the number of its source.  Simplifications: attributes are addressed through the part
    of their source, so that schemas and their minimization do not appear; data models and estimated cardinalities are left out; the
    clauses come in the order in which the unordered map [bound_clauses_] is traversed, which is arbitrary, and without the duplicates it
    drops; nested queries that became sources are given as plans; correlated clauses are not modelled. *)
From Coq Require Import NArith ZArith QArith List Bool.
From Verif Require Import Word Bitset Graph Interp PlanEnum.
Import ListNotations.
Open Scope N_scope.

Section Opt.
Context {T : Type}.
Notation row := (list (N * T)).

(** the part of source [i] *)
Fixpoint get (r : row) (i : N) : option T :=
  match r with
  | [] => None
  | (j, x) :: r' => if N.eqb i j then Some x else get r' i
  end.

(** A predicate of a clause (CNF.hpp 14-75).  [LEqui negative same i f j g]: a comparison of the columns [f] of source [i] and [g] of source
    [j], for equality ([negative = false]) or negated and for inequality ([negative = true]: [NOT (A.x <> B.y)]); these are the predicates
    for which [Predicate::is_equi()] holds (lines 43-49).  [same] says that the two columns have the same type.  [LOther refs fn]: any other
    predicate, a function of the tuples of the sources [refs]. *)
Inductive literal :=
  | LEqui (negative same : bool) (i : N) (f : T -> option datum) (j : N) (g : T -> option datum)
  | LOther (refs : N) (fn : list (option T) -> option bool).
Definition clause := list literal.

(** [ClauseInfo::data_sources], QueryGraph.cpp 418-437 *)
Definition lit_sources (l : literal) : N :=
  match l with LEqui _ _ i _ j _ => N.lor (2 ^ i) (2 ^ j) | LOther refs _ => refs end.
Definition clause_sources (c : clause) : N := fold_right (fun l s => N.lor (lit_sources l) s) 0 c.

(** three-valued evaluation of a predicate, a clause and a CNF on the tuples [env] of the sources (the stack machine, C31).  That a
    predicate only depends on the tuples of its sources is built in. *)
Definition eq3 (a b : option datum) : option bool :=
  match a, b with
  | Some (DInt x), Some (DInt y) => Some (Z.eqb x y)
  | Some (DReal p), Some (DReal q) => Some (Z.eqb (Qnum p) (Qnum q) && Pos.eqb (Qden p) (Qden q))
  | Some (DChars s), Some (DChars t) => Some (if list_eq_dec N.eq_dec s t then true else false)
  | Some _, Some _ => Some false
  | _, _ => None
  end.
Definition lit_eval (l : literal) (env : N -> option T) : option bool :=
  match l with
  | LEqui _ _ i f j g => match env i, env j with Some x, Some y => eq3 (f x) (g y) | _, _ => None end
  | LOther refs fn => fn (map env (elems refs))
  end.
Definition and3 (a b : option bool) : option bool :=
  match a, b with
  | Some false, _ | _, Some false => Some false
  | Some true, Some true => Some true
  | _, _ => None
  end.
Definition or_3 (a b : option bool) : option bool :=
  match a, b with
  | Some true, _ | _, Some true => Some true
  | Some false, Some false => Some false
  | _, _ => None
  end.
Definition clause_eval (c : clause) (env : N -> option T) : option bool := fold_right (fun l b => or_3 (lit_eval l env) b) (Some false) c.
Definition cnf_eval (cs : list clause) (env : N -> option T) : option bool := fold_right (fun c b => and3 (clause_eval c env) b) (Some true) cs.

(** ** QueryGraph.cpp 1668-1688: a clause without sources becomes a filter of every source, one with a single source a filter of this
    source, any other a join *)
Fixpoint classify (cs : list clause) (n : N) (filters : N -> list clause) (joins : list clause) : (N -> list clause) * list clause :=
  match cs with
  | [] => (filters, joins)
  | c :: cs' =>
      let s := clause_sources c in
      if sbs_size s =? 0 then classify cs' n (fun i => filters i ++ [c]) joins
      else if sbs_size s =? 1 then classify cs' n (fun i => if N.eqb i (ctz s) then filters i ++ [c] else filters i) joins
      else classify cs' n filters (joins ++ [c])
  end.

(** [compute_adjacency_matrix], QueryGraph.cpp 1915-1928; [None]: the exception for a join of more than two sources *)
Fixpoint adjacency (joins : list clause) (m : matrix) : option matrix :=
  match joins with
  | [] => Some m
  | c :: joins' =>
      match elems (clause_sources c) with
      | [i; j] => adjacency joins' (mset (mset m j i true) i j true)
      | _ => None
      end
  end.

(** ** [Optimizer::optimize_filter], Optimizer.cpp 63-106; [None]: a failed assertion.  [weight] is [WeighExpr] (lines 20-61), reduced modulo
    2^32 by the type [unsigned] *)
Section Filters.
Context (weight : clause -> N) (std_sort : (clause -> clause -> bool) -> list clause -> list clause).
Definition MAX_WEIGHT : N := 12.
Definition weight_of (c : clause) : N := N.modulo (weight c) (2 ^ 32).
Fixpoint dissect (cs : list clause) (current_weight : N) (current : list clause) (done : list (list clause)) : option (list (list clause)) :=
  match cs with
  | [] => Some (match current with [] => done | _ => done ++ [current] end)
  | c :: cs' =>
      match c with
      | [] => None
      | _ =>
          let w := weight_of c in
          if negb (match current with [] => true | _ => false end) && (MAX_WEIGHT <? N.modulo (current_weight + w) (2 ^ 32))
          then dissect cs' w [c] (done ++ [current])
          else dissect cs' (N.modulo (current_weight + w) (2 ^ 32)) (current ++ [c]) done
      end
  end.
Definition optimize_filter (cs : list clause) : option (list (list clause)) :=
  match cs with
  | [] => None
  | _ => dissect (std_sort (fun a b => weight_of a <? weight_of b) cs) 0 [] []
  end.

(** ** Plans of the sources, Optimizer.cpp 253-283: a disjunctive filter for a single clause of several predicates, else a filter *)
Definition add_filter (p : @plan row) (f : list clause) : plan :=
  match f with
  | [ (_ :: _ :: _) as c ] => Disjunctive (map (fun l r => lit_eval l (get r)) c) p
  | _ => Filter (fun r => cnf_eval f (get r)) p
  end.
Definition source_plan (p : @plan row) (filters : list clause) : option plan :=
  match filters with
  | [] => Some p
  | _ => match optimize_filter filters with Some fs => Some (fold_left add_filter fs p) | None => None end
  end.
End Filters.

(** ** Joins *)
(** [CNF::is_equi] (CNF.hpp 147-153) *)
Definition lit_is_equi (l : literal) : bool := match l with LEqui _ _ _ _ _ _ => true | LOther _ _ => false end.
Definition clause_is_equi (c : clause) : bool := match c with [l] => lit_is_equi l | _ => false end.
Definition is_equi (cs : list clause) : bool := match cs with [] => false | _ => forallb clause_is_equi cs end.
Definition column (i : N) (f : T -> option datum) (r : row) : option datum := match get r i with Some x => f x | None => None end.
(** the columns that a hash join compares, Interpreter.cpp 658-692: the literal must not be negated, the types must be the same, one
    side must belong to the left child (whose sources are [lhs]) and the other one to the right child *)
Fixpoint equi_keys (lhs rhs : N) (cs : list clause) : option (list ((row -> option datum) * (row -> option datum))) :=
  match cs with
  | [] => Some []
  | [LEqui false true i f j g] :: cs' =>
      match equi_keys lhs rhs cs' with
      | None => None
      | Some ks =>
          if N.testbit lhs i then if N.testbit rhs j then Some ((column i f, column j g) :: ks) else None
          else if N.testbit rhs i && N.testbit lhs j then Some ((column j g, column i f) :: ks) else None
      end
  | _ => None
  end.
(** the join operator; [cat] puts the parts together *)
Definition make_join (lhs rhs : N) (cond : list clause) (p q : @plan row) : option plan :=
  match cond with
  | [] => Some (Join JTrue (@concat (N * T)) [p; q])
  | _ =>
      if is_equi cond
      then match equi_keys lhs rhs cond with Some ks => Some (Join (JEqui ks) (@concat (N * T)) [p; q]) | None => None end
      else Some (Join (JPred (fun rs => cnf_eval cond (get (concat rs)))) (@concat (N * T)) [p; q])
  end.

(** [construct_join_order], Optimizer.cpp 322-375.  [joins] are the joins that are not yet part of the plan.  A subproblem with exactly one
    child (which no enumerator stores) is not modelled. *)
Section Construct.
Context {C : Type} (PT : table C) (sources : N -> option (@plan row)).
Fixpoint construct (fuel : nat) (s : N) (joins : list clause) : option (plan * list clause) :=
  match fuel with
  | O => None
  | S fuel' =>
      let l := e_left (PT s) in
      let r := e_right (PT s) in
      if sbs_empty l && sbs_empty r then
        if sbs_size s =? 1 then match sources (ctz s) with Some p => Some (p, joins) | None => None end
        else None
      else if sbs_empty l || sbs_empty r then None
      else
        match construct fuel' l joins with
        | None => None
        | Some (p, joins1) =>
            match construct fuel' r joins1 with
            | None => None
            | Some (q, joins2) =>
                let inside c := sbs_is_subset (clause_sources c) s in
                match make_join l r (filter inside joins2) p q with
                | None => None
                | Some j => Some (j, filter (fun c => negb (inside c)) joins2)
                end
            end
        end
  end.
End Construct.

(** ** [optimize_with_plantable] up to the joins, Optimizer.cpp 186-209: [enumerate] is the plan enumerator applied to the join graph, which is
    computed when it is first used.  [None] is an exception, a failed assertion or a loop that has not ended within [fuel] iterations. *)
Definition optimize_joins {C : Type} (enumerate : option matrix -> nat -> N -> table C -> option (table C)) (inf : C) (leaf : N -> C)
    (weight : clause -> N) (std_sort : (clause -> clause -> bool) -> list clause -> list clause)
    (fuel : nat) (sources : list (@plan row)) (clauses : list clause) : option plan :=
  let n := N.of_nat (length sources) in
  let '(filters, joins) := classify clauses n (fun _ => []) [] in
  match enumerate (adjacency joins (fun _ => 0)) fuel n (pt_init inf leaf) with
  | None => None
  | Some PT =>
      let source_plans i := match nth_error sources (N.to_nat i) with Some p => source_plan weight std_sort p (filters i) | None => None end in
      match construct PT source_plans fuel (N.ones n) joins with
      | Some (p, _) => Some p
      | None => None
      end
  end.
End Opt.
(** an enumerator that uses the join graph, and one that does not *)
Definition on_graph {A B} (E : matrix -> nat -> N -> A -> option B) (m : option matrix) (fuel : nat) (n : N) (PT : A) : option B :=
  match m with Some m => E m fuel n PT | None => None end.
Definition on_any {A B} (E : nat -> N -> A -> option B) (m : option matrix) : nat -> N -> A -> option B := E.
