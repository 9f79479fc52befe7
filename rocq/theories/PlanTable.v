(** * Model of the plan tables, include/mutable/IR/PlanTable.hpp.

    Simplifications: a [double] is NaN, an infinity or a rational number (the doubles are rationals; the two zeros compare
    equal and are one number here); [PlanTableEntry::data] is left out (no plan table function touches it); a
    [std::unique_ptr<DataModel>] is an optional value of an arbitrary type [M]; failing [M_insist]s and dereferenced null
    pointers are the outcome [Insist], exceptions the outcome [Throw]; the estimator [CE.estimate_join] is an arbitrary
    function of the two data models and the two subproblems (which determine the join condition). *)
From Coq Require Import NArith QArith List Bool.
From Verif Require Import Word Bitset.
Import ListNotations.
Open Scope N_scope.

(** ** [double] with the comparisons [<] and [==] of IEEE 754. *)
Inductive dbl := NaN | NegInf | Fin (q : Q) | PosInf.
Definition dlt (a b : dbl) : bool :=
  match a, b with
  | NaN, _ | _, NaN => false
  | NegInf, NegInf => false
  | NegInf, _ => true
  | _, NegInf => false
  | Fin p, Fin q => negb (Qle_bool q p)
  | Fin _, PosInf => true
  | PosInf, _ => false
  end.
Definition deq (a b : dbl) : bool :=
  match a, b with
  | NegInf, NegInf | PosInf, PosInf => true
  | Fin p, Fin q => Qeq_bool p q
  | _, _ => false
  end.

(** Outcomes of calls. *)
Inductive outcome (A : Type) := Ok (a : A) | Insist | Throw.
Arguments Ok {A}. Arguments Insist {A}. Arguments Throw {A}.
Definition bind {A B} (o : outcome A) (f : A -> outcome B) : outcome B :=
  match o with Ok a => f a | Insist => Insist | Throw => Throw end.
Notation "'do' x <- o ; k" := (bind o (fun x => k)) (at level 200, x pattern, o at level 100, k at level 200).

Section Tables.
  Context {M : Type}.

  (** [PlanTableEntry], lines 38-46, with its default initializers. *)
  Record pentry := PE { p_left : N; p_right : N; p_model : option M; p_cost : dbl }.
  Definition pe_default : pentry := PE 0 0 None PosInf.
  (** [get_subproblems], lines 49-54. *)
  Definition get_subproblems (e : pentry) : list N :=
    (if sbs_empty (p_left e) then [] else [p_left e]) ++ (if sbs_empty (p_right e) then [] else [p_right e]).
  (** [PlanTableEntry::operator==], lines 57-59. *)
  Definition pe_eq (a b : pentry) : bool :=
    deq (p_cost a) (p_cost b) && (p_left a =? p_left b) && (p_right a =? p_right b).

  (** What [PlanTableBase] requires of [Actual] (the CRTP parameter, lines 71-155).  [a_get] is [operator[]], which hands out
      a reference; [a_put] assigns through a reference handed out before ([std::unordered_map] keeps references valid when
      it grows). *)
  Record actual (T : Type) := {
    a_num_sources : T -> N;
    a_at : N -> T -> outcome pentry;
    a_get : N -> T -> outcome (pentry * T);
    a_put : N -> pentry -> T -> T;
    a_has_plan : N -> T -> outcome bool;
    a_reset_costs : T -> T }.
  Arguments a_num_sources {T}. Arguments a_at {T}. Arguments a_get {T}. Arguments a_put {T}. Arguments a_has_plan {T}.
  Arguments a_reset_costs {T}.

  (** The common part of both [has_plan]s once the entry is found, lines 256-258 and 342-344. *)
  Definition entry_has_plan (e : pentry) : outcome bool :=
    if Bool.eqb (sbs_empty (p_left e)) (sbs_empty (p_right e)) then Ok (negb (sbs_empty (p_left e))) else Insist.

  (** ** [PlanTableSmallOrDense], lines 179-278: an array of [(1UL << num_sources) + num_additional_entries] entries. *)
  Record dense := D { d_sources : N; d_extra : N; d_table : list pentry }.
  (** [size()], line 245. *)
  Definition d_size (t : dense) : N := shl64 1 (d_sources t) + d_extra t.
  (** The constructor, lines 206-216: all entries are default-initialized. *)
  Definition d_new (num_sources num_additional_entries : N) : dense :=
    D num_sources num_additional_entries
      (repeat pe_default (N.to_nat (shl64 1 num_sources + num_additional_entries))).
  (** [table_[i] = e] *)
  Fixpoint list_set (i : nat) (e : pentry) (l : list pentry) : list pentry :=
    match l, i with
    | [], _ => []
    | _ :: l', O => e :: l'
    | x :: l', Datatypes.S i' => x :: list_set i' e l'
    end.
  (** [at], line 247. *)
  Definition d_at (s : N) (t : dense) : outcome pentry :=
    if s <? d_size t then
      match nth_error (d_table t) (N.to_nat s) with Some e => Ok e | None => Insist end
    else Insist.
  (** [operator[]], lines 250-251. *)
  Definition d_get (s : N) (t : dense) : outcome (pentry * dense) := do e <- d_at s t; Ok (e, t).
  Definition d_put (s : N) (e : pentry) (t : dense) : dense :=
    D (d_sources t) (d_extra t) (list_set (N.to_nat s) e (d_table t)).
  (** [has_plan], lines 253-258. *)
  Definition d_has_plan (s : N) (t : dense) : outcome bool :=
    if sbs_size s =? 1 then Ok true else do (e, _) <- d_get s t; entry_has_plan e.
  (** [reset_costs], lines 260-266; the loop over the indices, starting at [i]. *)
  Fixpoint d_reset_from (i : N) (l : list pentry) : list pentry :=
    match l with
    | [] => []
    | e :: l' => (if sbs_is_singleton i then e else PE (p_left e) (p_right e) (p_model e) PosInf) :: d_reset_from (i + 1) l'
    end.
  Definition d_reset_costs (t : dense) : dense := D (d_sources t) (d_extra t) (d_reset_from 0 (d_table t)).
  (** [operator==], lines 233-241. *)
  Fixpoint d_eq_from (l1 l2 : list pentry) : bool :=
    match l1, l2 with
    | e1 :: l1', e2 :: l2' => if pe_eq e1 e2 then d_eq_from l1' l2' else false
    | _, _ => true
    end.
  Definition d_eq (t u : dense) : bool :=
    if negb (d_sources t =? d_sources u) then false else
    if negb (d_size t =? d_size u) then false else d_eq_from (d_table t) (d_table u).
  Definition dense_actual : actual dense :=
    {| a_num_sources := d_sources; a_at := d_at; a_get := d_get; a_put := d_put; a_has_plan := d_has_plan;
       a_reset_costs := d_reset_costs |}.

  (** ** [PlanTableLargeAndSparse], lines 283-375: a [std::unordered_map], modelled by the list of its elements in iteration
      order (the theorems hold for every order). *)
  Record sparse := P { s_sources : N; s_table : list (N * pentry) }.
  (** The constructor, lines 305-308 (the second argument only reserves buckets). *)
  Definition s_new (num_sources num_additional_entries : N) : sparse := P num_sources [].
  (** [table_.find(s)] *)
  Fixpoint s_find (s : N) (l : list (N * pentry)) : option pentry :=
    match l with [] => None | (k, e) :: l' => if s =? k then Some e else s_find s l' end.
  (** An assignment through a reference to an element (the element is always there: see [b_update] and [run]). *)
  Fixpoint s_set (s : N) (e : pentry) (l : list (N * pentry)) : list (N * pentry) :=
    match l with [] => [(s, e)] | (k, e') :: l' => if s =? k then (k, e) :: l' else (k, e') :: s_set s e l' end.
  (** [at], line 334: throws [std::out_of_range]. *)
  Definition s_at (s : N) (t : sparse) : outcome pentry :=
    match s_find s (s_table t) with Some e => Ok e | None => Throw end.
  (** [operator[]], lines 337-340: creates the entry; the [const] overload does so, too. *)
  Definition s_get (s : N) (t : sparse) : outcome (pentry * sparse) :=
    match s_find s (s_table t) with
    | Some e => Ok (e, t)
    | None => Ok (pe_default, P (s_sources t) ((s, pe_default) :: s_table t))
    end.
  Definition s_put (s : N) (e : pentry) (t : sparse) : sparse := P (s_sources t) (s_set s e (s_table t)).
  (** [has_plan], lines 342-351. *)
  Definition s_has_plan (s : N) (t : sparse) : outcome bool :=
    if sbs_size s =? 1 then Ok true else
    match s_find s (s_table t) with Some e => entry_has_plan e | None => Ok false end.
  (** [reset_costs], lines 353-358. *)
  Definition s_reset_costs (t : sparse) : sparse :=
    P (s_sources t) (map (fun ke => (fst ke, if sbs_is_singleton (fst ke) then snd ke
      else PE (p_left (snd ke)) (p_right (snd ke)) (p_model (snd ke)) PosInf)) (s_table t)).
  (** [operator==], lines 317-328. *)
  Fixpoint s_eq_from (l1 l2 : list (N * pentry)) : bool :=
    match l1 with
    | [] => true
    | (k, e) :: l1' =>
        match s_find k l2 with
        | None => false
        | Some e' => if pe_eq e e' then s_eq_from l1' l2 else false
        end
    end.
  Definition s_eq (t u : sparse) : bool :=
    if negb (s_sources t =? s_sources u) then false else
    if negb (Nat.eqb (length (s_table t)) (length (s_table u))) then false else s_eq_from (s_table t) (s_table u).
  Definition sparse_actual : actual sparse :=
    {| a_num_sources := s_sources; a_at := s_at; a_get := s_get; a_put := s_put; a_has_plan := s_has_plan;
       a_reset_costs := s_reset_costs |}.

  (** ** Cost functions.  [CostFunction::calculate_join_cost] receives a [const] plan table, of which it may read any entries,
      each time with [operator[]]; [RAbort]: it dereferences a null pointer. *)
  Inductive reader := RRet (c : dbl) | RGet (s : N) (k : pentry -> reader) | RAbort.

  Section Base.
    Variable (est : N -> N -> M -> M -> M).            (* [CE.estimate_join] *)
    Variable (cf : N -> N -> reader).                  (* [CF.calculate_join_cost] *)

    Section Actual.
      Context {T : Type}.
      Variable (A : actual T).

      Fixpoint run_reader (r : reader) (t : T) : outcome (dbl * T) :=
        match r with
        | RRet c => Ok (c, t)
        | RAbort => Insist
        | RGet s k => do (e, t') <- a_get A s t; run_reader (k e) t'
        end.

      (** [c], line 113. *)
      Definition b_c (s : N) (t : T) : outcome (dbl * T) := do (e, t') <- a_get A s t; Ok (p_cost e, t').
      (** [get_final], lines 107-110. *)
      Definition b_get_final (t : T) : outcome (pentry * T) :=
        match sbs_All (a_num_sources A t) with Some all => a_get A all t | None => Insist end.

      Definition with_model (m : option M) (e : pentry) : pentry := PE (p_left e) (p_right e) m (p_cost e).
      (** Lines 129-139: the data model is computed when the subproblem is considered for the first time. *)
      Definition b_model (l r : N) (t : T) : outcome T :=
        let S := sbs_union l r in
        do (entry, t) <- a_get A S t;                                                        (* line 126 *)
        match p_model entry with
        | Some _ => Ok t
        | None =>
            do (el, t) <- a_get A l t;
            do (er, t) <- a_get A r t;
            match p_model el, p_model er with
            | Some ml, Some mr => do (entry, t) <- a_get A S t; Ok (a_put A S (with_model (Some (est l r ml mr)) entry) t)
            | _, _ => Insist                                                                 (* M_insist, lines 134-135 *)
            end
        end.
      (** [update], lines 119-155. *)
      Definition b_update (left right : N) (t : T) : outcome T :=
        if sbs_empty left || sbs_empty right then Insist else                                (* M_insist, lines 123-124 *)
        do t <- b_model left right t;
        do (cost, t) <- run_reader (cf left right) t;                                        (* line 142 *)
        do (rl_cost, t) <- run_reader (cf right left) t;                                     (* line 144 *)
        let '(cost, lhs, rhs) := if dlt rl_cost cost then (rl_cost, right, left) else (cost, left, right) in
        let S := sbs_union lhs rhs in
        do hp <- a_has_plan A S t;
        do (entry, t) <- a_get A S t;
        if negb hp || dlt cost (p_cost entry) then Ok (a_put A S (PE lhs rhs (p_model entry) cost) t) else Ok t.
    End Actual.

    (** ** Clients of a plan table: plan enumerators, the optimizer, printing.  A client decides about its next call with the
        results of the previous ones. *)
    Inductive client (R : Type) :=
    | Return (r : R)
    | Abort                                               (* a failing [M_insist] of the client *)
    | Lookup (s : N) (k : pentry -> client R)             (* [PT[s]], [PT.c(s)] *)
    | At (s : N) (k : pentry -> client R)                 (* [PT.at(s)] *)
    | Final (k : pentry -> client R)                      (* [PT.get_final()] *)
    | Write (s : N) (e : pentry) (k : client R)           (* [PT[s] = e], also member by member *)
    | HasPlan (s : N) (k : bool -> client R)
    | Update (l r : N) (k : client R)
    | ResetCosts (k : client R).

    Fixpoint run {T R : Type} (A : actual T) (p : client R) (t : T) : outcome (R * T) :=
      match p with
      | Return _ r => Ok (r, t)
      | Abort _ => Insist
      | Lookup _ s k => do (e, t') <- a_get A s t; run A (k e) t'
      | At _ s k => do e <- a_at A s t; run A (k e) t
      | Final _ k => do (e, t') <- b_get_final A t; run A (k e) t'
      | Write _ s e k => do (_, t') <- a_get A s t; run A k (a_put A s e t')
      | HasPlan _ s k => do b <- a_has_plan A s t; run A (k b) t
      | Update _ l r k => do t' <- b_update A l r t; run A k t'
      | ResetCosts _ k => run A k (a_reset_costs A t)
      end.
  End Base.

  (** ** Printing, src/IR/PlanTable.cpp:15-72 and 83-139.  Only the lines of the table are modelled: the printed subproblems
      with their entries ([None]: a line of dashes).  [PT.get_final()] is called first. *)
  Definition row {T} (A : actual T) (t : T) (s : N) (e : pentry) : outcome (N * option pentry) :=
    do hp <- a_has_plan A s t; Ok (s, if hp then Some e else None).
  Fixpoint rows {T} (A : actual T) (t : T) (l : list (N * pentry)) : outcome (list (N * option pentry)) :=
    match l with
    | [] => Ok []
    | (s, e) :: l' => do x <- row A t s e; do xs <- rows A t l'; Ok (x :: xs)
    end.
  Fixpoint d_entries (i : N) (l : list pentry) : list (N * pentry) :=
    match l with [] => [] | e :: l' => (i, e) :: d_entries (i + 1) l' end.
  (** PlanTable.cpp:47-70: [for (i = 1; i < n; ++i)]. *)
  Definition d_print (t : dense) : outcome (list (N * option pentry)) :=
    do (_, t) <- b_get_final dense_actual t;
    rows dense_actual t (filter (fun ke => (1 <=? fst ke) && (fst ke <? shl64 1 (d_sources t))) (d_entries 0 (d_table t))).
  (** The insertion of lines 113-121: before the first element with a larger subproblem. *)
  Fixpoint insert_sorted (ke : N * pentry) (l : list (N * pentry)) : list (N * pentry) :=
    match l with
    | [] => [ke]
    | x :: l' => if fst ke <? fst x then ke :: x :: l' else x :: insert_sorted ke l'
    end.
  (** PlanTable.cpp:107-138; returns the table, too: [get_final()] may insert. *)
  Definition s_print (t : sparse) : outcome (list (N * option pentry) * sparse) :=
    do (_, t) <- b_get_final sparse_actual t;
    let n := shl64 1 (s_sources t) in
    do out <- rows sparse_actual t
      (fold_left (fun acc ke => if n <? fst ke then acc else insert_sorted ke acc) (s_table t) []);
    Ok (out, t).
End Tables.
Arguments pentry : clear implicits. Arguments dense : clear implicits. Arguments sparse : clear implicits.
Arguments reader : clear implicits. Arguments client : clear implicits. Arguments actual : clear implicits.
Arguments Return {M R}. Arguments Abort {M R}. Arguments Lookup {M R}. Arguments At {M R}. Arguments Final {M R}.
Arguments Write {M R}. Arguments HasPlan {M R}. Arguments Update {M R}. Arguments ResetCosts {M R}.
Arguments a_num_sources {M T}. Arguments a_at {M T}. Arguments a_get {M T}. Arguments a_put {M T}.
Arguments a_has_plan {M T}. Arguments a_reset_costs {M T}.
