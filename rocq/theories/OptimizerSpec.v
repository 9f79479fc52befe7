(** * What the plan of FROM and WHERE must compute (specification for C51)

    One table per source.  The result of [FROM t0, ..., t(n-1) WHERE c1 AND c2 AND ...] are the combinations of one row of each table for
    which each clause has a predicate that is TRUE. *)
From Coq Require Import NArith ZArith List Bool Permutation.
From Verif Require Import Word Interp InterpSpec Optimizer.
Import ListNotations.

Section Spec.
Context {T : Type}.

(** a predicate on the combination [rs]; [nth_error rs i] is the row of table [i] *)
Definition row_of (rs : list T) (i : N) : option T := nth_error rs (N.to_nat i).
Definition lit_true (l : @literal T) (rs : list T) : bool :=
  match l with
  | LEqui _ _ i f j g => match row_of rs i, row_of rs j with Some x, Some y => sql_equal (f x) (g y) | _, _ => false end
  | LOther refs fn => match fn (map (row_of rs) (elems refs)) with Some true => true | _ => false end
  end.
Definition where_true (clauses : list (@clause T)) (rs : list T) : bool := forallb (fun c => existsb (fun l => lit_true l rs) c) clauses.
Definition from_where (tables : list (list T)) (clauses : list clause) : list (list T) := filter (where_true clauses) (product tables).

(** the sources are complete tables: the plan of source [i] delivers, in any of its answers, rows with the single part [i] *)
Definition part (i : nat) (x : T) : list (N * T) := [(N.of_nat i, x)].
Definition tables_of (sources : list (@plan (list (N * T)))) (tables : list (list T)) : Prop :=
  length tables = length sources /\
  forall i p t, nth_error sources i = Some p -> nth_error tables i = Some t -> answer p (map (part i) t).
Definition delivers_parts (sources : list (@plan (list (N * T)))) : Prop :=
  forall i p, nth_error sources i = Some p -> forall rows, answer p rows -> exists t, rows = map (part i) t.

(** clauses as name resolution and the conversion to CNF leave them: the sources exist and no clause is empty *)
Definition clause_ok (n : nat) (c : @clause T) : Prop := c <> [] /\ (clause_sources c < 2 ^ N.of_nat n)%N.
(** the two columns of an equality have the same type, and it is not written as a negated inequality *)
Definition plain (c : @clause T) : Prop := forall negative same i f j g, c = [LEqui negative same i f j g] -> i <> j -> negative = false /\ same = true.
(** two different sources that a clause refers to; the join graph *)
Definition linked (clauses : list (@clause T)) (i j : N) : Prop := i <> j /\ exists c, In c clauses /\ clause_sources c = N.lor (2 ^ i) (2 ^ j).
Inductive reaches (clauses : list (@clause T)) : N -> N -> Prop :=
  | reach_here i : reaches clauses i i
  | reach_next i j k : reaches clauses i j -> linked clauses j k -> reaches clauses i k.
Definition joined (n : nat) (clauses : list (@clause T)) : Prop := forall i j, (i < N.of_nat n)%N -> (j < N.of_nat n)%N -> reaches clauses i j.
(** no clause refers to more than two sources *)
Definition binary (c : @clause T) : Prop := forall i j k, N.testbit (clause_sources c) i = true -> N.testbit (clause_sources c) j = true ->
  N.testbit (clause_sources c) k = true -> i = j \/ j = k \/ i = k.

(** the row [r] of a plan as the combination of its [n] parts *)
Definition ids (n : nat) : list N := map N.of_nat (seq 0 n).
Definition parts (n : nat) (r : list (N * T)) : list (option T) := map (get r) (ids n).
(** [rows] are the rows of [FROM sources WHERE clauses], in any order *)
Definition answers_from_where (sources : list (@plan (list (N * T)))) (clauses : list clause) (rows : list (list (N * T))) : Prop :=
  exists tables, tables_of sources tables /\ Permutation (map (parts (length sources)) rows) (map (map Some) (from_where tables clauses)).

(** ** When the plan can be executed
    the row [x] of source [i] passes the clauses that refer to no other source *)
Definition passes (clauses : list (@clause T)) (i : N) (x : T) : Prop :=
  forall c, In c clauses -> (forall j, N.testbit (clause_sources c) j = true -> j = i) -> exists l, In l c /\ lit_eval l (fun j => if N.eqb j i then Some x else None) = Some true.
(** the row is in an answer of its source and passes *)
Definition arriving (sources : list (@plan (list (N * T)))) (clauses : list clause) (i : N) (x : T) : Prop :=
  exists p t, nth_error sources (N.to_nat i) = Some p /\ answer p (map (part (N.to_nat i)) t) /\ In x t /\ passes clauses i x.
(** hash joins see no two NULLs and no strings *)
Definition hash_safe (sources : list (@plan (list (N * T)))) (clauses : list clause) : Prop :=
  forall negative same i f j g, In [LEqui negative same i f j g] clauses -> i <> j ->
  forall x y, arriving sources clauses i x -> arriving sources clauses j y -> hashable (f x) (g y).
End Spec.
