(** * Specification of the grid search: the grid, in lexicographic order *)
From Coq Require Import List Arith ZArith Reals Relations.
Import ListNotations.

(** All tuples with the [i]-th component from the [i]-th list; the last component varies fastest. *)
Fixpoint grid {V} (axes : list (list V)) : list (list V) :=
  match axes with
  | [] => [[]]
  | a :: axes' => flat_map (fun x => map (cons x) (grid axes')) a
  end.

(** The lexicographic order on tuples of numbers *)
Inductive lex : list nat -> list nat -> Prop :=
| lex_here x y a b : x < y -> lex (x :: a) (y :: b)
| lex_there x a b : lex a b -> lex (x :: a) (x :: b).

(** The values a type with [bits] bits holds *)
Definition holds (bits : Z) (signed : bool) (z : Z) : Prop :=
  if signed then (- 2 ^ (bits - 1) <= z < 2 ^ (bits - 1))%Z else (0 <= z < 2 ^ bits)%Z.
