(** * Top-down greedy operator ordering, in terms of join trees *)
From Coq Require Import NArith List.
From Verif Require Import Word GraphSpec GooSpec.
Import ListNotations.
Open Scope N_scope.

(** [A] and [B] are the two connected sides of a cut of [U]. *)
Definition cut (m : N -> N) (U A B : N) : Prop :=
  N.lor A B = U /\ disjoint A B /\ (exists a, mem a A) /\ (exists b, mem b B) /\ connected m A /\ connected m B /\ adjacent m A B.
(** A join tree from single sources, in which every node is cut such that no other cut has a smaller sum of the cardinalities of its sides *)
Inductive best_cuts (m : N -> N) (card : N -> N) : tree -> Prop :=
| B_leaf i : best_cuts m card (Leaf (2 ^ i))
| B_node l r : best_cuts m card l -> best_cuts m card r -> cut m (N.lor (root l) (root r)) (root l) (root r) ->
    (forall A B, cut m (N.lor (root l) (root r)) A B -> card (root l) + card (root r) <= card A + card B) -> best_cuts m card (Node l r).
(** The joins of a tree, bottom up: those of the left side, those of the right side, their join *)
Fixpoint postorder (t : tree) : list (N * N) := match t with Leaf _ => [] | Node l r => postorder l ++ postorder r ++ [(root l, root r)] end.
