(** * Greedy operator ordering, in terms of sets of sources *)
From Coq Require Import NArith List Permutation.
From Verif Require Import Word GraphSpec.
Import ListNotations.
Open Scope N_scope.

(** [greedy m card parts joins]: from the partition [parts], each join combines two adjacent parts such that no two other adjacent parts have a
    smaller result; they are replaced by their union, until only one part is left. *)
Inductive greedy (m : N -> N) (card : N -> N) : list N -> list (N * N) -> Prop :=
| G_done p : greedy m card [p] []
| G_join parts l r rest joins :
    Permutation parts (l :: r :: rest) -> adjacent m l r ->
    (forall a b rest', Permutation parts (a :: b :: rest') -> adjacent m a b -> card (N.lor l r) <= card (N.lor a b)) ->
    greedy m card (N.lor l r :: rest) joins ->
    greedy m card parts ((l, r) :: joins).

(** A join tree whose inner nodes are the joins of the list and whose leaves are the given parts *)
Inductive tree := Leaf (p : N) | Node (l r : tree).
Fixpoint root (t : tree) : N := match t with Leaf p => p | Node l r => N.lor (root l) (root r) end.
Fixpoint leaves (t : tree) : list N := match t with Leaf p => [p] | Node l r => leaves l ++ leaves r end.
Fixpoint inner (t : tree) : list (N * N) := match t with Leaf _ => [] | Node l r => (root l, root r) :: inner l ++ inner r end.

(** [parts] are nonempty, pairwise disjoint sets of sources. *)
Definition partition (parts : list N) : Prop :=
  Forall (fun p => W64 p /\ exists x, mem x p) parts /\ ForallOrdPairs disjoint parts.
Definition whole (parts : list N) : N := fold_right N.lor 0 parts.
