(** * Specification vocabulary for graphs (independent of the model's functions). *)
From Coq Require Import NArith List Bool.
From Verif Require Import Word.
Import ListNotations.
Open Scope N_scope.

(** [i] is an element of the set denoted by the word [S]. *)
Definition mem (i S : N) : Prop := N.testbit S i = true.
Definition disjoint (A B : N) : Prop := forall i, mem i A -> ~ mem i B.

(** The matrix [m] has an edge from [i] to [j]. *)
Definition edge (m : N -> N) (i j : N) : Prop := mem j (m i).

(** [m] is the adjacency matrix of a graph on the vertices [0 .. n-1], [n <= 64]. *)
Definition graph (n : N) (m : N -> N) : Prop := n <= 64 /\ forall i j, edge m i j -> i < n /\ j < n.
Definition symmetric (m : N -> N) : Prop := forall i j, edge m i j -> edge m j i.

(** [path m V i j]: there is a (possibly empty) path from [i] to [j] visiting only vertices satisfying [V]. *)
Inductive path (m : N -> N) (V : N -> Prop) : N -> N -> Prop :=
| path_refl i : V i -> path m V i i
| path_step i j k : path m V i j -> edge m j k -> V k -> path m V i k.

(** [walk m i j]: there is a path with at least one edge. *)
Inductive walk (m : N -> N) : N -> N -> Prop :=
| walk_edge i j : edge m i j -> walk m i j
| walk_step i j k : walk m i j -> edge m j k -> walk m i k.

(** The subgraph induced by [S] is connected. *)
Definition connected (m : N -> N) (S : N) : Prop :=
  forall i j, mem i S -> mem j S -> path m (fun x => mem x S) i j.

(** Some edge joins [A] and [B]. *)
Definition adjacent (m : N -> N) (A B : N) : Prop := exists a b, mem a A /\ mem b B /\ edge m a b.
