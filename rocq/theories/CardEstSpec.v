(** * What cardinality estimates are for *)
From Coq Require Import Arith List Bool NArith Permutation.
From Verif Require Import CardEst.
Import ListNotations.
Local Open Scope N_scope.

(** The numbers of rows a plan may produce, whatever its conditions and keys are *)
Inductive rows (sizes : nat -> N) : plan -> N -> Prop :=
| R_scan i : rows sizes (Scan i) (sizes i)
| R_filter p n m : rows sizes p n -> m <= n -> rows sizes (Filter p) m
| R_limit p n l o : rows sizes p n -> rows sizes (Limit p l o) (N.min l (n - o))
| R_group p n m keys : rows sizes p n -> keys <> [] -> m <= n -> (n <> 0 -> m <> 0) -> rows sizes (Group p keys) m
| R_aggregate p n : rows sizes p n -> rows sizes (Group p []) 1
| R_join l r n1 n2 m : rows sizes l n1 -> rows sizes r n2 -> m <= n1 * n2 -> rows sizes (Join l r) m.

(** The largest of these, when there is no grouping without keys *)
Fixpoint bound (sizes : nat -> N) (p : plan) : N :=
  match p with
  | Scan i => sizes i
  | Filter p => bound sizes p
  | Limit p l o => N.min l (bound sizes p - o)
  | Group p _ => bound sizes p
  | Join l r => bound sizes l * bound sizes r
  end.
Fixpoint grouped_by_keys (p : plan) : Prop :=
  match p with
  | Scan _ => True
  | Filter p | Limit p _ _ => grouped_by_keys p
  | Group p keys => keys <> [] /\ grouped_by_keys p
  | Join l r => grouped_by_keys l /\ grouped_by_keys r
  end.
(** No product exceeds 64 bits. *)
Fixpoint fits (sizes : nat -> N) (p : plan) : Prop :=
  match p with
  | Scan _ => True
  | Filter p | Limit p _ _ | Group p _ => fits sizes p
  | Join l r => fits sizes l /\ fits sizes r /\ bound sizes l * bound sizes r < 2 ^ 64
  end.

(** Join trees *)
Fixpoint is_join_tree (p : plan) : Prop := match p with Scan _ => True | Join l r => is_join_tree l /\ is_join_tree r | _ => False end.
Fixpoint sources (p : plan) : list nat :=
  match p with Scan i => [i] | Filter p | Limit p _ _ | Group p _ => sources p | Join l r => sources l ++ sources r end.
Definition product (sizes : nat -> N) (l : list nat) : N := fold_right (fun i acc => sizes i * acc) 1 l.

(** The table lists the number [card ps] of results of joining [ps] for every nonempty set [ps] of the sources [all], under the names sorted and
    joined by '$' (identifiers); the numbers are such that a join produces at most the product of what it reads, and fit 64 bits. *)
Definition lists_all (name : nat -> str) (table : str -> option N) (all : list nat) (card : list nat -> N) : Prop :=
  (forall ps, ps <> [] -> NoDup ps -> incl ps all -> table (identifier name ps) = Some (card ps)) /\
  (forall ps qs, ps <> [] -> qs <> [] -> NoDup (ps ++ qs) -> incl (ps ++ qs) all -> card (ps ++ qs) <= card ps * card qs < 2 ^ 64).
(** What a scan is estimated to produce *)
Definition leaf (name : nat -> str) (sizes : nat -> N) (table : str -> option N) (i : nat) : N :=
  match table (name i) with Some n => n | None => sizes i end.

(** The numbers of rows a plan may produce when the table is known to bound them: joins of the sources of an entry and groupings by the keys of an
    entry produce at most what the entry says.  (Entries may be wrong about emptiness; a grouping may produce any number of rows up to that of its input.) *)
Inductive rows_known (name : nat -> str) (sizes : nat -> N) (table : str -> option N) : plan -> N -> Prop :=
| K_scan i : rows_known name sizes table (Scan i) (leaf name sizes table i)
| K_filter p n m : rows_known name sizes table p n -> m <= n -> rows_known name sizes table (Filter p) m
| K_limit p n l o : rows_known name sizes table p n -> rows_known name sizes table (Limit p l o) (N.min l (n - o))
| K_group p n m keys : rows_known name sizes table p n -> keys <> [] -> m <= n ->
    (forall c, table (group_identifier keys) = Some c -> m <= c) -> rows_known name sizes table (Group p keys) m
| K_aggregate p n : rows_known name sizes table p n -> rows_known name sizes table (Group p []) 1
| K_join l r n1 n2 m : rows_known name sizes table l n1 -> rows_known name sizes table r n2 -> m <= n1 * n2 ->
    (forall c, table (identifier name (sources l ++ sources r)) = Some c -> m <= c) -> rows_known name sizes table (Join l r) m.
(** No two inputs of a join have a product beyond 64 bits. *)
Fixpoint fits_known (name : nat -> str) (sizes : nat -> N) (table : str -> option N) (p : plan) : Prop :=
  match p with
  | Scan _ => True
  | Filter p | Limit p _ _ | Group p _ => fits_known name sizes table p
  | Join l r => fits_known name sizes table l /\ fits_known name sizes table r /\
                forall n m, rows_known name sizes table l n -> rows_known name sizes table r m -> n * m < 2 ^ 64
  end.
