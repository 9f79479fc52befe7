(** * Cardinality estimation: the Cartesian-product estimator and the estimator with injected cardinalities
    (src/catalog/CardinalityEstimator.cpp 60-420)

    Sizes are of type [std::size_t]; products are computed modulo 2^64.  A data source is its position in the query graph. *)
From Coq Require Import Arith List Bool NArith.
Import ListNotations.
Local Open Scope N_scope.

Definition str := list nat.
Definition mul (a b : N) : N := (a * b) mod 2 ^ 64.
(** 89-97, 276-282 ([estimate_limit] of both): [offset > size ? 0 : size - offset] *)
Definition limit_size (size limit offset : N) : N := N.min (if size <? offset then 0 else size - offset) limit.

(** ** Plans; [Group] with the rendered keys (their aliases or expressions) *)
Inductive plan :=
| Scan (i : nat)
| Filter (p : plan)
| Limit (p : plan) (limit offset : N)
| Group (p : plan) (keys : list str)
| Join (l r : plan).

(** ** CartesianProductEstimator, 70-119; [sizes]: the numbers of rows of the stores *)
Fixpoint cart (sizes : nat -> N) (p : plan) : N :=
  match p with
  | Scan i => sizes i
  | Filter p => cart sizes p
  | Limit p l o => limit_size (cart sizes p) l o
  | Group p _ => cart sizes p
  | Join l r => mul (cart sizes l) (cart sizes r)
  end.
(** 121-132 ([estimate_join_all]): [size] of each source to join *)
Definition cart_all (size : nat -> N) (to_join : list nat) : N := fold_left (fun acc i => mul acc (size i)) to_join 1.

(** ** InjectionCardinalityEstimator *)
(** [strcmp(a, b) <= 0] *)
Fixpoint le_str (a b : str) : bool :=
  match a, b with
  | [], _ => true
  | _ :: _, [] => false
  | x :: a', y :: b' => (x <? y)%nat || ((x =? y)%nat && le_str a' b')
  end.
(** [std::sort], by insertion *)
Fixpoint insert (x : str) (l : list str) : list str := match l with [] => [x] | y :: l' => if le_str x y then x :: l else y :: insert x l' end.
Definition sort (l : list str) : list str := fold_right insert [] l.
Fixpoint join_names (l : list str) : str := match l with [] => [] | [n] => n | n :: l' => n ++ 36%nat :: join_names l' end.
(** 407-420 ([make_identifier]); the same for the entries of the file (225-236).  [ss]: the sources of the subproblem. *)
Definition identifier (name : nat -> str) (ss : list nat) : str := join_names (sort (map name ss)).
(** 297-304: the identifier of a grouping *)
Definition group_identifier (keys : list str) : str := 103%nat :: flat_map (fun k => 35%nat :: k) keys.

(** The size and the subproblem ([InjectionCardinalityDataModel]); [table]: [cardinality_table_].  252-344; a subproblem is the list of its sources
    (in the code a set, whose union here is the concatenation: the sources of the two sides of a join are disjoint). *)
Fixpoint inject (name : nat -> str) (sizes : nat -> N) (table : str -> option N) (p : plan) : list nat * N :=
  match p with
  | Scan i => ([i], match table (name i) with Some n => n | None => sizes i end)
  | Filter p => inject name sizes table p
  | Limit p l o => let '(ps, n) := inject name sizes table p in (ps, limit_size n l o)
  | Group p [] => let '(ps, _) := inject name sizes table p in (ps, 1)
  | Group p keys => let '(ps, n) := inject name sizes table p in
                    (ps, match table (group_identifier keys) with Some c => N.min c n | None => n end)
  | Join l r => let '(ps, n) := inject name sizes table l in
                let '(qs, m) := inject name sizes table r in
                (ps ++ qs, match table (identifier name (ps ++ qs)) with Some c => N.min c (mul n m) | None => mul n m end)
  end.
(** 346-369 ([estimate_join_all]); without an entry the loop begins at the first source although [size] has been initialized with it *)
Definition inject_all (name : nat -> str) (size : nat -> N) (table : str -> option N) (to_join : list nat) : N :=
  match table (identifier name to_join) with
  | Some c => N.min c (fold_left (fun acc i => mul acc (size i)) to_join 1)
  | None => match to_join with [] => 0 | i :: _ => fold_left (fun acc i => mul acc (size i)) to_join (size i) end
  end.
