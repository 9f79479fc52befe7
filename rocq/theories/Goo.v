(** * Greedy operator ordering (include/mutable/IR/PlanEnumerator.hpp 57-157, src/IR/PlanEnumerator.cpp 683-700) *)
From Coq Require Import NArith List Bool.
From Verif Require Import Word Bitset Graph.
Import ListNotations.
Open Scope N_scope.

(** 63-86 *)
Definition node := (sbs * sbs)%type.
Definition can_merge_with (a b : node) : bool := negb (sbs_empty (sbs_inter (fst a) (snd b))).
Definition merge (a b : node) : node :=
  let S := sbs_union (fst a) (fst b) in (S, sbs_diff (sbs_union (snd a) (snd b)) S).

(** 105-125: the two nodes, by position.  [card]: the cardinality predicted for the subproblem with the model in the plan table (the code
    estimates it when first needed and keeps it; here it is a function of the subproblem; it is finite, hence below the initial infinity). *)
Definition pairs (n : nat) : list (nat * nat) := flat_map (fun i => map (pair i) (seq (S i) (n - S i))) (seq 0 n).
Fixpoint scan (card : sbs -> N) (nodes : list node) (ps : list (nat * nat)) (best : option (N * (nat * nat))) : option (N * (nat * nat)) :=
  match ps with
  | [] => best
  | (i, j) :: ps' =>
    let outer := nth i nodes (0, 0) in
    let inner := nth j nodes (0, 0) in
    scan card nodes ps'
      (if can_merge_with outer inner then
         let c := card (sbs_union (fst outer) (fst inner)) in
         match best with
         | Some (least, _) => if c <? least then Some (c, (i, j)) else best
         | None => Some (c, (i, j))
         end
       else best)
  end.
(** writing to an array *)
Definition set_nth (i : nat) (x : node) (l : list node) : list node := firstn i l ++ x :: skipn (S i) l.
(** 98-137 ([for_each_join]): the joins for which the callback is invoked; [None]: [left] is a null pointer (or there is no node at all) *)
Fixpoint for_each_join (fuel : nat) (card : sbs -> N) (nodes : list node) : option (list (sbs * sbs)) :=
  match nodes with
  | [_] => Some []
  | _ =>
    match fuel, scan card nodes (pairs (length nodes)) None with
    | S f, Some (_, (i, j)) =>
      let left := nth i nodes (0, 0) in
      let right := nth j nodes (0, 0) in
      let nodes1 := set_nth i (merge left right) nodes in
      let nodes2 := removelast (set_nth j (last nodes1 (0, 0)) nodes1) in
      option_map (cons (fst left, fst right)) (for_each_join f card nodes2)
    | _, _ => None
    end
  end.
(** HeuristicSearchPlanEnumerator.cpp 127-136, 312-319: started from the subproblems of a state *)
Definition goo (m : matrix) (card : sbs -> N) (parts : list sbs) : option (list (sbs * sbs)) :=
  for_each_join (length parts) card (map (fun S => (S, neighbors m S)) parts).
(** PlanEnumerator.cpp 683-700 *)
Definition goo_query (n : nat) (m : matrix) (card : sbs -> N) : option (list (sbs * sbs)) :=
  goo m card (map (fun i => 2 ^ N.of_nat i) (seq 0 n)).
