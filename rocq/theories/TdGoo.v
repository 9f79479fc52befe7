(** * Top-down greedy operator ordering (include/mutable/IR/PlanEnumerator.hpp 159-210, src/IR/PlanEnumerator.cpp 706-719) *)
From Coq Require Import NArith List Bool.
From Verif Require Import Word Bitset Graph PlanEnum.
Import ListNotations.
Open Scope N_scope.

(** 179-192: the cut with the smallest sum of the cardinalities of its sides.  [card]: the cardinality predicted for a subproblem, a function
    of the subproblem (the code keeps models in the plan table); sums are exact (in the code of type [double]). *)
Fixpoint best_cut (card : sbs -> N) (cuts : list (sbs * sbs)) (best : option (N * (sbs * sbs))) : option (N * (sbs * sbs)) :=
  match cuts with
  | [] => best
  | (l, r) :: cuts' =>
    let c := card l + card r in
    best_cut card cuts'
      (match best with
       | Some (c_min, _) => if c <? c_min then Some (c, (l, r)) else best
       | None => Some (c, (l, r))
       end)
  end.
(** 173-201: the joins in the order in which they are saved; the worklist is a stack, top first.  [MinCutAGaT] is [mc_partition] of PlanEnum.v.
    [None]: an assertion fails, or there is not enough fuel. *)
Fixpoint cut_loop (f : nat) (m : matrix) (card : sbs -> N) (fuel : nat) (worklist : list sbs) : option (list (sbs * sbs)) :=
  match worklist with
  | [] => Some []
  | top :: worklist' =>
    match fuel with
    | O => None
    | S fuel' =>
      if sbs_is_singleton top then cut_loop f m card fuel' worklist'
      else match mc_partition m f top with
           | None => None
           | Some cuts => match best_cut card cuts None with
                          | None => None
                          | Some (_, (l, r)) => option_map (cons (l, r)) (cut_loop f m card fuel' (r :: l :: worklist'))
                          end
           end
    end
  end.
(** 202-204: the joins for which the callback is invoked; [worklist]: the last subproblem first *)
Definition tdgoo (f : nat) (m : matrix) (card : sbs -> N) (worklist : list sbs) : option (list (sbs * sbs)) :=
  option_map (@rev _) (cut_loop f m card f worklist).
