(** * Coverings of a logical plan by physical operators *)
From Coq Require Import Arith List Bool Permutation.
From Verif Require Import PhysOpt.
Import ListNotations.

Section Spec.
  Variables D Cond Cost : Type.
  Variable implied_by : Cond -> Cond -> bool.
  Variable cempty : Cond.
  Variable is_empty : Cond -> bool.
  Variable add : Cost -> Cost -> Cost.
  Variable available : list (PhysOp D Cond Cost).
  Notation Op := (Op D).
  Notation PhysOp := (PhysOp D Cond Cost).
  Notation Match := (Match D Cond Cost).

  (** [fits p o ns ns' inputs]: the pattern [p] fits at [o]; [ns] are the operators matched before, [ns'] those matched now.  The inputs
      are the operators below, each with the operators matched when it was met; [None] stands for "no input" of a scan.  The children
      of a binary operator may be taken in either order. *)
  Inductive fits : Pattern -> Op -> list Op -> list Op -> list (option Op * list Op) -> Prop :=
    | fits_wildcard o ns : producer (cls o) = true -> fits Wildcard o ns (ns ++ [o]) [(Some o, ns ++ [o])]
    | fits_leaf c o ns : is_a (cls o) c = true -> consumer c = false -> fits (PClass c) o ns (ns ++ [o]) [(None, ns ++ [o])]
    | fits_inner c o ns : is_a (cls o) c = true -> consumer c = true -> fits (PClass c) o ns (ns ++ [o]) (map (fun x => (Some x, ns ++ [o])) (children o))
    | fits_one c p o a ns ns' ins : is_a (cls o) c = true -> children o = [a] -> fits p a (ns ++ [o]) ns' ins -> fits (P1 c p) o ns ns' ins
    | fits_two c p q o a b ns ns' ns'' ins ins' : is_a (cls o) c = true -> Permutation [a; b] (children o) ->
        fits p a (ns ++ [o]) ns' ins -> fits q b ns' ns'' ins' -> fits (P2 c p q) o ns ns'' (ins ++ ins').

  (** What a physical operator delivers, given what its inputs deliver. *)
  Definition delivers (P : PhysOp) (ns : list Op) (cs : list Cond) : Cond :=
    if is_empty (post_condition P ns) then
      match cs with [] => adapt_post_condition P ns cempty | [c] => adapt_post_condition P ns c | _ => adapt_post_conditions P ns cs end
    else post_condition P ns.

  (** [covers o m c k]: [m] is a covering of [o] that delivers [c] and costs [k]. *)
  Inductive covers : Op -> Match -> Cond -> Cost -> Prop :=
    | covers_by P o ns ins ms cs ks : In P available -> fits (pattern P) o [] ns ins -> inputs P 0 ins ms cs ks ->
        covers o (mkMatch P ns ms) (delivers P ns cs) (fold_left add ks (cost P ns))
  (** The inputs are covered and fulfil the pre-conditions; the number is the index of the first one. *)
  with inputs : PhysOp -> nat -> list (option Op * list Op) -> list Match -> list Cond -> list Cost -> Prop :=
    | in_nil P i : inputs P i [] [] [] []
    | in_none P i ns ins ms cs ks : implied_by (pre_condition P i ns) cempty = true -> inputs P i ins ms cs ks -> inputs P i ((None, ns) :: ins) ms cs ks
    | in_some P i o ns ins m c k ms cs ks : covers o m c k -> implied_by (pre_condition P i ns) c = true -> inputs P (S i) ins ms cs ks ->
        inputs P i ((Some o, ns) :: ins) (m :: ms) (c :: cs) (k :: ks).
End Spec.
Arguments fits {D}. Arguments delivers {D Cond Cost}. Arguments covers {D Cond Cost}. Arguments inputs {D Cond Cost}.

(** Costs: a strict weak order with an addition that is monotone in both arguments. *)
Definition cost_model {Cost} (ltb : Cost -> Cost -> bool) (add : Cost -> Cost -> Cost) : Prop :=
  (forall a b, ltb a b = true -> ltb b a = false) /\
  (forall a b c, ltb b a = false -> ltb c b = false -> ltb c a = false) /\
  (forall a a' b b', ltb a' a = false -> ltb b' b = false -> ltb (add a' b') (add a b) = false).
(** A wildcard cannot be registered on its own ([pattern_validator]). *)
Definition registrable {D Cond Cost} (available : list (PhysOp D Cond Cost)) : Prop := forall P, In P available -> pattern P <> Wildcard.

(** The operators of the interpreter, src/backend/InterpreterOperator.hpp:29-40 and InterpreterOperator.cpp:10-11: one per class, no
    conditions, cost 1 each.  [None] is an infinite cost. *)
Definition interpreter_operator (D : Type) (c : class) : PhysOp D unit (option nat) :=
  mkPhysOp (PClass c) (fun _ _ => tt) (fun _ => Some 1) (fun _ => tt) (fun _ c => c) (fun _ _ => tt).
Definition interpreter_operators (D : Type) : list (PhysOp D unit (option nat)) :=
  map (interpreter_operator D) [Scan; Callback; Print; NoOp; Filter; DisjunctiveFilter; Join; Projection; Limit; Grouping; Aggregation; Sorting].
Definition ext_ltb (a b : option nat) : bool := match a, b with Some a, Some b => a <? b | Some _, None => true | None, _ => false end.
Definition ext_add (a b : option nat) : option nat := match a, b with Some a, Some b => Some (a + b) | _, _ => None end.
(** Logical plans: scans, and only scans, have no children. *)
Fixpoint operators {D} (o : Op D) : nat := match o with mkOp _ _ _ l => S (list_sum (map operators l)) end.
Inductive plan_shape {D} : Op D -> Prop :=
  | shape i c d l : (c = Scan -> l = []) -> (forall x, In x l -> plan_shape x) -> plan_shape (mkOp i c d l).
