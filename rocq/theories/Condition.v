(** * Model of the conditions of physical operators, include/mutable/IR/Condition.hpp, src/IR/Condition.cpp, and of the sort orders the
    operators of src/backend/WasmOperator.cpp require and promise

    Identifiers are numbers.  Exceptions are [None]. *)
From Coq Require Import Arith List Bool.
Import ListNotations.

Definition Identifier := nat.
(** [Sortedness::Order], Condition.hpp:181. *)
Inductive Order := O_ASC | O_DESC | O_UNDEF.
Definition order_eqb (a b : Order) : bool := match a, b with O_ASC, O_ASC | O_DESC, O_DESC | O_UNDEF, O_UNDEF => true | _, _ => false end.
(** [ConditionPropertyOrderedMap<Order>], lines 17-112. *)
Definition orders := list (Identifier * Order).
(** [find], lines 62-72, with the distance from the beginning; the check for duplicates is left out, since [add] and [merge] let none in. *)
Fixpoint find (a : Identifier) (os : orders) (i : nat) : option (nat * Order) :=
  match os with [] => None | (b, o) :: os => if a =? b then Some (i, o) else find a os (S i) end.
Definition has (a : Identifier) (os : orders) : bool := match find a os 0 with Some _ => true | None => false end.
(** [add], lines 38-48; [merge], 50-60; [project_and_rename], 74-84; [operator==], 95. *)
Definition add (a : Identifier) (o : Order) (os : orders) : option orders := if has a os then None else Some (os ++ [(a, o)]).
Definition merge (os other : orders) : option orders := if forallb (fun p => negb (has (fst p) os)) other then Some (os ++ other) else None.
Fixpoint project_from (old : orders) (old2new : list (Identifier * Identifier)) (os : orders) : option orders :=
  match old2new with
  | [] => Some os
  | (old_id, new_id) :: old2new => match find old_id old 0 with
                                   | None => project_from old old2new os
                                   | Some (_, o) => match add new_id o os with Some os => project_from old old2new os | None => None end
                                   end
  end.
Definition project_and_rename (old : orders) (old2new : list (Identifier * Identifier)) : option orders := project_from old old2new [].
Fixpoint orders_eqb (a b : orders) : bool :=
  match a, b with [], [] => true | (x, o) :: a, (y, p) :: b => (x =? y) && order_eqb o p && orders_eqb a b | _, _ => false end.

(** [Sortedness::implied_by], lines 205-223. *)
Definition is_undef (o : Order) : bool := order_eqb o O_UNDEF.
Fixpoint implied_from (i : nat) (this other : orders) : bool :=
  match this with
  | [] => true
  | (a, o) :: this => match find a other 0 with
                      | None => false
                      | Some (j, o') => (if is_undef o' || is_undef o then true else (i =? j) && order_eqb o o') && implied_from (S i) this other
                      end
  end.
Definition sortedness_implied_by (this other : orders) : bool := implied_from 0 this other.

(** ** Sets of conditions, lines 332-394 and Condition.cpp: at most one condition per type; [NoSIMD] is a type of its own. *)
Record ConditionSet := mkConditions { unsatisfiable : bool; sortedness : option orders; simd : option nat; no_simd : bool; predicated : option bool }.
Definition empty_conditions : ConditionSet := mkConditions false None None false None.
Definition is_empty (c : ConditionSet) : bool := match c with mkConditions false None None false None => true | _ => false end.
(** A condition of this type must be there, and imply ours (lines 144-329; [Unsatisfiable] is implied by nothing). *)
Definition opt_implied {A} (implied : A -> A -> bool) (this other : option A) : bool :=
  match this, other with None, _ => true | Some _, None => false | Some a, Some b => implied a b end.
Definition implied_by (this other : ConditionSet) : bool :=
  negb (unsatisfiable this) && opt_implied sortedness_implied_by (sortedness this) (sortedness other) && opt_implied Nat.eqb (simd this) (simd other) &&
  (if no_simd this then no_simd other else true) && opt_implied Bool.eqb (predicated this) (predicated other).
(** [operator==], Condition.cpp:24-39: as many conditions, and each of ours is there and equal. *)
Definition count (c : ConditionSet) : nat :=
  (if unsatisfiable c then 1 else 0) + (match sortedness c with Some _ => 1 | None => 0 end) + (match simd c with Some _ => 1 | None => 0 end) +
  (if no_simd c then 1 else 0) + (match predicated c with Some _ => 1 | None => 0 end).
Definition conditions_eqb (this other : ConditionSet) : bool :=
  (count this =? count other) && (if unsatisfiable this then unsatisfiable other else true) && opt_implied orders_eqb (sortedness this) (sortedness other) &&
  opt_implied Nat.eqb (simd this) (simd other) && (if no_simd this then no_simd other else true) && opt_implied Bool.eqb (predicated this) (predicated other).

(** ** The orders of the operators of WasmOperator.cpp *)
(** [if (orders.find(id) == orders.cend()) orders.add(id, o)]. *)
Definition add_new (os : orders) (p : Identifier * Order) : orders := if has (fst p) os then os else os ++ [p].
(** [Quicksort::post_condition], 4733-4740, and [NoOpSorting::pre_condition], 4787-4794. *)
Definition sorting_orders (order_by : list (Identifier * bool)) : orders := fold_left add_new (map (fun p => (fst p, if snd p : bool then O_ASC else O_DESC)) order_by) [].
(** [OrderedGrouping::pre_condition], 2963-2970. *)
Definition grouping_required (keys : list Identifier) : orders := fold_left add_new (map (fun k => (k, O_UNDEF)) keys) [].
(** [OrderedGrouping::adapt_post_condition], 2990-3001: the keys with their aliases; [None] is the [M_insist]. *)
Fixpoint grouping_orders (child : orders) (group_by : list (Identifier * Identifier)) (os : orders) : option orders :=
  match group_by with
  | [] => Some os
  | (k, alias) :: group_by => match find k child 0 with None => None | Some (_, o) => grouping_orders child group_by (add_new os (alias, o)) end
  end.
(** [Aggregation::post_condition], 3899-3903. *)
Definition aggregation_orders (schema : list Identifier) : orders := grouping_required schema.
(** [SortMergeJoin::adapt_post_conditions], 5249-5276. *)
Definition merge_join_orders (sort_left sort_right : bool) (ol or : orders) (keys_parent keys_child : list Identifier) : option orders :=
  let os := if sort_left then Some [] else merge [] ol in
  let os := if sort_right then os else match os with Some os => merge os or | None => None end in
  match os with
  | None => None
  | Some os => let os := if sort_left then fold_left add_new (map (fun k => (k, O_ASC)) keys_parent) os else os in
               Some (if sort_right then fold_left add_new (map (fun k => (k, O_ASC)) keys_child) os else os)
  end.
