(** * Model of the physical optimizer, include/mutable/IR/PhysicalOptimizer.hpp and src/IR/PhysicalPlanTable.hpp

    Logical operators are trees of classes with some data; conditions, costs and what a physical operator says about pre-conditions,
    post-conditions and costs are parameters.  The results of a physical operator depend on the logical operators it matched only, as
    for all operators of src/backend/InterpreterOperator.hpp and WasmOperator.cpp; what it executes is not modelled.  [M_insist]s on
    lengths that hold by construction are left out. *)
From Coq Require Import Arith List Bool.
Import ListNotations.

(** The classes of operators, include/mutable/IR/Operator.hpp:560-572. *)
Inductive class := Scan | Callback | Print | NoOp | Filter | DisjunctiveFilter | Join | Projection | Limit | Grouping | Aggregation | Sorting.
(** [cast<const Op>]: [DisjunctiveFilterOperator] is derived from [FilterOperator] (line 301). *)
Definition is_a (c c' : class) : bool :=
  match c, c' with
  | Scan, Scan | Callback, Callback | Print, Print | NoOp, NoOp | Filter, Filter | DisjunctiveFilter, DisjunctiveFilter | Join, Join
  | Projection, Projection | Limit, Limit | Grouping, Grouping | Aggregation, Aggregation | Sorting, Sorting => true
  | DisjunctiveFilter, Filter => true
  | _, _ => false
  end.
(** [Producer] and [Consumer], lines 201-540. *)
Definition producer (c : class) : bool := match c with Callback | Print | NoOp => false | _ => true end.
Definition consumer (c : class) : bool := match c with Scan => false | _ => true end.

(** PhysicalOptimizer.hpp:42-50: [Wildcard], an operator without children in the pattern, [pattern_t] with one or two children. *)
Inductive Pattern := Wildcard | PClass (c : class) | P1 (c : class) (p : Pattern) | P2 (c : class) (p q : Pattern).

Section PhysOpt.
  Variables D Cond Cost : Type.
  Variable implied_by : Cond -> Cond -> bool.             (* [ConditionSet::implied_by] *)
  Variable ceqb : Cond -> Cond -> bool.                   (* [ConditionSet::operator==] *)
  Variable cempty : Cond.
  Variable is_empty : Cond -> bool.
  Variable ltb : Cost -> Cost -> bool.
  Variable add : Cost -> Cost -> Cost.
  Variable inf : Cost.

  (** An operator with its [id_]. *)
  Inductive Op := mkOp (id_ : nat) (c : class) (d : D) (l : list Op).
  Definition id (o : Op) : nat := match o with mkOp i _ _ _ => i end.
  Definition cls (o : Op) : class := match o with mkOp _ c _ _ => c end.
  Definition children (o : Op) : list Op := match o with mkOp _ _ _ l => l end.
  (** [assign_post_order_ids], Operator.hpp:81 and 186-193. *)
  Fixpoint assign_post_order_ids (start : nat) (o : Op) : Op :=
    match o with
    | mkOp _ c d l =>
        let fix go (next : nat) (l : list Op) : list Op * nat :=
          match l with
          | [] => ([], next)
          | x :: r => let x := assign_post_order_ids next x in let (r, n) := go (id x + 1) r in (x :: r, n)
          end in
        let (l, next) := go start l in mkOp next c d l
    end.

  (** PhysicalOptimizer.hpp:408-492: a registered operator.  The nodes are the operators matched so far in pre-order (entries of the
      tuple that are not matched yet are [nullptr] or left over from the other permutation; no pre-condition looks at them). *)
  Record PhysOp := mkPhysOp {
    pattern : Pattern;
    pre_condition : nat -> list Op -> Cond;
    cost : list Op -> Cost;
    post_condition : list Op -> Cond;
    adapt_post_condition : list Op -> Cond -> Cond;
    adapt_post_conditions : list Op -> list Cond -> Cond }.
  (** [Match<PhysOp>]: the nodes and the children's matches, lines 479-491. *)
  Inductive Match := mkMatch (P : PhysOp) (nodes : list Op) (ms : list Match).
  (** [condition_entry_t] with [ConcretePhysicalPlanTableEntry] (its references to the children's entries are left out). *)
  Record entry := mkEntry { condition : Cond; match_ : Match; ecost : Cost }.
  Definition table := list (list entry).
  Definition slot (T : table) (i : nat) : list entry := nth i T [].
  Fixpoint set_slot (T : table) (i : nat) (es : list entry) : table :=
    match T, i with
    | [], _ => []
    | _ :: T, O => es :: T
    | x :: T, S i => x :: set_slot T i es
    end.

  (** [std::find_if] and update of the entry found, or insertion at the end, lines 359-371. *)
  Fixpoint improve (es : list entry) (new : entry) : list entry :=
    match es with
    | [] => [new]
    | e :: es => if ceqb (condition e) (condition new) then (if ltb (ecost new) (ecost e) then mkEntry (condition e) (match_ new) (ecost new) else e) :: es
                 else e :: improve es new
    end.
  (** [handle_match], lines 332-372. *)
  Definition handle_match (P : PhysOp) (o : Op) (nodes : list Op) (ch : list entry) (T : table) : table :=
    let c := fold_left (fun c child => add c (ecost child)) ch (cost P nodes) in
    let post_cond := post_condition P nodes in
    let post_cond :=
      if is_empty post_cond then
        if length ch <=? 1 then adapt_post_condition P nodes (match ch with [] => cempty | e :: _ => condition e end)
        else adapt_post_conditions P nodes (map condition ch)
      else post_cond in
    set_slot T (id o) (improve (slot T (id o)) (mkEntry post_cond (mkMatch P nodes (map match_ ch)) c)).

  (** The pattern matcher, lines 499-655.  [k] is the rest of the queue; [ls] is [current_children_list].  The two loops of a
      Cartesian product: *)
  Definition product {A B C} (f : A -> B -> C) (ls : list A) (new : list B) : list C := flat_map (fun l => map (f l) new) ls.
  Definition new_child_list (P : PhysOp) (i : nat) (nodes : list Op) (o : Op) (T : table) : list entry :=
    filter (fun e => implied_by (pre_condition P i nodes) (condition e)) (slot T (id o)).
  (** Lines 555-581: the children of a consumer without children in the pattern; [None] is [return]. *)
  Fixpoint new_children_list (P : PhysOp) (i : nat) (nodes : list Op) (os : list Op) (acc : list (list entry)) (T : table) : option (list (list entry)) :=
    match os with
    | [] => Some acc
    | o :: os =>
        if length T <=? id o then None
        else match new_child_list P i nodes o T with
             | [] => None
             | new => new_children_list P (S i) nodes os (product (fun l e => l ++ [e]) acc new) T
             end
    end.
  Fixpoint matches (P : PhysOp) (p : Pattern) (o : Op) (nodes : list Op) (ls : list (list entry)) (k : list Op -> list (list entry) -> table -> table)
                   (T : table) {struct p} : table :=
    let nodes := nodes ++ [o] in
    let base := length (hd [] ls) in
    match p with
    | Wildcard =>
        if negb (producer (cls o)) then T
        else if length T <=? id o then T
        else match new_child_list P base nodes o T with
             | [] => T
             | new => k nodes (product (fun l e => l ++ [e]) ls new) T
             end
    | PClass c =>
        if negb (is_a (cls o) c) then T
        else if consumer c then
          match new_children_list P base nodes (children o) [[]] T with
          | None => T
          | Some new => k nodes (product (fun l l' => l ++ l') ls new) T
          end
        else if implied_by (pre_condition P base nodes) cempty then k nodes ls T else T
    | P1 c q =>
        if negb (is_a (cls o) c) then T
        else match children o with [a] => matches P q a nodes ls k T | _ => T end
    | P2 c q r =>
        if negb (is_a (cls o) c) then T
        else match children o with
             | [a; b] => let T := matches P q a nodes ls (fun nodes ls => matches P r b nodes ls k) T in
                         matches P q b nodes ls (fun nodes ls => matches P r a nodes ls k) T
             | _ => T
             end
    end.
  (** Lines 603-607 and 662-668. *)
  Definition match_operator (P : PhysOp) (o : Op) (T : table) : table :=
    matches P (pattern P) o [] [[]] (fun nodes ls T => fold_left (fun T ch => handle_match P o nodes ch T) ls T) T.

  Variable pattern_matchers : list PhysOp.
  (** Lines 378-386, in post-order (Operator.hpp:593-606). *)
  Definition visit (o : Op) (T : table) : table := fold_left (fun T P => match_operator P o T) pattern_matchers T.
  Fixpoint visit_all (o : Op) (T : table) : table :=
    match o with mkOp _ _ _ l => visit o (fold_left (fun T c => visit_all c T) l T) end.
  (** [cover], lines 289-294. *)
  Definition cover (plan : Op) : table := let plan := assign_post_order_ids 0 plan in visit_all plan (repeat [] (id plan + 1)).
  (** [has_plan], line 296; [get_plan_entry], 299-311: [None] if [it_best] was never set. *)
  Definition has_plan (T : table) : bool := match last T [] with [] => false | _ => true end.
  Definition get_plan_entry (T : table) : option entry :=
    fst (fold_left (fun bm e => if ltb (ecost e) (snd bm) then (Some e, ecost e) else bm) (last T []) (None, inf)).
End PhysOpt.
Arguments mkOp {D}. Arguments id {D}. Arguments cls {D}. Arguments children {D}. Arguments assign_post_order_ids {D}.
Arguments mkPhysOp {D Cond Cost}. Arguments pattern {D Cond Cost}. Arguments pre_condition {D Cond Cost}. Arguments cost {D Cond Cost}.
Arguments post_condition {D Cond Cost}. Arguments adapt_post_condition {D Cond Cost}. Arguments adapt_post_conditions {D Cond Cost}.
Arguments mkMatch {D Cond Cost}. Arguments mkEntry {D Cond Cost}. Arguments condition {D Cond Cost}. Arguments match_ {D Cond Cost}. Arguments ecost {D Cond Cost}.
Arguments slot {D Cond Cost}. Arguments set_slot {D Cond Cost}. Arguments improve {D Cond Cost}. Arguments has_plan {D Cond Cost}. Arguments get_plan_entry {D Cond Cost}.
Arguments new_child_list {D Cond Cost}. Arguments new_children_list {D Cond Cost}. Arguments matches {D Cond Cost}. Arguments handle_match {D Cond Cost}.
Arguments match_operator {D Cond Cost}. Arguments visit {D Cond Cost}. Arguments visit_all {D Cond Cost}. Arguments cover {D Cond Cost}.
