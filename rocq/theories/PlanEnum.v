(** * Model of the plan table and the exhaustive join enumerators.

    include/mutable/IR/PlanTable.hpp, src/IR/PlanEnumerator.cpp.

    Simplifications: costs are an abstract type [C] with a comparison ([double] and [<] in the code); the cost function is
    an arbitrary function [jc] of the two joined subproblems and the costs stored for them (as for C_out,
    include/mutable/catalog/CostFunctionCout.hpp:23-30, where the cardinality depends on [left|right] only): the data
    models ([PlanTableEntry::model]) are assumed to be determined by the set of joined relations.  An entry has a model
    iff it has a plan (the optimizer sets the models of the single-source entries). Plan tables are total maps from
    subproblems to entries, which is what [PlanTableLargeAndSparse] is (missing entries are default-constructed,
    PlanTable.hpp:334) and what [PlanTableSmallOrDense] is on subsets of [All(n)] (PlanTable.hpp:248). *)
From Coq Require Import NArith List Bool.
From Verif Require Import Word Bitset Graph.
Import ListNotations.
Open Scope N_scope.

Fixpoint foldM {A B : Type} (f : A -> B -> option A) (l : list B) (a : A) : option A :=
  match l with
  | [] => Some a
  | x :: l' => match f a x with Some a' => foldM f l' a' | None => None end
  end.

Section Enum.
  Context {C : Type}.
  Variable (lt : C -> C -> bool).                 (* [operator<] on costs *)
  Variable (jc : N -> N -> C -> C -> C).          (* [CF.calculate_join_cost(left, right)] given the stored costs *)
  Variable (inf : C).                             (* [std::numeric_limits<double>::infinity()] *)
  Variable (next : N -> sbs).                   (* [GospersHack::operator++] *)

  (** [PlanTableEntry], PlanTable.hpp:38-46. *)
  Record entry := { e_left : N; e_right : N; e_cost : C }.
  Definition table := N -> entry.

  (** The plan table handed to the enumerators: the single-source entries have costs, all others are
      default-constructed (PlanTable.hpp:38-46, 213-214). *)
  Definition pt_init (leaf : N -> C) : table :=
    fun s => {| e_left := 0; e_right := 0; e_cost := if sbs_is_singleton s then leaf (ctz s) else inf |}.

  (** [has_plan], PlanTable.hpp:254-259 and 339-348. *)
  Definition has_plan (PT : table) (s : N) : bool :=
    if sbs_size s =? 1 then true else negb (sbs_empty (e_left (PT s))).

  (** [update], PlanTable.hpp:119-156. *)
  Definition pt_update (PT : table) (left right : N) : option table :=
    if sbs_empty left || sbs_empty right then None else                             (* M_insist, lines 123-124 *)
    let S := sbs_union left right in
    if negb (has_plan PT S) && negb (has_plan PT left && has_plan PT right) then None else (* M_insist, lines 133-134 *)
    let cost := jc left right (e_cost (PT left)) (e_cost (PT right)) in
    let rl_cost := jc right left (e_cost (PT right)) (e_cost (PT left)) in
    let '(c, l, r) := if lt rl_cost cost then (rl_cost, right, left) else (cost, left, right) in
    if negb (has_plan PT S) || lt c (e_cost (PT S))
    then Some (fun s => if s =? S then {| e_left := l; e_right := r; e_cost := c |} else PT s)
    else Some PT.

  (** [for (auto S = GospersHack::enumerate_all(k, n); S; ++S)]. *)
  Definition k_subsets (fuel : nat) (k n : N) : option (list N) :=
    match gh_enumerate_all k n with Some g => gh_loop next fuel g | None => None end.
  (** [S2 = GospersHack::enumerate_from(S1, n); for (++S2; S2; ++S2)], PlanEnumerator.cpp:132-133. *)
  Definition k_subsets_after (fuel : nat) (S1 : N) (n : N) : option (list N) :=
    match gh_enumerate_from S1 n with
    | Some g => gh_loop next fuel {| gh_set := next (gh_set g); gh_limit := gh_limit g |}
    | None => None
    end.
  Definition for_list {A} (o : option (list A)) (body : table -> A -> option table) (PT : table) : option table :=
    match o with Some l => foldM body l PT | None => None end.

  (** [PEall], PlanEnumerator.cpp:39-60.  [for (i = 1, end = 1UL << n; i < end; ++i)]. *)
  Definition pe_all_step (fuel : nat) (PT : table) (S : N) : option table :=
    if sbs_size S =? 1 then Some PT else
    match sbs_hi S with                                                          (* limit, lines 48-50 *)
    | None => None
    | Some limit =>
        for_list (subset_loop fuel (least_subset S) S limit)
          (fun PT S1 => let S2 := sbs_diff S S1 in
             if has_plan PT S1 && has_plan PT S2 then pt_update PT S1 S2 else None) PT
    end.
  Definition pe_all (fuel : nat) (n : N) (PT : table) : option table :=
    foldM (pe_all_step fuel) (range 1 (shl64 1 n)) PT.

  Variable (m : matrix).

  (** [DPsize], PlanEnumerator.cpp:74-98. *)
  Definition dpsize_pair (PT : table) (S1 S2 : N) : option table :=
    if negb (has_plan PT S2) then Some PT else
    if negb (sbs_empty (sbs_inter S1 S2)) then Some PT else
    if negb (is_connected2 m S1 S2) then Some PT else
    pt_update PT S1 S2.
  Definition dpsize_inner (fuel : nat) (n s s1 : N) (PT : table) : option table :=
    for_list (k_subsets fuel s1 n)
      (fun PT S1 => if negb (has_plan PT S1) then Some PT else
         for_list (k_subsets fuel (s - s1) n) (fun PT S2 => dpsize_pair PT S1 S2) PT) PT.
  Definition dpsize (fuel : nat) (n : N) (PT : table) : option table :=
    foldM (fun PT s => foldM (fun PT s1 => dpsize_inner fuel n s s1 PT) (range 1 s) PT) (range 2 (n + 1)) PT.

  (** [DPsizeOpt], PlanEnumerator.cpp:116-157. *)
  Definition dpsizeopt_inner (fuel : nat) (n s s1 : N) (PT : table) : option table :=
    let s2 := s - s1 in
    if s1 =? s2 then
      for_list (k_subsets fuel s1 n)
        (fun PT S1 => if negb (has_plan PT S1) then Some PT else
           for_list (k_subsets_after fuel S1 n) (fun PT S2 => dpsize_pair PT S1 S2) PT) PT
    else
      for_list (k_subsets fuel s1 n)
        (fun PT S1 => if negb (has_plan PT S1) then Some PT else
           for_list (k_subsets fuel s2 n) (fun PT S2 => dpsize_pair PT S1 S2) PT) PT.
  Definition dpsizeopt (fuel : nat) (n : N) (PT : table) : option table :=
    foldM (fun PT s => foldM (fun PT s1 => dpsizeopt_inner fuel n s s1 PT) (range 1 (s / 2 + 1)) PT) (range 2 (n + 1)) PT.

  (** The body shared by [DPsizeSub] (lines 181-189) and [DPsub] (lines 216-224): all splits of a connected [S]. *)
  Definition split_step (PT : table) (S O : N) : option table :=
    let Comp := sbs_diff S O in
    if negb (is_connected2 m O Comp) then None else                               (* M_insist *)
    if negb (has_plan PT O) then Some PT else
    if negb (has_plan PT Comp) then Some PT else
    pt_update PT O Comp.
  Definition split_all (fuel : nat) (PT : table) (S : N) : option table :=
    match is_connected m S with
    | None => None
    | Some false => Some PT
    | Some true => for_list (subset_loop fuel (least_subset S) S S) (fun PT O => split_step PT S O) PT
    end.
  (** [DPsizeSub], PlanEnumerator.cpp:172-192. *)
  Definition dpsizesub (fuel : nat) (n : N) (PT : table) : option table :=
    foldM (fun PT s => for_list (k_subsets fuel s n) (split_all fuel) PT) (range 2 (n + 1)) PT.
  (** [DPsub], PlanEnumerator.cpp:207-226. *)
  Definition dpsub (fuel : nat) (n : N) (PT : table) : option table :=
    foldM (fun PT S => if sbs_size S =? 1 then Some PT else split_all fuel PT S) (range 1 (shl64 1 n)) PT.
  (** [DPsubOpt], PlanEnumerator.cpp:242-266. *)
  Definition split_half (fuel : nat) (PT : table) (S : N) : option table :=
    match is_connected m S with
    | None => None
    | Some false => Some PT
    | Some true =>
        match sbs_hi S with
        | None => None
        | Some limit => for_list (subset_loop fuel (least_subset S) S limit) (fun PT O => split_step PT S O) PT
        end
    end.
  Definition dpsubopt (fuel : nat) (n : N) (PT : table) : option table :=
    foldM (fun PT S => if sbs_size S =? 1 then Some PT else split_half fuel PT S) (range 1 (shl64 1 n)) PT.

  (** [DPccp], PlanEnumerator.cpp:274-287. *)
  Definition dpccp (fuel : nat) (n : N) (PT : table) : option table :=
    match sbs_All n with
    | None => None
    | Some All => for_list (for_each_CSG_pair m fuel All) (fun PT p => pt_update PT (fst p) (snd p)) PT
    end.

  (** [TDbasic::PlanGen], PlanEnumerator.cpp:602-625; recursion depth is bounded by [fuel]. *)
  Fixpoint plan_gen (fuel : nat) (PT : table) (S : N) : option table :=
    match fuel with
    | O => None
    | Datatypes.S f =>
        if has_plan PT S then Some PT else
        for_list (subset_loop f (least_subset S) S S)
          (fun PT sub =>
             let complement := sbs_diff S sub in
             if least_subset sub <? least_subset complement then
               match is_connected m sub, is_connected m complement with
               | Some true, Some true =>
                   match plan_gen f PT sub with
                   | None => None
                   | Some PT1 =>
                       match plan_gen f PT1 complement with
                       | None => None
                       | Some PT2 => pt_update PT2 sub complement
                       end
                   end
               | Some _, Some _ => Some PT
               | _, _ => None
               end
             else Some PT) PT
    end.
  Definition tdbasic (fuel : nat) (n : N) (PT : table) : option table :=
    match sbs_All n with Some All => plan_gen fuel PT All | None => None end.
  (** ** [MinCutAGaT], include/mutable/util/MinCutAGaT.hpp.  The callback only touches the plan table, so the pairs passed
      to it are a function of the graph: the list of callback arguments in call order. *)

  (** The children pushed by lines 63-68: [for (it = N_C.begin(); ...) worklist.emplace_back(C|v, X_tmp, T_tmp|v)];
      [bits] is the iterator. *)
  Fixpoint mc_children (steps : nat) (C T_tmp X_tmp bits : N) : list (N * N * N) :=
    match steps with
    | O => []
    | Datatypes.S st =>
        if bits =? 0 then [] else
        let v := it_as_set bits in
        (sbs_union C v, X_tmp, sbs_union T_tmp v) :: mc_children st C T_tmp (sbs_union X_tmp v) (it_next bits)
    end.
  (** The IsConnectedImp() check, lines 42-50. *)
  Definition mc_connected (S C T : N) : option bool :=
    let N_T := sbs_diff (sbs_inter (neighbors m T) S) C in
    if sbs_size N_T <=? 1 then Some true
    else match reachable_in m (it_as_set N_T) (sbs_diff S C) with
         | Some R => Some (sbs_is_subset N_T R)
         | None => None
         end.
  (** The [while (not worklist.empty())] loop, lines 33-69; [W] is the stack, top first. *)
  Fixpoint mc_while (S : N) (fuel : nat) (W : list (N * N * N)) : option (list (N * N)) :=
    match fuel with
    | O => None
    | Datatypes.S f =>
        match W with
        | [] => Some []
        | (C, X, T) :: W' =>
            match mc_connected S C T with
            | None => None
            | Some conn =>
                let T_tmp := if conn then 0 else C in
                let next := if sbs_size S <=? sbs_size C + 1 then []            (* continue, line 60 *)
                            else rev (mc_children 65 C T_tmp X (sbs_diff (sbs_inter (neighbors m C) S) X)) in
                match mc_while S f (next ++ W') with
                | None => None
                | Some out => Some (if conn then (C, sbs_diff S C) :: out else out)
                end
            end
        end
    end.
  (** [partition], lines 73-87. *)
  Definition mc_partition (fuel : nat) (S : N) : option (list (N * N)) :=
    if sbs_empty S || sbs_is_singleton S then None else
    let C := it_as_set S in mc_while S fuel [(C, 0, C)].

  (** [TDMinCutAGaT], PlanEnumerator.cpp:637-672. *)
  Fixpoint mc_solve (fuel : nat) (PT : table) (S : N) : option table :=
    match fuel with
    | O => None
    | Datatypes.S f =>
        for_list (mc_partition f S)
          (fun PT p =>
             match (if has_plan PT (fst p) then Some PT else mc_solve f PT (fst p)) with
             | None => None
             | Some PT1 =>
                 if negb (has_plan PT1 (fst p)) then None else
                 match (if has_plan PT1 (snd p) then Some PT1 else mc_solve f PT1 (snd p)) with
                 | None => None
                 | Some PT2 => if negb (has_plan PT2 (snd p)) then None else pt_update PT2 (fst p) (snd p)
                 end
             end) PT
    end.
  Definition tdmincut (fuel : nat) (n : N) (PT : table) : option table :=
    if 1 <? n then match sbs_All n with Some All => mc_solve fuel PT All | None => None end else Some PT.
End Enum.
Arguments entry : clear implicits.
Arguments table : clear implicits.
