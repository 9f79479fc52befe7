(** * The exhaustive join enumerators as clients of the plan tables.

    src/IR/PlanEnumerator.cpp, include/mutable/util/MinCutAGaT.hpp, src/IR/Optimizer.cpp.  The loops over subproblems are
    those of PlanEnum.v; here every access to the plan table is a call of its interface (PlanTable.v). *)
From Coq Require Import NArith List Bool.
From Verif Require Import Word Bitset Graph PlanEnum PlanTable PlanTableSpec.
Import ListNotations.
Open Scope N_scope.

Section Clients.
  Context {M : Type}.
  Notation client := (client M unit).
  Definition skip : client := Return tt.
  Definition update (l r : N) : client := Update l r skip.                  (* [PT.update(G, CE, CF, l, r, condition)] *)
  Definition andthen (p q : client) : client := cbind p (fun _ => q).
  Fixpoint foreach {A : Type} (l : list A) (body : A -> client) : client :=
    match l with [] => skip | a :: l' => andthen (body a) (foreach l' body) end.
  Definition for_loop {A : Type} (o : option (list A)) (body : A -> client) : client :=
    match o with Some l => foreach l body | None => Abort end.
  Definition insist_plan (s : N) (k : client) : client := HasPlan s (fun b => if b then k else Abort).  (* [M_insist(PT.has_plan(s))] *)
  Definition continue_unless_plan (s : N) (k : client) : client := HasPlan s (fun b => if b then k else skip).

  (** The optimizer fills in the entries of the sources, Optimizer.cpp:211-290: [PT[s].cost], [PT[s].model]. *)
  Definition c_sources (n : N) (model : N -> M) (cost : N -> dbl) : client :=
    foreach (range 0 n) (fun i => Write (shl64 1 i) (PE 0 0 (Some (model (shl64 1 i))) (cost i)) skip).

  (** [PEall], PlanEnumerator.cpp:39-60. *)
  Definition c_pe_all (fuel : nat) (n : N) : client :=
    foreach (range 1 (shl64 1 n)) (fun S =>
      if sbs_size S =? 1 then skip else
      match sbs_hi S with
      | None => Abort
      | Some limit => for_loop (subset_loop fuel (least_subset S) S limit) (fun S1 =>
          let S2 := sbs_diff S S1 in insist_plan S1 (insist_plan S2 (update S1 S2)))
      end).

  Variable (next : N -> sbs) (m : matrix).

  (** [DPsize], PlanEnumerator.cpp:74-98. *)
  Definition c_pair (S1 S2 : N) : client :=
    continue_unless_plan S2
      (if negb (sbs_empty (sbs_inter S1 S2)) then skip else
       if negb (is_connected2 m S1 S2) then skip else update S1 S2).
  Definition c_dpsize_inner (fuel : nat) (n s s1 : N) : client :=
    for_loop (k_subsets next fuel s1 n) (fun S1 => continue_unless_plan S1
      (for_loop (k_subsets next fuel (s - s1) n) (fun S2 => c_pair S1 S2))).
  Definition c_dpsize (fuel : nat) (n : N) : client :=
    foreach (range 2 (n + 1)) (fun s => foreach (range 1 s) (fun s1 => c_dpsize_inner fuel n s s1)).
  (** [DPsizeOpt], PlanEnumerator.cpp:116-157. *)
  Definition c_dpsizeopt_inner (fuel : nat) (n s s1 : N) : client :=
    let s2 := s - s1 in
    if s1 =? s2 then
      for_loop (k_subsets next fuel s1 n) (fun S1 => continue_unless_plan S1
        (for_loop (k_subsets_after next fuel S1 n) (fun S2 => c_pair S1 S2)))
    else
      for_loop (k_subsets next fuel s1 n) (fun S1 => continue_unless_plan S1
        (for_loop (k_subsets next fuel s2 n) (fun S2 => c_pair S1 S2))).
  Definition c_dpsizeopt (fuel : nat) (n : N) : client :=
    foreach (range 2 (n + 1)) (fun s => foreach (range 1 (s / 2 + 1)) (fun s1 => c_dpsizeopt_inner fuel n s s1)).
  (** The body shared by [DPsizeSub] (lines 181-189), [DPsub] (lines 216-224) and [DPsubOpt] (lines 255-263). *)
  Definition c_split (S O : N) : client :=
    let Comp := sbs_diff S O in
    if negb (is_connected2 m O Comp) then Abort else
    continue_unless_plan O (continue_unless_plan Comp (update O Comp)).
  Definition c_split_all (fuel : nat) (S : N) : client :=
    match is_connected m S with
    | None => Abort
    | Some false => skip
    | Some true => for_loop (subset_loop fuel (least_subset S) S S) (fun O => c_split S O)
    end.
  (** [DPsizeSub], PlanEnumerator.cpp:172-192. *)
  Definition c_dpsizesub (fuel : nat) (n : N) : client :=
    foreach (range 2 (n + 1)) (fun s => for_loop (k_subsets next fuel s n) (c_split_all fuel)).
  (** [DPsub], PlanEnumerator.cpp:207-226. *)
  Definition c_dpsub (fuel : nat) (n : N) : client :=
    foreach (range 1 (shl64 1 n)) (fun S => if sbs_size S =? 1 then skip else c_split_all fuel S).
  (** [DPsubOpt], PlanEnumerator.cpp:242-266. *)
  Definition c_split_half (fuel : nat) (S : N) : client :=
    match is_connected m S with
    | None => Abort
    | Some false => skip
    | Some true =>
        match sbs_hi S with
        | None => Abort
        | Some limit => for_loop (subset_loop fuel (least_subset S) S limit) (fun O => c_split S O)
        end
    end.
  Definition c_dpsubopt (fuel : nat) (n : N) : client :=
    foreach (range 1 (shl64 1 n)) (fun S => if sbs_size S =? 1 then skip else c_split_half fuel S).
  (** [DPccp], PlanEnumerator.cpp:274-287. *)
  Definition c_dpccp (fuel : nat) (n : N) : client :=
    match sbs_All n with
    | None => Abort
    | Some All => for_loop (for_each_CSG_pair m fuel All) (fun p => update (fst p) (snd p))
    end.
  (** [TDbasic], PlanEnumerator.cpp:602-625. *)
  Fixpoint c_plan_gen (fuel : nat) (S : N) : client :=
    match fuel with
    | O => Abort
    | Datatypes.S f =>
        HasPlan S (fun b => if b then skip else
          for_loop (subset_loop f (least_subset S) S S) (fun sub =>
            let complement := sbs_diff S sub in
            if least_subset sub <? least_subset complement then
              match is_connected m sub, is_connected m complement with
              | Some true, Some true => andthen (c_plan_gen f sub) (andthen (c_plan_gen f complement) (update sub complement))
              | Some _, Some _ => skip
              | _, _ => Abort
              end
            else skip))
    end.
  Definition c_tdbasic (fuel : nat) (n : N) : client :=
    match sbs_All n with Some All => c_plan_gen fuel All | None => Abort end.
  (** [TDMinCutAGaT], PlanEnumerator.cpp:637-672. *)
  Fixpoint c_mc_solve (fuel : nat) (S : N) : client :=
    match fuel with
    | O => Abort
    | Datatypes.S f =>
        for_loop (mc_partition m f S) (fun p =>
          andthen (HasPlan (fst p) (fun b => if b then skip else c_mc_solve f (fst p)))
            (insist_plan (fst p)
              (andthen (HasPlan (snd p) (fun b => if b then skip else c_mc_solve f (snd p)))
                (insist_plan (snd p) (update (fst p) (snd p))))))
    end.
  Definition c_tdmincut (fuel : nat) (n : N) : client :=
    if 1 <? n then match sbs_All n with Some All => c_mc_solve fuel All | None => Abort end else skip.
End Clients.
