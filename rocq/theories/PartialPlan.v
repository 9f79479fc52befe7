(** * Model of src/IR/PartialPlanGenerator.cpp

    Subproblems are sets of relations, as numbers ([SmallBitset]); a plan table is read through [PT s], its [left] and [right] for the
    subproblem [s].  Stacks are lists with the top first. *)
From Coq Require Import NArith List Bool String Ascii.
Import ListNotations.

Definition Subproblem := N.
(** [SmallBitset::is_singleton]: [bits_ != 0 and (bits_ & (bits_ - 1)) == 0]. *)
Definition is_singleton (s : Subproblem) : bool := negb (s =? 0)%N && (N.land s (s - 1) =? 0)%N.

(** The variables of lines 26-36, where the program is (line 45 or line 51), and the calls of [callback] so far. *)
Inductive mode := Loop | Unwind.
Record state := mkState { mode_ : mode; partial_plans : list Subproblem; candidates : list Subproblem; decision_stack : list bool; calls : list (list Subproblem) }.
Inductive result := Next (s : state) | Finished (calls : list (list Subproblem)) | Insist.

(** One round of the loop of line 45 (the part up to 48, or 83-88), or of that of line 51. *)
Definition step (PT : Subproblem -> Subproblem * Subproblem) (s : state) : result :=
  match s with
  | mkState Loop pp [] ds cs => Next (mkState Unwind pp [] ds (cs ++ [rev pp]))
  | mkState Loop pp (c :: cands) ds cs => Next (mkState Loop (c :: pp) cands (true :: ds) cs)
  | mkState Unwind pp cands [] cs => Finished cs
  | mkState Unwind pp cands (false :: ds) cs =>
      match cands with
      | r :: l :: cands => Next (mkState Unwind pp (N.lor l r :: cands) ds cs)
      | _ => Insist
      end
  | mkState Unwind pp cands (true :: ds) cs =>
      match pp with
      | [] => Insist
      | p :: pp => if is_singleton p then Next (mkState Unwind pp (p :: cands) ds cs)
                   else Next (mkState Loop pp (snd (PT p) :: fst (PT p) :: cands) (false :: ds) cs)
      end
  end.
(** With [fuel] rounds; [None] if they are not enough or an [M_insist] fails. *)
Fixpoint run (PT : Subproblem -> Subproblem * Subproblem) (fuel : nat) (s : state) : option (list (list Subproblem)) :=
  match fuel with
  | O => None
  | S fuel => match step PT s with Next s => run PT fuel s | Finished cs => Some cs | Insist => None end
  end.

(** [for_each_complete_partial_plan], lines 10-94: the calls of [callback], in order.  [get_final()] is the entry for all sources. *)
Definition for_each_complete_partial_plan (PT : Subproblem -> Subproblem * Subproblem) (num_sources : nat) (fuel : nat) : option (list (list Subproblem)) :=
  match num_sources with
  | 0 => Some []
  | 1 => Some [[1%N]]
  | n => let final := PT (N.ones (N.of_nat n)) in
         let root := N.lor (fst final) (snd final) in run PT fuel (mkState Loop [root] [] [true] [])
  end.

(** [write_partial_plans_JSON], lines 96-149.  [name s] is what [write_tree] prints for the root [s]; [is_first] is the [static] variable
    of line 129; the new line is written as the character 10. *)
Local Open Scope string_scope.
Definition nl : string := String (ascii_of_nat 10) EmptyString.
Definition quote : string := String (ascii_of_nat 34) EmptyString.
Fixpoint write_trees (name : Subproblem -> string) (first : bool) (p : list Subproblem) : string :=
  match p with [] => "" | s :: p => (if first then "" else ", ") ++ quote ++ name s ++ quote ++ write_trees name false p end.
Definition write_partial_plan (name : Subproblem -> string) (is_first : bool) (p : list Subproblem) : string :=
  (if is_first then "" else ",") ++ nl ++ "    [ " ++ write_trees name true p ++ " ]".
Fixpoint write_all (name : Subproblem -> string) (is_first : bool) (ps : list (list Subproblem)) : string * bool :=
  match ps with
  | [] => ("", is_first)
  | p :: ps => let (o, f) := write_all name false ps in (write_partial_plan name is_first p ++ o, f)
  end.
Definition write_partial_plans_JSON (name : Subproblem -> string) (is_first : bool) (ps : list (list Subproblem)) : string * bool :=
  let (o, f) := write_all name is_first ps in ("[" ++ o ++ nl ++ "]" ++ nl, f).
(** [write_tree], lines 101-112, on the tree below a subproblem; [source i] is the name of a source. *)
Fixpoint write_tree (PT : Subproblem -> Subproblem * Subproblem) (source : nat -> string) (fuel : nat) (s : Subproblem) : string :=
  match fuel with
  | O => ""
  | S fuel => if is_singleton s then source (N.to_nat (N.log2 s)) else "@ " ++ write_tree PT source fuel (fst (PT s)) ++ " " ++ write_tree PT source fuel (snd (PT s))
  end.
