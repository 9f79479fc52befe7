(** * Complete partial plans *)
From Coq Require Import NArith List Permutation String Ascii.
Import ListNotations.

Section Spec.
  Variable PT : N -> N * N.
  (** [plan s]: the table holds a plan for the relations in [s]. *)
  Inductive plan : N -> Prop :=
    | plan_relation i : plan (2 ^ i)
    | plan_join s l r : PT s = (l, r) -> s = N.lor l r -> N.land l r = 0%N -> plan l -> plan r -> plan s.
  (** [subplan s x]: [x] is the root of a part of the plan for [s].  Relations have no parts. *)
  Inductive subplan : N -> N -> Prop :=
    | sub_refl s : subplan s s
    | sub_left s l r x : (forall i, s <> 2 ^ i)%N -> PT s = (l, r) -> subplan l x -> subplan s x
    | sub_right s l r x : (forall i, s <> 2 ^ i)%N -> PT s = (l, r) -> subplan r x -> subplan s x.
  (** A complete partial plan of [s]: different parts of the plan, such that each relation of [s] occurs in exactly one. *)
  Definition complete_partial_plan (s : N) (p : list N) : Prop :=
    NoDup p /\ (forall x, In x p -> subplan s x) /\
    forall i, N.testbit s i = true -> exists x, In x p /\ N.testbit x i = true /\ forall y, In y p -> N.testbit y i = true -> y = x.
  (** The notation of lines 120-125 of PartialPlanGenerator.cpp: a relation is its name, a join [@ l r]. *)
  Inductive notation (source : N -> string) : N -> string -> Prop :=
    | not_relation i : notation source (2 ^ i) (source i)
    | not_join s l r tl tr : (forall i, s <> 2 ^ i)%N -> PT s = (l, r) -> notation source l tl -> notation source r tr -> notation source s ("@ " ++ tl ++ " " ++ tr)%string.
End Spec.
(** A JSON array with one line per partial plan, each an array of strings. *)
Definition json_plan (p : list string) : string :=
  (String (ascii_of_nat 10) "    [ " ++ concat ", " (map (fun s => String (ascii_of_nat 34) s ++ String (ascii_of_nat 34) "") p) ++ " ]")%string.
Definition json (ps : list (list string)) : string := ("[" ++ concat "," (map json_plan ps) ++ String (ascii_of_nat 10) "]" ++ String (ascii_of_nat 10) "")%string.
