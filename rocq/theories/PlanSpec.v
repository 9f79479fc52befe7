(** * Specification of join ordering: join trees, their validity and their cost. *)
From Coq Require Import NArith List Bool.
From Verif Require Import Word GraphSpec.
Import ListNotations.
Open Scope N_scope.

(** Binary join trees over data sources. *)
Inductive jtree := JLeaf (i : N) | JNode (l r : jtree).

(** The set of data sources joined by a tree. *)
Fixpoint jset (t : jtree) : N :=
  match t with JLeaf i => 2 ^ i | JNode l r => N.lor (jset l) (jset r) end.

(** A tree is valid w.r.t. an admissibility relation [J] on pairs of subproblems ("joined by a join predicate", or always
    true if cross products are admitted): every join combines disjoint, admissible inputs. *)
Fixpoint jvalid (J : N -> N -> Prop) (t : jtree) : Prop :=
  match t with
  | JLeaf i => i < 64
  | JNode l r => jvalid J l /\ jvalid J r /\ disjoint (jset l) (jset r) /\ J (jset l) (jset r)
  end.

(** The cost of a tree: leaves have given cost; the cost of a join depends on the two joined subproblems and the costs of
    its inputs. *)
Fixpoint jcost {C : Type} (leaf : N -> C) (jc : N -> N -> C -> C -> C) (t : jtree) : C :=
  match t with
  | JLeaf i => leaf i
  | JNode l r => jc (jset l) (jset r) (jcost leaf jc l) (jcost leaf jc r)
  end.

(** Costs are compared by [lt]; [cle a b] is "[a] is not greater than [b]". *)
Definition cle {C : Type} (lt : C -> C -> bool) (a b : C) : Prop := lt b a = false.

(** Requirements on a cost model: costs are totally (pre)ordered and the cost of a join is monotone in the costs of its
    inputs.  They hold of [C_out] with IEEE doubles without NaN (rounded addition is monotone). *)
Definition cost_model {C : Type} (lt : C -> C -> bool) (jc : N -> N -> C -> C -> C) : Prop :=
  (forall a, cle lt a a) /\ (forall a b c, cle lt a b -> cle lt b c -> cle lt a c) /\ (forall a b, cle lt a b \/ cle lt b a) /\
  (forall l r a a' b b', cle lt a a' -> cle lt b b' -> cle lt (jc l r a b) (jc l r a' b')).

(** [t] is a cheapest valid tree for the sources [S]. *)
Definition optimal {C : Type} (lt : C -> C -> bool) (leaf : N -> C) (jc : N -> N -> C -> C -> C) (J : N -> N -> Prop)
    (S : N) (t : jtree) : Prop :=
  jvalid J t /\ jset t = S /\
  forall t', jvalid J t' -> jset t' = S -> cle lt (jcost leaf jc t) (jcost leaf jc t').
