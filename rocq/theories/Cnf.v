(** * Model of conjunctive normal forms: include/mutable/IR/CNF.hpp, src/IR/CNF.cpp. *)
From Coq Require Import List Bool Arith.
Import ListNotations.

(** [Predicate]: a literal expression with a sign, CNF.hpp:15-60.  The expression is identified by a number: the code tags
    the pointer's least significant bit; two predicates are equal iff sign and expression are. *)
Record pred := { p_expr : nat; p_neg : bool }.
(** [operator!], CNF.hpp:55 *)
Definition pred_not (p : pred) : pred := {| p_expr := p_expr p; p_neg := negb (p_neg p) |}.
(** [operator==], CNF.hpp:59-61 *)
Definition pred_eqb (p q : pred) : bool := Bool.eqb (p_neg p) (p_neg q) && (p_expr p =? p_expr q).

Definition clause := list pred.
Definition cnf := list clause.

(** [contains], fn.hpp:379-384; [operator<=] and [operator==] of clauses and CNFs, CNF.cpp:18-33, CNF.hpp:88-90, 158-160. *)
Definition clause_le (c1 c2 : clause) : bool := forallb (fun p => existsb (pred_eqb p) c2) c1.
Definition clause_eqb (c1 c2 : clause) : bool := clause_le c2 c1 && clause_le c1 c2.
Definition cnf_le (f1 f2 : cnf) : bool := forallb (fun c => existsb (clause_eqb c) f2) f1.
Definition cnf_eqb (f1 f2 : cnf) : bool := cnf_le f2 f1 && cnf_le f1 f2.

(** [operator||], [operator&&] on clauses, CNF.cpp:36-52 *)
Definition clause_or (l r : clause) : clause := l ++ r.
Definition clause_and (l r : clause) : cnf := [l; r].
(** [operator&&] on CNFs, CNF.cpp:54-61 *)
Definition cnf_and (l r : cnf) : cnf := l ++ r.
(** [operator||] on CNFs, CNF.cpp:63-77 *)
Definition cnf_or (l r : cnf) : cnf :=
  match l, r with
  | [], _ => r
  | _, [] => l
  | _, _ => flat_map (fun cl => map (fun cr => clause_or cl cr) r) l
  end.
(** [operator!] on clauses and CNFs, CNF.cpp:79-93 *)
Definition clause_not (c : clause) : cnf := map (fun p => [pred_not p]) c.
Definition cnf_not (f : cnf) : cnf := fold_left (fun res c => cnf_or res (clause_not c)) f [].

(** Boolean expressions as seen by [CNFGenerator], CNF.cpp:197-290.  [EAtom]: everything treated as a literal (designators,
    constants, function applications, unary operators other than NOT, comparisons of non-Booleans, queries).  [EOther]: an
    operator other than AND, OR, =, != on two Booleans. *)
Inductive bexpr :=
| EAtom (a : nat) | ENot (e : bexpr) | EAnd (l r : bexpr) | EOr (l r : bexpr) | EEq (l r : bexpr) | ENe (l r : bexpr)
| EOther (l r : bexpr).

(** [CNFGenerator], CNF.cpp:216-290; [neg] is [is_negative_].  [None] is [M_unreachable]. *)
Fixpoint gen (neg : bool) (e : bexpr) : option cnf :=
  let binary l r (k : cnf -> cnf -> option cnf) :=
    match gen neg l with None => None | Some fl => match gen neg r with None => None | Some fr => k fl fr end end in
  let equiv fl fr := cnf_and (cnf_or (cnf_not fl) fr) (cnf_or (cnf_not fr) fl) in
  match e with
  | EAtom a => Some [[ {| p_expr := a; p_neg := neg |} ]]
  | ENot e => gen (negb neg) e
  | EAnd l r => binary l r (fun fl fr => Some (if neg then cnf_or fl fr else cnf_and fl fr))
  | EOr l r => binary l r (fun fl fr => Some (if neg then cnf_and fl fr else cnf_or fl fr))
  | EEq l r => binary l r (fun fl fr => Some (if neg then cnf_not (equiv fl fr) else equiv fl fr))
  | ENe l r => binary l r (fun fl fr => Some (if neg then equiv fl fr else cnf_not (equiv fl fr)))
  | EOther l r => binary l r (fun _ _ => None)
  end.
(** [to_CNF], CNF.cpp:292-297 *)
Definition to_CNF (e : bexpr) : option cnf := gen false e.
