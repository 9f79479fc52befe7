(** * Model of the doubly linked list with one pointer per element: include/mutable/util/ADT.hpp lines 379-662
    ([doubly_linked_list])

    Addresses are natural numbers, 0 is the null pointer.  The heap holds the nodes of one list (each list of the program
    has nodes of its own).  The address a node is allocated at is an argument of the operation; the allocator promises that
    it is not null and not in use.  Dereferencing a null or freed pointer is undefined behaviour: the operation then yields
    [None].  Simplifications: values are copied, never moved (the code's destructor does not run the values' destructors,
    not modelled); [size_] is an unbounded number. *)
From Coq Require Import List Arith Lia Bool NArith.
Import ListNotations.

Section XorList.
Context {V : Type}.

(** Lines 393-397: [node_type]. *)
Notation node := (N * V)%type.
Notation heap := (N -> option node).

(** Lines 400-408. *)
Record dll := mkDll { hp : heap; head : N; tail : N; size : nat }.

(** Lines 424-428: [the_iterator], (node_, prev_). *)
Notation iter := (N * N)%type.

Definition upd (h : heap) (a : N) (x : option node) : heap := fun b => if N.eqb b a then x else h b.

(** Line 474: the empty list. *)
Definition empty_list : dll := mkDll (fun _ => None) 0 0 0.

(** Lines 430-436: [operator++]. *)
Definition incr (h : heap) (it : iter) : option iter :=
  let '(n, p) := it in
  if N.eqb n 0 then None else match h n with Some (x, _) => Some (N.lxor p x, n) | None => None end.

(** Lines 440-446: [operator--]. *)
Definition decr (h : heap) (it : iter) : option iter :=
  let '(n, p) := it in
  if N.eqb p 0 then None else match h p with Some (x, _) => Some (p, N.lxor x n) | None => None end.

(** Line 450: [operator*]. *)
Definition deref (h : heap) (it : iter) : option V :=
  if N.eqb (fst it) 0 then None else match h (fst it) with Some (_, v) => Some v | None => None end.

(** Lines 453-455: [operator==]. *)
Definition iter_eqb (a b : iter) : bool := N.eqb (fst a) (fst b) && N.eqb (snd a) (snd b).

(** Lines 508-520. *)
Definition begin_ (s : dll) : iter := (head s, 0%N).
Definition end_ (s : dll) : iter := (0%N, tail s).
Definition rbegin (s : dll) : iter := (tail s, 0%N).
Definition rend (s : dll) : iter := (0%N, head s).

(** Lines 502-505: [front], [back]. *)
Definition front (s : dll) : option V := deref (hp s) (head s, 0%N).
Definition back (s : dll) : option V := deref (hp s) (tail s, 0%N).

(** [p->ptrxor_ ^= d] *)
Definition xor_at (h : heap) (p d : N) : option heap :=
  match h p with Some (x, v) => Some (upd h p (Some (N.lxor x d, v))) | None => None end.

(** Lines 529-546: [emplace]; [a] is the address of the new node. *)
Definition emplace (a : N) (pos : iter) (v : V) (s : dll) : option (dll * iter) :=
  let '(n, p) := pos in
  let h0 := upd (hp s) a (Some (N.lxor p n, v)) in
  match (if N.eqb p 0 then Some h0 else xor_at h0 p (N.lxor n a)) with
  | None => None
  | Some h1 =>
      match (if N.eqb n 0 then Some h1 else xor_at h1 n (N.lxor p a)) with
      | None => None
      | Some h2 => Some (mkDll h2 (if N.eqb p 0 then a else head s) (if N.eqb n 0 then a else tail s) (S (size s)), (a, p))
      end
  end.

(** Lines 549-563: [push_back] and [push_front]. *)
Definition push_back (a : N) (v : V) (s : dll) : option dll := option_map fst (emplace a (end_ s) v s).
Definition push_front (a : N) (v : V) (s : dll) : option dll := option_map fst (emplace a (begin_ s) v s).

(** Lines 567-571: [insert(pos, count, value)]; one address per copy. *)
Fixpoint insert_count (addrs : list N) (pos : iter) (v : V) (s : dll) : option (dll * iter) :=
  match addrs with
  | [] => Some (s, pos)
  | a :: r => match emplace a pos v s with None => None | Some (s1, it) => insert_count r it v s1 end
  end.

(** Line 582: [while (first != last) it = insert(++it, *first++)]. *)
Fixpoint insert_loop (vs : list (N * V)) (it : iter) (s : dll) : option dll :=
  match vs with
  | [] => Some s
  | (a, v) :: r =>
      match incr (hp s) it with
      | None => None
      | Some it' => match emplace a it' v s with None => None | Some (s1, it1) => insert_loop r it1 s1 end
      end
  end.

(** Lines 575-585: [insert(pos, first, last)]; the range belongs to another container. *)
Definition insert_range (vs : list (N * V)) (pos : iter) (s : dll) : option (dll * iter) :=
  match vs with
  | [] => Some (s, pos)
  | (a, v) :: r =>
      match emplace a pos v s with
      | None => None
      | Some (s1, b) => match insert_loop r b s1 with None => None | Some s2 => Some (s2, b) end
      end
  end.

(** Lines 591-607: [erase]. *)
Definition erase (pos : iter) (s : dll) : option (dll * iter) :=
  let '(n, p) := pos in
  match (if N.eqb n 0 then None else hp s n) with
  | None => None
  | Some (x, _) =>
      let next := N.lxor x p in
      match (if N.eqb p 0 then Some (hp s) else xor_at (hp s) p (N.lxor n next)) with
      | None => None
      | Some h1 =>
          match (if N.eqb next 0 then Some h1 else xor_at h1 next (N.lxor n p)) with
          | None => None
          | Some h2 =>
              Some (mkDll (upd h2 n None) (if N.eqb p 0 then next else head s) (if N.eqb next 0 then p else tail s)
                          (pred (size s)), (next, p))
          end
      end
  end.

(** Line 630: [reverse]. *)
Definition reverse (s : dll) : dll := mkDll (hp s) (tail s) (head s) (size s).

(** Lines 618-625: [pop_front]. *)
Definition pop_front (s : dll) : option (dll * V) :=
  match front s with
  | None => None
  | Some v => match erase (begin_ s) s with None => None | Some (s1, _) => Some (s1, v) end
  end.

(** Lines 611-616: [pop_back]. *)
Definition pop_back (s : dll) : option (dll * V) :=
  match pop_front (reverse s) with None => None | Some (s1, v) => Some (reverse s1, v) end.

(** Line 627: [clear]: [while (head_) pop_front()].  [fuel] bounds the loop; running out of it is [None]. *)
Fixpoint clear_loop (fuel : nat) (s : dll) : option dll :=
  if N.eqb (head s) 0 then Some s else
  match fuel with
  | 0 => None
  | S f => match pop_front s with None => None | Some (s1, _) => clear_loop f s1 end
  end.
Definition clear (s : dll) : option dll := clear_loop (size s) s.

(** [for (it = first; it != last; ++it) ... *it ...] *)
Fixpoint walk (fuel : nat) (h : heap) (it last : iter) : option (list V) :=
  if iter_eqb it last then Some [] else
  match fuel with
  | 0 => None
  | S f =>
      match deref h it, incr h it with
      | Some v, Some it' => option_map (cons v) (walk f h it' last)
      | _, _ => None
      end
  end.
Definition contents (s : dll) : option (list V) := walk (size s) (hp s) (begin_ s) (end_ s).
Definition rcontents (s : dll) : option (list V) := walk (size s) (hp s) (rbegin s) (rend s).

(** The iterator a user gets by advancing [begin()] or retreating [end()]. *)
Fixpoint advance (n : nat) (h : heap) (it : iter) : option iter :=
  match n with 0 => Some it | S m => match incr h it with None => None | Some it' => advance m h it' end end.
Fixpoint retreat (n : nat) (h : heap) (it : iter) : option iter :=
  match n with 0 => Some it | S m => match decr h it with None => None | Some it' => retreat m h it' end end.

(** Lines 491-493: the copy constructor ([insert(begin(), other.cbegin(), other.cend())]). *)
Definition copy (addrs : list N) (other : dll) : option dll :=
  match contents other with
  | None => None
  | Some vs => option_map fst (insert_range (combine addrs vs) (begin_ empty_list) empty_list)
  end.

End XorList.
Arguments dll : clear implicits.
Notation iter := (N * N)%type.
