(** * Model of [m::Schema] (include/mutable/catalog/Schema.hpp lines 36-282)

    A thrown exception is modelled by [None].  A [Type *] is modelled by its address (a [nat]): types are pooled
    (src/catalog/Type.cpp) and the code compares the pointers.  The iterators that [find] returns are modelled by
    indices, [end()] is the number of entries. *)
From Coq Require Import String List Arith Lia Bool NArith.
Import ListNotations.
Open Scope list_scope.

(** Schema.hpp 40-72: an identifier is an optional prefix and a name. *)
Record ident := mkId { prefix : option string; name : string }.

(** Schema.hpp 50-55: the constructor rejects an empty prefix. *)
Definition make_ident (p : option string) (n : string) : option ident :=
  match p with
  | Some ""%string => None
  | _ => Some (mkId p n)
  end.

(** Schema.hpp 61-63: [operator==] of identifiers. *)
Definition opt_string_eqb (a b : option string) : bool :=
  match a, b with
  | Some x, Some y => String.eqb x y
  | None, None => true
  | _, _ => false
  end.
Definition ident_eqb (a b : ident) : bool :=
  opt_string_eqb (prefix a) (prefix b) && String.eqb (name a) (name b).

(** Schema.hpp 58-59 and src/catalog/Schema.cpp ([CONST_ID_]): the identifier of constants. *)
Definition const_id : ident := mkId None "$const"%string.
Definition is_constant (i : ident) : bool := ident_eqb i const_id.

(** Schema.hpp 74-103: an entry is an identifier, a type and constraints (a set of bits). *)
Record entry := mkEntry { eid : ident; etype : nat; econstraints : N }.

(** Schema.hpp 106: the entries. *)
Definition schema := list entry.

(** [std::find_if(first + off, end, pred)] as an index. *)
Fixpoint find_if (id : ident) (s : schema) (off : nat) : nat :=
  match s with
  | [] => off
  | e :: r => if ident_eqb (eid e) id then off else find_if id r (S off)
  end.

(** Schema.hpp 126-135: [find]. *)
Definition find (s : schema) (id : ident) : option nat :=
  let it := find_if id s 0 in
  if negb (it =? length s) && negb (find_if id (skipn (S it) s) (S it) =? length s)
  then None
  else Some it.

(** Schema.hpp 139: [has]. *)
Definition has (s : schema) (id : ident) : option bool :=
  match find s id with
  | None => None
  | Some it => Some (negb (it =? length s))
  end.

(** Schema.hpp 142-146: [at(idx)]. *)
Definition at_idx (s : schema) (i : nat) : option entry := nth_error s i.

(** Schema.hpp 160-165: [at(id)]. *)
Definition at_id (s : schema) (id : ident) : option (nat * entry) :=
  match find s id with
  | None => None
  | Some it => match nth_error s it with
               | Some e => Some (it, e)
               | None => None
               end
  end.

(** Schema.hpp 180-186: [add]. *)
Definition add (s : schema) (e : entry) : schema := s ++ [e].

(** Schema.hpp 189-196: [deduplicate], the loop over the entries with accumulator [res]. *)
Fixpoint dedup_loop (res : schema) (s : schema) : option schema :=
  match s with
  | [] => Some res
  | e :: r => match has res (eid e) with
              | None => None
              | Some true => dedup_loop res r
              | Some false => dedup_loop (add res (mkEntry (eid e) (etype e) (econstraints e))) r
              end
  end.
Definition deduplicate (s : schema) : option schema := dedup_loop [] s.

(** Schema.hpp 199-206: [drop_constants]. *)
Fixpoint drop_constants_loop (res : schema) (s : schema) : schema :=
  match s with
  | [] => res
  | e :: r => drop_constants_loop
                (if negb (is_constant (eid e)) then add res (mkEntry (eid e) (etype e) (econstraints e)) else res) r
  end.
Definition drop_constants (s : schema) : schema := drop_constants_loop [] s.

(** Schema.hpp 210-214 and 249-254: [operator+=], [operator+]. *)
Fixpoint concat_assign (s other : schema) : schema :=
  match other with
  | [] => s
  | e :: r => concat_assign (add s e) r
  end.
Definition concat := concat_assign.

(** Schema.hpp 219-225: [operator|=]; 272-277: [operator|]. *)
Fixpoint union_assign (s other : schema) : option schema :=
  match other with
  | [] => Some s
  | e :: r => match has s (eid e) with
              | None => None
              | Some true => union_assign s r
              | Some false => union_assign (add s e) r
              end
  end.
Definition union := union_assign.

(** [std::all_of(p.begin(), p.end(), [&](p) { return other.has(p.id); })]: stops at the first [false]. *)
Fixpoint all_has (s other : schema) : option bool :=
  match s with
  | [] => Some true
  | e :: r => match has other (eid e) with
              | None => None
              | Some false => Some false
              | Some true => all_has r other
              end
  end.

(** Schema.hpp 228-231: [operator==], with the short-circuit [and]. *)
Definition schema_eq (a b : schema) : option bool :=
  match all_has a b with
  | None => None
  | Some false => Some false
  | Some true => all_has b a
  end.

(** Schema.hpp 257-269: [operator&]. *)
Fixpoint inter_loop (res left right : schema) : option schema :=
  match left with
  | [] => Some res
  | e :: r =>
      match find right (eid e) with
      | None => None
      | Some it =>
          match nth_error right it with
          | None => inter_loop res r right
          | Some f => if negb (etype e =? etype f) then None
                      else inter_loop (add res (mkEntry (eid e) (etype e) (N.lor (econstraints e) (econstraints f)))) r right
          end
      end
  end.
Definition inter (left right : schema) : option schema := inter_loop [] left right.
