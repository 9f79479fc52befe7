(** * Model of [Tuple] (include/mutable/IR/Tuple.hpp 180-336, src/IR/Tuple.cpp 80-145)

    A [Value] is either raw bits or a pointer to a character buffer, named by (allocation, slot).  The character buffers live in a
    heap.  [None] is an access out of bounds, a failed assertion or undefined behaviour.  The number of values, kept only in sanity
    builds ([num_values_]), is the length of the list here. *)
From Coq Require Import NArith List Bool Arith.
From Verif Require Import Word Bitset.
Import ListNotations.

Inductive value : Set := Raw (bits : N) | Ptr (a i : nat).
Record tuple := mkT { vals : list value; mask : N }.
(** contents of the buffers, up to the terminating NUL *)
Notation heap := (nat -> nat -> list N) (only parsing).
(** a slot type: [Some n] is CHAR(n)/VARCHAR(n), [None] any other type *)
Notation slot_ty := (option nat) (only parsing).

(** [Tuple(const Schema&)], Tuple.cpp 80-104: one value per entry, character slots point into the allocation; all NULL *)
Fixpoint slots (a i : nat) (tys : list (option nat)) : list value :=
  match tys with
  | [] => []
  | t :: tys' => (match t with Some _ => Ptr a i | None => Raw 0 end) :: slots a (S i) tys'
  end.
Definition new_tuple (a : nat) (tys : list (option nat)) : tuple := mkT (slots a 0 tys) (not64 0).
(** ... and the heap it leaves: empty strings *)
Definition new_heap (a : nat) (h : nat -> nat -> list N) : nat -> nat -> list N := fun a' i => if Nat.eqb a' a then [] else h a' i.

Fixpoint upd {X} (l : list X) (i : nat) (x : X) : list X :=
  match l, i with
  | [], _ => []
  | _ :: l', O => x :: l'
  | y :: l', S i' => y :: upd l' i' x
  end.
Definition in_bounds (t : tuple) (i : nat) : bool := Nat.ltb i (length (vals t)).
(** [is_null], Tuple.hpp 222-225 *)
Definition is_null (t : tuple) (i : nat) : option bool := if in_bounds t i then sbs_get (mask t) (N.of_nat i) else None.
(** [null] and [not_null], lines 228-240 *)
Definition set_null (t : tuple) (i : nat) (b : bool) : option tuple :=
  if in_bounds t i then option_map (mkT (vals t)) (sbs_set (mask t) (N.of_nat i) b) else None.
(** [clear], line 234 *)
Definition clear (t : tuple) : tuple := mkT (vals t) (not64 0).
(** [set(idx, val, is_null)], lines 250-254; [set(idx, val)], lines 243-247, is the same with [false] *)
Definition set (t : tuple) (i : nat) (v : value) (b : bool) : option tuple :=
  if in_bounds t i then option_map (fun m => mkT (upd (vals t) i v) m) (sbs_set (mask t) (N.of_nat i) b) else None.
(** [operator[]], lines 257-263 *)
Definition at_ (t : tuple) (i : nat) : option value := nth_error (vals t) i.
(** [get], lines 266-275 *)
Definition get (t : tuple) (i : nat) : option value := match is_null t i with Some false => at_ t i | _ => None end.
(** [insert], lines 278-281 *)
Fixpoint insert_loop (n i : nat) (t o : tuple) (pos : nat) : option tuple :=
  match n with
  | O => Some t
  | S n' =>
      match at_ o i, is_null o i with
      | Some v, Some b => match set t (pos + i) v b with Some t' => insert_loop n' (S i) t' o pos | None => None end
      | _, _ => None
      end
  end.
Definition insert (t o : tuple) (pos len : nat) : option tuple := insert_loop len 0 t o pos.
(** [Value::operator==], lines 161-166: the 8 bytes are compared, of a pointer the address *)
Definition value_eqb (v w : value) : bool :=
  match v, w with Raw a, Raw b => N.eqb a b | Ptr a i, Ptr b j => Nat.eqb a b && Nat.eqb i j | _, _ => false end.
(** [operator==], lines 306-314: iterates over the bits of [~null_mask_] *)
Fixpoint eq_loop (l : list N) (t o : tuple) : option bool :=
  match l with
  | [] => Some true
  | i :: l' =>
      match get t (N.to_nat i), get o (N.to_nat i) with
      | Some v, Some w => if value_eqb v w then eq_loop l' t o else Some false
      | _, _ => None
      end
  end.
Definition tuple_eq (t o : tuple) : option bool :=
  if N.eqb (mask t) (mask o) then match iterate 65 (sbs_not (mask t)) with Some l => eq_loop l t o | None => None end else Some false.
(** [std::hash<Value>], lines 330-345 (FNV-1a on the 8 bytes), and [std::hash<Tuple>], lines 347-360; the address of a buffer is a parameter *)
Definition hash_value (addr : nat -> nat -> N) (v : value) : N :=
  wrap (N.lxor 14695981039346656037 (match v with Raw b => b | Ptr a i => addr a i end) * 1099511628211).
Fixpoint hash_loop (addr : nat -> nat -> N) (l : list N) (t : tuple) (acc : N) : option N :=
  match l with
  | [] => Some acc
  | i :: l' => match at_ t (N.to_nat i) with Some v => hash_loop addr l' t (wrap (N.lxor acc (hash_value addr v) * 1099511628211)) | None => None end
  end.
Definition tuple_hash (addr : nat -> nat -> N) (t : tuple) : option N :=
  match iterate 65 (sbs_not (mask t)) with Some l => hash_loop addr l t 0%N | None => None end.
(** [clone], Tuple.cpp 131-143; [a] is the allocation of the copy.  [strcpy] needs a source buffer and room in the destination. *)
Fixpoint clone_loop (tys : list (option nat)) (i : nat) (t : tuple) (h : nat -> nat -> list N) (cpy : tuple) : option (tuple * (nat -> nat -> list N)) :=
  match tys with
  | [] => Some (cpy, h)
  | ty :: tys' =>
      match ty, at_ t i with
      | Some len, Some (Ptr b j) =>
          match at_ cpy i with
          | Some (Ptr c k) =>
              if Nat.leb (length (h b j)) len
              then match set_null cpy i false with
                   | Some cpy' => clone_loop tys' (S i) t (fun a' i' => if Nat.eqb a' c && Nat.eqb i' k then h b j else h a' i') cpy'
                   | None => None
                   end
              else None
          | _ => None
          end
      | None, Some v => match set cpy i v false with Some cpy' => clone_loop tys' (S i) t h cpy' | None => None end
      | _, _ => None
      end
  end.
Definition clone (a : nat) (tys : list (option nat)) (t : tuple) (h : nat -> nat -> list N) : option (tuple * (nat -> nat -> list N)) :=
  clone_loop tys 0 t (new_heap a h) (new_tuple a tys).

(** * Model of [Block] (src/backend/Interpreter.hpp 18-176), a vector of [cap <= 64] tuples with a mask of the alive ones *)
Record block := mkB { cap : N; bmask : N }.
(** line 61 *)
Definition block_new (c : N) : option block := if (1 <=? c)%N && (c <=? 64)%N then Some (mkB c 0) else None.
(** [size], [empty], [alive], lines 88-112 *)
Definition b_size (b : block) : N := popcount (bmask b).
Definition b_empty (b : block) : bool := N.eqb (b_size b) 0.
Definition b_alive (b : block) (i : N) : option bool := if (i <? cap b)%N then Some (negb (N.eqb (N.land (bmask b) (shl64 1 i)) 0)) else None.
(** [fill], lines 121-134: [-1UL >> (64 - capacity)] *)
Definition b_fill (b : block) : block := mkB (cap b) (N.shiftr (not64 0) (64 - cap b)).
(** [erase], lines 137-140 *)
Definition b_erase (b : block) (i : N) : option block := if (i <? cap b)%N then Some (mkB (cap b) (setbit64 (bmask b) false i)) else None.
(** [clear], lines 147-151 *)
Definition b_clear (b : block) : block := mkB (cap b) 0.
(** [mask(new_mask)], line 117 *)
Definition b_mask (b : block) (m : N) : block := mkB (cap b) m.
(** iteration, lines 36-54 and 90-95: [index] is [ctz] of the mask, [++] clears the lowest bit, [operator*] asserts that the tuple is alive *)
Fixpoint b_visit (fuel : nat) (b : block) (m : N) : option (list N) :=
  if N.eqb m 0 then Some []
  else match fuel with
       | O => None
       | S f => match b_alive b (ctz m) with
                | Some true => option_map (cons (ctz m)) (b_visit f b (N.land m (sub64 m 1)))
                | _ => None
                end
       end.
(** [at(index)], lines 98-101 *)
Definition b_at (b : block) (i : N) : option N := if (i <? cap b)%N then Some (N.land (bmask b) (shl64 (not64 0) i)) else None.
