(** * Model of [SmallBitset] and the subset enumerators of include/mutable/util/ADT.hpp.

    A [SmallBitset] is its only field [bits_] (ADT.hpp:57), a 64-bit word.  Methods guarded by [M_insist] or throwing
    return [option]: [None] is "assertion failure / exception / undefined behaviour". *)
From Coq Require Import NArith List Bool.
From Verif Require Import Word.
Import ListNotations.
Open Scope N_scope.

Definition sbs := N.

Definition CAPACITY : N := 64.                                              (* ADT.hpp:27 *)

(** [Proxy::operator bool], ADT.hpp:42-44: [M_insist(offset < CAPACITY)], then [(bits_ >> offset) & 1]. *)
Definition sbs_get (s : sbs) (offset : N) : option bool :=
  if offset <? CAPACITY then Some (N.land (N.shiftr s offset) 1 =? 1) else None.

(** [setbit], include/mutable/util/fn.hpp:441-445: [*bytes ^= (-T(value) ^ *bytes) & (T(1) << n)]. *)
Definition setbit64 (bytes : N) (value : bool) (n : N) : N :=
  N.lxor bytes (N.land (N.lxor (if value then neg64 1 else 0) bytes) (shl64 1 n)).

(** [Proxy::operator=(bool)], ADT.hpp:46-48. *)
Definition sbs_set (s : sbs) (offset : N) (v : bool) : option sbs :=
  if offset <? CAPACITY then Some (setbit64 s v offset) else None.

(** [All(n)], ADT.hpp:117-122. *)
Definition sbs_All (n : N) : option sbs :=
  if n <=? CAPACITY then
    Some (if n =? CAPACITY then not64 0 else sub64 (shl64 1 n) 1)
  else None.

(** [Singleton(n)], ADT.hpp:125-128. *)
Definition sbs_Singleton (n : N) : option sbs :=
  if n <? CAPACITY then Some (shl64 1 n) else None.

(** [size()], [empty()], [is_singleton()], ADT.hpp:161-165. *)
Definition sbs_size (s : sbs) : N := popcount s.
Definition sbs_empty (s : sbs) : bool := s =? 0.
Definition sbs_is_singleton (s : sbs) : bool := sbs_size s =? 1.

(** [hi()], ADT.hpp:168-171: [Singleton(64 - lz - 1U)]; for the empty set [lz = 64], the unsigned subtraction wraps
    around and [Singleton]'s [M_insist] fails. *)
Definition sbs_hi (s : sbs) : option sbs :=
  if clz s <? 64 then sbs_Singleton (64 - clz s - 1) else None.

(** [operator~], ADT.hpp:191; [is_subset], ADT.hpp:194. *)
Definition sbs_not (s : sbs) : sbs := not64 s.
Definition sbs_is_subset (s other : sbs) : bool := s =? N.land other s.

(** [mask_to_lo], ADT.hpp:197-204 ([_blsmsk_u64] and the portable variant compute the same function). *)
Definition sbs_mask_to_lo (s : sbs) : option sbs :=
  if sbs_empty s then None else Some (N.lxor s (sub64 s 1)).

(** [singleton_to_lo_mask], ADT.hpp:207-210. *)
Definition sbs_singleton_to_lo_mask (s : sbs) : option sbs :=
  if sbs_is_singleton s then Some (sub64 s 1) else None.

(** [unify], [intersect], [subtract], ADT.hpp:213-223. *)
Definition sbs_union (l r : sbs) : sbs := N.lor l r.
Definition sbs_inter (l r : sbs) : sbs := N.land l r.
Definition sbs_diff (l r : sbs) : sbs := N.land l (not64 r).

(** [operator++] / [operator--], ADT.hpp:232-245. *)
Definition sbs_incr (s : sbs) : option sbs := if not64 s =? 0 then None else Some (add64 s 1).
Definition sbs_decr (s : sbs) : option sbs := if s =? 0 then None else Some (sub64 s 1).

(** [iterator::operator*], [operator++], [as_set], ADT.hpp:70-87. *)
Definition it_deref (bits : N) : option N := if bits =? 0 then None else Some (ctz bits).
Definition it_next (bits : N) : N := N.land bits (sub64 bits 1).
Definition it_as_set (bits : N) : sbs := N.land bits (neg64 bits).

(** [reverse_iterator::operator*] and [operator++], ADT.hpp:101-108. *)
Definition rit_deref (bits : N) : option N := if bits =? 0 then None else Some (64 - 1 - clz bits).
Definition rit_next (bits : N) : option N :=
  match rit_deref bits with Some i => Some (N.land bits (not64 (shl64 1 i))) | None => None end.

(** A range-for loop over the set: [for (i : S)], i.e. [it = begin(); it != end(); ++it] collecting [*it].
    [begin() = iterator(bits_)], [end() = iterator(0)], ADT.hpp:173-181.  [None] = out of fuel or failed assertion. *)
Fixpoint iterate (fuel : nat) (bits : N) : option (list N) :=
  match fuel with
  | O => None
  | S f => if bits =? 0 then Some []
           else match it_deref bits, iterate f (it_next bits) with
                | Some i, Some l => Some (i :: l)
                | _, _ => None
                end
  end.
Fixpoint riterate (fuel : nat) (bits : N) : option (list N) :=
  match fuel with
  | O => None
  | S f => if bits =? 0 then Some []
           else match rit_deref bits, rit_next bits with
                | Some i, Some b' => match riterate f b' with Some l => Some (i :: l) | None => None end
                | _, _ => None
                end
  end.

(** [least_subset], ADT.hpp:267; [next_subset], ADT.hpp:270-273. *)
Definition least_subset (s : sbs) : sbs := N.land s (neg64 s).
Definition next_subset (subset set : sbs) : sbs := N.land (sub64 subset set) set.

(** The subset loop used by the plan enumerators (src/IR/PlanEnumerator.cpp:51,182,217,256,609):
    [for (O = least_subset(S); O != stop; O = next_subset(O, S))]. *)
Fixpoint subset_loop (fuel : nat) (cur S stop : sbs) : option (list sbs) :=
  match fuel with
  | O => None
  | Datatypes.S f => if cur =? stop then Some []
           else option_map (cons cur) (subset_loop f (next_subset cur S) S stop)
  end.

(** ** [GospersHack], ADT.hpp:829-882 *)
Record gosper := { gh_set : sbs; gh_limit : N }.

(** [enumerate_all(k, n)], ADT.hpp:839-846. *)
Definition gh_enumerate_all (k n : N) : option gosper :=
  if (k <=? n) && (n <? 64) then
    match sbs_All k with
    | Some s => Some {| gh_set := s; gh_limit := shl64 1 n |}
    | None => None
    end
  else None.

(** [enumerate_from(set, n)], ADT.hpp:849-856. *)
Definition gh_enumerate_from (s : sbs) (n : N) : option gosper :=
  if n <? 64 then
    if s <=? shl64 1 n then Some {| gh_set := s; gh_limit := shl64 1 n |} else None
  else None.

(** [_pext_u64(src, mask)] (BMI2): gather the bits of [src] selected by [mask] into the low bits. Recursion over bit
    positions; [i] is the current bit, [k] the next destination bit. *)
Fixpoint pext_loop (n : nat) (i k : N) (src mask : N) : N :=
  match n with
  | O => 0
  | S n' =>
      if N.testbit mask i then
        N.lor (if N.testbit src i then N.shiftl 1 k else 0) (pext_loop n' (i + 1) (k + 1) src mask)
      else pext_loop n' (i + 1) k src mask
  end.
Definition pext64 (src mask : N) : N := pext_loop 64 0 0 src mask.

(** [_pdep_u64], include/mutable/util/fn.hpp:809-824 (the portable version; the BMI2 intrinsic is the same function).
    The loop state is [(i, srcBit = 1 << k)]; [result] is accumulated by [|=]. *)
Fixpoint pdep_loop (n : nat) (i k : N) (src mask : N) : N :=
  match n with
  | O => 0
  | S n' =>
      if N.testbit mask i then
        N.lor (if N.testbit src k then N.shiftl 1 i else 0) (pdep_loop n' (i + 1) (k + 1) src mask)
      else pdep_loop n' (i + 1) k src mask
  end.
Definition pdep64 (src mask : N) : N := pdep_loop 64 0 0 src mask.

(** [operator++] with BMI2, ADT.hpp:859-875. *)
Definition gh_next_bmi2 (s : sbs) : sbs :=
  let c := N.land s (neg64 s) in
  let r := add64 s c in
  let m := N.lxor r s in
  let l := pext64 m m in
  N.lor (N.shiftr l 2) r.

(** [operator++] without BMI2, ADT.hpp:859-875: [__builtin_popcount] takes a 32-bit [unsigned int], so [m] is
    truncated to 32 bits. *)
Definition gh_next_portable (s : sbs) : sbs :=
  let c := N.land s (neg64 s) in
  let r := add64 s c in
  let m := N.lxor r s in
  let l := sub64 (shl64 1 (popcount (m mod 2 ^ 32))) 1 in
  N.lor (N.shiftr l 2) r.

(** [for (auto S = GospersHack::enumerate_all(k, n); S; ++S) visit( *S )]; [operator bool]: ADT.hpp:878. *)
Fixpoint gh_loop (next : sbs -> sbs) (fuel : nat) (g : gosper) : option (list sbs) :=
  match fuel with
  | O => None
  | S f => if gh_set g <? gh_limit g
           then option_map (cons (gh_set g))
                  (gh_loop next f {| gh_set := next (gh_set g); gh_limit := gh_limit g |})
           else Some []
  end.

(** ** [SubsetEnumerator], ADT.hpp:885-907 *)
Definition se_make (set : sbs) (size : N) : option gosper := gh_enumerate_all size (sbs_size set).
Definition se_deref (set : sbs) (g : gosper) : sbs := pdep64 (gh_set g) set.
Fixpoint se_loop (next : sbs -> sbs) (set : sbs) (fuel : nat) (g : gosper) : option (list sbs) :=
  match fuel with
  | O => None
  | S f => if gh_set g <? gh_limit g
           then option_map (cons (se_deref set g))
                  (se_loop next set f {| gh_set := next (gh_set g); gh_limit := gh_limit g |})
           else Some []
  end.
