(** * Model of src/util/container/RefCountingHashMap.hpp.

    The table is a list of slots; slot numbers, sizes and probe lengths are [Z] (non-negative).  A slot with probe length 0 is
    free; it still holds the value-initialised pair [(dk, dv)] that [initialize] constructs (RefCountingHashMap.hpp:403-406).
    Load factors are multiples of 2^-24 (the precision of a [float] in [0.5, 1)), represented by their numerator; products with
    and quotients by them are exact instead of rounded to [float].  [None] stands for a failed [M_insist], undefined behaviour,
    or a failed allocation; tables of more than 2^31 slots count as failed allocations (beyond that size the 32-bit probe
    distance of line 221 no longer covers the table). *)
From Coq Require Import List Bool ZArith Lia.
From Verif Require Import Arith.
Import ListNotations.
Local Open Scope Z_scope.

Fixpoint upd {A} (l : list A) (i : nat) (x : A) : list A :=
  match l, i with [], _ => [] | _ :: l', O => x :: l' | y :: l', S i' => y :: upd l' i' x end.

Section RCHash.
  Context {K V : Type}.
  Variable hash : K -> Z.                 (* hasher *)
  Variable eqb : K -> K -> bool.          (* key_equal *)
  Variable dk : K. Variable dv : V.       (* Key(), Value() *)

  Record slot := mkSlot { pl : Z; skey : K; sval : V }.       (* entry_type, lines 45-52 *)
  Definition free_slot : slot := mkSlot 0 dk dv.
  Record hmap := mkMap { cap : Z; tab : list slot; size : Z; wm : Z; ml : Z }.

  Definition ONE := 16777216.             (* 1.0 *)
  Definition ML_DEFAULT := 14260634.      (* .85f *)
  Definition ML_MAX := 16609444.          (* .99f *)
  Definition MAXCAP := 2147483648.

  Definition masked (c i : Z) : Z := Z.land i (c - 1).        (* lines 188-189 *)
  Definition get (t : list slot) (i : Z) : slot := nth (Z.to_nat i) t free_slot.
  Definition set (t : list slot) (i : Z) (x : slot) : list slot := upd t (Z.to_nat i) x.
  Definition occ (s : slot) : bool := negb (pl s =? 0).
  Definition kv (s : slot) : K * V := (skey s, sval s).
  Definition ceil_pow2 (n : Z) : option Z := option_map Z.of_N (ceil_to_pow_2 64 (Z.to_N n)).

  (** Constructor, lines 161-177. *)
  Definition create (bucket_count : Z) : option hmap :=
    if bucket_count =? 0 then None else
    match ceil_pow2 bucket_count with
    | None => None
    | Some c => if MAXCAP <? c then None else Some (mkMap c (repeat free_slot (Z.to_nat c)) 0 (c * ML_DEFAULT / ONE) ML_DEFAULT)
    end.

  (** [max_load_factor(float)], lines 191-194 *)
  Definition set_max_load_factor (x : Z) (m : hmap) : hmap :=
    let x := Z.max 0 (Z.min x ML_MAX) in mkMap (cap m) (tab m) (size m) (x * cap m / ONE) x.

  (** The probing loop of [insert_with_duplicates], lines 228-232; the loop increments the bucket's probe length [p] in place,
      here it is carried along. *)
  Fixpoint probe_dup (fuel : nat) (t : list slot) (c index p distance : Z) : option (Z * Z) :=
    match fuel with
    | O => None
    | S f =>
        let i := masked c (index + distance) in
        if pl (get t i) =? 0 then Some (i, p) else probe_dup f t c index (p + 1) (distance + (p + 1))
    end.
  (** [insert_with_duplicates] after the growth check, lines 209-240.  Returns the new map and the slot of the iterator. *)
  Definition insert_dup_core (k : K) (v : V) (m : hmap) : option (hmap * Z) :=
    let c := cap m in
    let index := masked c (hash k) in
    let b := get (tab m) index in
    if pl b =? 0 then Some (mkMap c (set (tab m) index (mkSlot (pl b + 1) k v)) (size m + 1) (wm m) (ml m), index) else
    let distance := ((pl b * pl b + pl b) mod 2 ^ 32) / 2 in          (* uint32_t arithmetic *)
    if distance =? 0 then None else                                      (* M_insist(distance > 0) *)
    if masked c (index + distance) =? index then None else               (* M_insist(probe != bucket) *)
    match probe_dup (S (Z.to_nat c)) (tab m) c index (pl b) distance with
    | None => None
    | Some (i, p) =>
        let t1 := set (tab m) i (mkSlot 1 k v) in
        let t2 := set t1 index (mkSlot (p + 1) (skey b) (sval b)) in
        Some (mkMap c t2 (size m + 1) (wm m) (ml m), i)
    end.

  (** The re-insertion loop of [rehash], lines 333-338, given the insertion function. *)
  Fixpoint reinsert (ins : K -> V -> hmap -> option (hmap * Z)) (old : list slot) (m : hmap) : option hmap :=
    match old with
    | [] => Some m
    | s :: old' =>
        if occ s then match ins (skey s) (sval s) m with None => None | Some (m', _) => reinsert ins old' m' end
        else reinsert ins old' m
    end.
  (** [rehash(new_capacity)], lines 320-341. *)
  Definition rehash_to (ins : K -> V -> hmap -> option (hmap * Z)) (nc : Z) (m : hmap) : option hmap :=
    if negb (is_pow_2 64 (Z.to_N nc)) then None else
    if wm m <? size m then None else                                     (* M_insist(size_ <= watermark_high_) *)
    if MAXCAP <? nc then None else
    reinsert ins (tab m) (mkMap nc (repeat free_slot (Z.to_nat nc)) 0 (wm m) (ml m)).

  (** [resize(new_capacity)], lines 346-355, and the growth check of the insertions, lines 206-207/243-244.  [resize], [rehash]
      and [insert_with_duplicates] call each other; [depth] bounds the nesting. *)
  Fixpoint resize_ (depth : nat) (nc0 : Z) (m : hmap) {struct depth} : option hmap :=
    match depth with
    | O => None
    | S d =>
        if ml m =? 0 then None else                                      (* division by zero, conversion of inf/NaN *)
        match ceil_pow2 (Z.max nc0 ((size m * ONE + ml m - 1) / ml m)) with
        | None => None
        | Some nc =>
            if nc =? cap m then Some m else
            let m1 := mkMap (cap m) (tab m) (size m) (nc * ml m / ONE) (ml m) in
            if wm m1 <? size m1 then None else                           (* M_insist(watermark_high() >= size()) *)
            rehash_to (fun k v m' =>
              match (if wm m' <=? size m' then resize_ d (2 * cap m') m' else Some m') with
              | None => None
              | Some m'' => insert_dup_core k v m''
              end) nc m1
        end
    end.
  Definition DEPTH := 3%nat.
  Definition resize (nc : Z) (m : hmap) : option hmap := resize_ DEPTH nc m.
  Definition grow (m : hmap) : option hmap := if wm m <=? size m then resize (2 * cap m) m else Some m.
  Definition insert_with_duplicates (k : K) (v : V) (m : hmap) : option (hmap * Z) :=
    match grow m with None => None | Some m' => insert_dup_core k v m' end.
  (** [rehash()], line 344 *)
  Definition rehash (m : hmap) : option hmap := rehash_to insert_with_duplicates (cap m) m.
  (** [shrink_to_fit()], line 357 *)
  Definition shrink_to_fit (m : hmap) : option hmap := resize (size m) m.

  (** The probing loop of [insert_without_duplicates], lines 253-259: [inl] slot of the duplicate, [inr] free slot and length. *)
  Fixpoint probe_nodup (fuel : nat) (t : list slot) (c index : Z) (k : K) (i p distance : Z) : option (Z + Z * Z) :=
    match fuel with
    | O => None
    | S f =>
        if pl (get t i) =? 0 then Some (inr (i, p)) else
        if eqb k (skey (get t i)) then Some (inl i) else
        probe_nodup f t c index k (masked c (index + (distance + (p + 1)))) (p + 1) (distance + (p + 1))
    end.
  (** [insert_without_duplicates], lines 242-266: map, slot of the iterator, inserted? *)
  Definition insert_without_duplicates (k : K) (v : V) (m0 : hmap) : option (hmap * Z * bool) :=
    match grow m0 with
    | None => None
    | Some m =>
        let c := cap m in
        let index := masked c (hash k) in
        match probe_nodup (S (Z.to_nat c)) (tab m) c index k index 0 0 with
        | None => None
        | Some (inl i) => Some (m, i, false)
        | Some (inr (i, p)) =>
            let t1 := set (tab m) i (mkSlot (pl (get (tab m) i) + 1) (skey (get (tab m) i)) (sval (get (tab m) i))) in
            let t2 := set t1 index (mkSlot (p + 1) (skey (get t1 index)) (sval (get t1 index))) in
            let t3 := set t2 i (mkSlot (pl (get t2 i)) k v) in
            Some (mkMap c t3 (size m + 1) (wm m) (ml m), i, true)
        end
    end.

  (** [find], lines 268-297 (the active branch); [None] is [end()]. *)
  Fixpoint find_loop (n : nat) (t : list slot) (c index : Z) (k : K) (i p distance : Z) : option Z :=
    match n with
    | O => None                                                            (* lookup_probe_length == bucket->probe_length *)
    | S n' =>
        if pl (get t i) =? 0 then None else
        if eqb k (skey (get t i)) then Some i else
        find_loop n' t c index k (masked c (index + (distance + (p + 1)))) (p + 1) (distance + (p + 1))
    end.
  Definition find (k : K) (m : hmap) : option Z :=
    let index := masked (cap m) (hash k) in
    find_loop (Z.to_nat (pl (get (tab m) index))) (tab m) (cap m) index k index 0 0.

  (** [bucket(key)] and the bucket iterator, lines 91-137, 302-310; [for_all], lines 312-317: the visited entries. *)
  Fixpoint for_all_loop (n : nat) (t : list slot) (c : Z) (k : K) (step i : Z) : list (K * V) :=
    match n with
    | O => []
    | S n' =>
        (if eqb k (skey (get t i)) then [kv (get t i)] else []) ++
        for_all_loop n' t c k (step + 1) (masked c (i + (step + 1)))
    end.
  Definition for_all (k : K) (m : hmap) : list (K * V) :=
    let index := masked (cap m) (hash k) in
    for_all_loop (Z.to_nat (pl (get (tab m) index))) (tab m) (cap m) k 0 index.
  (** [count], lines 324-328 *)
  Definition count (k : K) (m : hmap) : nat := length (for_all k m).

  (** [the_iterator::operator++], lines 75-80, [begin]/[end], lines 197-202: the slots visited by [for (auto it = begin(); it != end(); ++it)]. *)
  Fixpoint next_slot (fuel : nat) (t : list slot) (c i : Z) : Z :=
    match fuel with
    | O => i
    | S f => let i' := i + 1 in if negb (i' =? c) && (pl (get t i') =? 0) then next_slot f t c i' else i'
    end.
  Fixpoint iterate_from (fuel : nat) (t : list slot) (c i : Z) : list Z :=
    match fuel with
    | O => []
    | S f => if i =? c then [] else i :: iterate_from f t c (next_slot (S (Z.to_nat c)) t c i)
    end.
  Definition iterate (m : hmap) : list (K * V) :=
    map (fun i => kv (get (tab m) i)) (iterate_from (S (Z.to_nat (cap m))) (tab m) (cap m) 0).
End RCHash.
