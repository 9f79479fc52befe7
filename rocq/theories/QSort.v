(** * Model of src/util/algorithms.hpp: partitioning and quick sort.

    A random-access range is a list; iterators are indices.  The element type has a total preorder [le] ([operator<=]); the
    other comparison operators are derived from it, as they are for the arithmetic types the code is used with.  [lowest]
    and [highest] are [std::numeric_limits<T>::lowest()] and [max()].  [None] is a failed [M_insist]. *)
From Coq Require Import List Bool Arith.
Import ListNotations.

Section QSort.
  Context {A : Type}.
  Variable le : A -> A -> bool.
  Variables lowest highest d : A.
  Definition lt (a b : A) : bool := negb (le b a).
  Definition get (l : list A) (i : nat) : A := nth i l d.
  Definition set (l : list A) (i : nat) (x : A) : list A := firstn i l ++ x :: skipn (S i) l.
  Definition swap (l : list A) (i j : nat) : list A := set (set l i (get l j)) j (get l i).

  (** [std::max], [std::min] *)
  Definition maxA (a b : A) : A := if lt a b then b else a.
  Definition minA (a b : A) : A := if lt b a then b else a.

  (** [verify_partition], algorithms.hpp:18-30. *)
  Definition verify_partition (l : list A) (b m e : nat) : option bool :=
    if negb (lt lowest highest) then None else
    let max_lo := fold_left (fun acc p => maxA acc (get l p)) (seq b (m - b)) lowest in
    let min_hi := fold_left (fun acc p => minA acc (get l p)) (seq m (e - m)) highest in
    Some (le max_lo min_hi).

  (** [partition_predicated_naive::operator()], algorithms.hpp:36-62; the loop makes at most [2 * (end - begin) + 1]
      iterations (proved: the bound is never reached). *)
  Fixpoint part_loop (pivot : A) (fuel : nat) (l : list A) (b e : nat) : option (list A * nat) :=
    match fuel with
    | O => None
    | S f =>
        if b <? e then
          let left := get l b in
          let right := get l (e - 1) in
          let l' := set (set l b right) (e - 1) left in
          part_loop pivot f l' (if le right pivot then b + 1 else b) (if le pivot left then e - 1 else e)
        else Some (l, b)
    end.
  Definition partition_naive (pivot : A) (l : list A) (b e : nat) : option (list A * nat) :=
    match part_loop pivot (2 * (e - b) + 2) l b e with
    | None => None
    | Some (l', b') => if (b' =? e) || le pivot (get l' b') then Some (l', b') else None
    end.

  (** [std::is_sorted]. *)
  Definition is_sorted (l : list A) (b e : nat) : bool :=
    forallb (fun i => le (get l i) (get l (i + 1))) (seq b (e - b - 1)).

  (** The median-of-three step, algorithms.hpp:76-100. *)
  Definition median3 (l : list A) (b e : nat) : list A :=
    let pm := b + (e - b) / 2 in
    let left_le_mid := le (get l b) (get l pm) in
    let left_le_right := le (get l b) (get l (e - 1)) in
    let mid_le_right := le (get l pm) (get l (e - 1)) in
    if left_le_mid then
      if left_le_right then if mid_le_right then swap l b pm else swap l b (e - 1) else l
    else
      if mid_le_right then if left_le_right then l else swap l b (e - 1) else swap l b pm.

  Variable part : A -> list A -> nat -> nat -> option (list A * nat).

  (** [qsort], algorithms.hpp:64-119; [fuel] bounds loop iterations and recursion depth. *)
  Fixpoint qsort (fuel : nat) (l : list A) (b e : nat) : option (list A) :=
    match fuel with
    | O => None
    | S f =>
        if e <? b then None else
        if 2 <? e - b then
          let l1 := median3 l b e in
          match part (get l1 b) l1 (b + 1) e with
          | None => None
          | Some (l2, mid) =>
              if (e <? mid) || (mid <? b + 1) then None else
              match verify_partition l2 (b + 1) mid e with
              | Some true =>
                  let l3 := swap l2 b (mid - 1) in
                  match (if 2 <=? e - mid then qsort f l3 mid e else Some l3) with
                  | None => None
                  | Some l4 => if is_sorted l4 mid e then qsort f l4 b (mid - 1) else None
                  end
              | _ => None
              end
          end
        else if e - b =? 2 then (if lt (get l (e - 1)) (get l b) then Some (swap l b (e - 1)) else Some l)
        else Some l
    end.
End QSort.
