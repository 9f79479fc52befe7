(** * Model of the linear allocator: src/util/memory.cpp, lines 117-208, include/mutable/util/memory.hpp, lines 140-166.

    [size_t] is modelled by [N] with the page arithmetic of Arith.v (64-bit).  The memory file is represented by its size; mapping
    and unmapping of the pages in the address space are left to the operating system.  [ftruncate] fails beyond the maximal file
    size 2^63-1 ([off_t]).  The vector [allocations_] is represented back to front: the head is [*rbegin()]. *)
From Coq Require Import List Bool NArith.
From Verif Require Import Arith.
Import ListNotations.
Local Open Scope N_scope.

Definition MSB : N := 2 ^ 63.                                             (* lines 144-145 *)
Definition mark (o : N) : N := N.lor o MSB.                               (* line 149 *)
Definition is_marked (o : N) : bool := negb (N.land o MSB =? 0).          (* line 152 *)
Definition unmarked (o : N) : N := N.ldiff o MSB.                         (* line 155 *)
Definition MAX_FILE : N := 2 ^ 63 - 1.

Record la := mkLA { off : N; allocs : list N; fsize : N }.
Definition la_init : la := mkLA 0 [] 0.

(** A [Memory] object: offset in the memory file and size. *)
Notation memory := (N * N)%type (only parsing).

Inductive alloc_result := AEmpty | AFail (s : la) | AOk (s : la) (m : memory).
(** [LinearAllocator::allocate], lines 117-139.  [P] is the page size.  [AEmpty] is the default-constructed [Memory] (which is never
    passed to [deallocate]); [AFail] is a failed [M_insist] or an exception, with the state left behind.  [mmap_ok] is the answer of
    the operating system to the [mmap] request, which it never grants for 2^63 bytes or more. *)
Definition allocate (P : N) (s : la) (size : N) (mmap_ok : bool) : alloc_result :=
  if size =? 0 then AEmpty else
  let aligned := ceil_to_next_page P size in
  if aligned <? size then AFail s else
  let fs := wr 64 (off s + aligned) in
  if MAX_FILE <? fs then AFail s else                                              (* ftruncate *)
  if negb mmap_ok || (MSB <=? aligned) then AFail (mkLA (off s) (allocs s) fs) else    (* mmap *)
  AOk (mkLA fs (off s :: allocs s) fs) (off s, aligned).

(** Lines 176-187: the loop that determines the new size of the file; [l] starts at the allocation just freed. *)
Fixpoint reclaim (l : list N) (new_size : N) {struct l} : N * list N :=
  match l with
  | [] => (new_size, [])
  | x :: l' => if is_marked x then reclaim l' (unmarked x) else (new_size, l)
  end.
(** [std::find(rbegin, rend, offset)] and [*it = mark_for_deallocation(offset)], lines 164, 172 *)
Fixpoint mark_first (l : list N) (o : N) : option (list N) :=
  match l with
  | [] => None
  | x :: l' => if x =? o then Some (mark o :: l') else match mark_first l' o with Some r => Some (x :: r) | None => None end
  end.
(** [LinearAllocator::deallocate], lines 159-203; [None] is [std::invalid_argument]. *)
Definition deallocate (s : la) (m : memory) : option la :=
  match mark_first (allocs s) (fst m) with
  | None => None
  | Some l =>
      if match allocs s with x :: _ => x =? fst m | [] => false end then           (* it == allocations_.rbegin() *)
        let '(n, rest) := reclaim l 0 in Some (mkLA n rest n)
      else Some (mkLA (off s) l (fsize s))
  end.

(** Histories: a client allocates, and releases memory it owns.  [lr_fail] requires a request below 2^63 bytes. *)
Inductive la_reach (P : N) : la -> list memory -> Prop :=
| lr_init : la_reach P la_init []
| lr_alloc s live size ok s' m : la_reach P s live -> size < 2 ^ 64 -> allocate P s size ok = AOk s' m -> la_reach P s' (m :: live)
| lr_fail s live size ok s' : la_reach P s live -> size < 2 ^ 63 -> allocate P s size ok = AFail s' -> la_reach P s' live
| lr_free s l1 m l2 s' : la_reach P s (l1 ++ m :: l2) -> deallocate s m = Some s' -> la_reach P s' (l1 ++ l2).
