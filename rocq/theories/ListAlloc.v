(** * Model of include/mutable/util/list_allocator.hpp.

    Addresses and sizes are [Z]; a chunk is its address and its header word [value_] (effective size, with the deallocation mark in
    the highest bit).  The list of unused chunks ([chunks_], a [doubly_linked_list] whose nodes live inside the chunks) is a Coq list;
    the pointer representation of that list is the subject of the doubly-linked-list model.  [mem] is the word memory in which the
    size of a used chunk is kept (behind the client's bytes, lines 282-293).  The operating system is a parameter: it answers each
    [mmap] with an address range that overlaps no mapped range. *)
From Coq Require Import List Bool ZArith.
Import ListNotations.
Local Open Scope Z_scope.

Notation chunk := (Z * Z)%type (only parsing).
Definition BIT : Z := 2 ^ 63.                                                   (* DEALLOCATION_BIT_MASK, line 102 *)
Definition marked (v : Z) : bool := BIT <=? v.                                  (* line 305 *)
Definition ext (v : Z) : Z := v mod BIT.                                        (* extract_size, line 306 *)
Definition ceil_mult (x p : Z) : Z := (x + p - 1) / p * p.                      (* ceil_to_multiple_of_pow_2, see C05 *)
Definition size_of_header : Z := 16.                                            (* sizeof(header_type): two words *)
Definition size_addr (ptr size : Z) : Z := ceil_mult (ptr + size) 8.            (* size_of_used_chunk, lines 282-293 *)

Record lst := mkL { fl : list chunk; min_size : Z; expo : bool; mem : Z -> Z; regions : list (Z * Z) }.

Definition upd (m : Z -> Z) (a v : Z) : Z -> Z := fun x => if x =? a then v else m x.
Definition is_unaligned (a al : Z) : bool := if al =? 0 then false else negb (a mod al =? 0).    (* lines 264-267 *)

(** The search loop, lines 184-197: [(chunks before, chunk, chunks after)]. *)
Fixpoint find_fit (l : list chunk) (size al : Z) : option (list chunk * chunk * list chunk) :=
  match l with
  | [] => None
  | (a, v) :: l' =>
      if (ext v - 8 <? size) || is_unaligned a al then
        match find_fit l' size al with Some (p, c, q) => Some ((a, v) :: p, c, q) | None => None end
      else Some ([], (a, v), l')
  end.
(** [insert_chunk_sorted], lines 338-342: the comparison is between the address of the header's value field and the chunk. *)
Fixpoint insert_pos (l : list chunk) (a : Z) : list chunk * list chunk :=
  match l with
  | [] => ([], [])
  | (b, v) :: l' => if b + 8 <? a then let '(p, q) := insert_pos l' a in ((b, v) :: p, q) else ([], l)
  end.
(** [coalesce], lines 434-472, of a chunk with the chunks that follow it. *)
Definition coalesce (c : chunk) (rest : list chunk) : chunk * list chunk :=
  match rest with
  | [] => (c, rest)
  | (b, w) :: rest' =>
      if marked w then (c, rest)
      else if fst c + ext (snd c) =? b then ((fst c, snd c + ext w), rest') else (c, rest)
  end.
(** [reclaim_chunk], lines 347-355.  [coalesce(std::prev(pos))] is the last step: [pre] is the list before [pos], its last element is
    [prev]. *)
Fixpoint coalesce_last (pre : list chunk) (c : chunk) (rest : list chunk) : list chunk :=
  match pre with
  | [] => c :: rest
  | [p] => let '(p', r) := coalesce p (c :: rest) in p' :: r
  | p :: pre' => p :: coalesce_last pre' c rest
  end.
Definition reclaim (l : list chunk) (a v : Z) : list chunk :=
  let '(pre, post) := insert_pos l a in
  let '(c, rest) := coalesce (a, v) post in
  coalesce_last pre c rest.

(** [add_fresh_chunk], lines 360-396, with [aligned_mmap], lines 488-520.  [PG] is the page size; [p] is the address returned by the
    system call; the result is the aligned address, its size, and the number of bytes requested from the system. *)
Definition fresh_size (PG : Z) (s : lst) (size : Z) : Z := ceil_mult (Z.max (size + 8) (min_size s)) PG.
Definition mmap_len (PG : Z) (s : lst) (size al : Z) : Z :=
  let eal := Z.max al PG in if eal =? PG then fresh_size PG s size else fresh_size PG s size + eal.
Definition aligned_addr (PG al p : Z) : Z := let eal := Z.max al PG in if eal =? PG then p else ceil_mult p eal.

(** [allocate], lines 176-217, after the chunk [(a, v)] was found between [pre] and [post]: optional split (lines 204-213 and
    [split_unused_chunk], lines 401-430), unlinking, and writing the size behind the client's memory. *)
Definition take (s : lst) (pre : list chunk) (c : chunk) (post : list chunk) (size : Z) : lst * Z :=
  let '(a, v) := c in
  let eff := ext v in
  if (size_of_header + size + 8 <=? eff) && (size * 2 <=? eff - 8) then
    let first := ceil_mult (Z.max (size + 8) size_of_header) 8 in
    let v1 := first + (if marked v then BIT else 0) in
    (mkL (pre ++ (a + first, eff - first) :: post) (min_size s) (expo s) (upd (mem s) (size_addr a size) v1) (regions s), a)
  else (mkL (pre ++ post) (min_size s) (expo s) (upd (mem s) (size_addr a size) v) (regions s), a).
Definition allocate (PG : Z) (s : lst) (size al : Z) (p : Z) : lst * Z :=
  match find_fit (fl s) size al with
  | Some (pre, c, post) => take s pre c post size
  | None =>
      let a := aligned_addr PG al p in
      let n := fresh_size PG s size in
      let '(pre, post) := insert_pos (fl s) a in
      take (mkL (fl s) (if expo s then 2 * min_size s else min_size s) (expo s) (mem s) ((a, n) :: regions s)) pre (a, n + BIT) post size
  end.
(** [deallocate], lines 219-223 *)
Definition deallocate (s : lst) (ptr size : Z) : lst :=
  mkL (reclaim (fl s) ptr (mem s (size_addr ptr size))) (min_size s) (expo s) (mem s) (regions s).

(** The system grants [len] bytes at page-aligned address [p] that overlap no mapped range. *)
Definition granted (PG : Z) (s : lst) (p len : Z) : Prop :=
  0 < p /\ p mod PG = 0 /\ p + len <= BIT /\ forall b n, In (b, n) (regions s) -> p + len <= b \/ b + n <= p.
(** Words that belong to the list nodes of unused chunks; maintaining the list may change any of them. *)
Definition header_word (l : list chunk) (x : Z) : Prop := exists a v, In (a, v) l /\ a <= x < a + size_of_header.
(** Words overlapping client memory *)
Definition client_word (ptr size x : Z) : Prop := x mod 8 = 0 /\ x + 8 > ptr /\ x < ptr + size.

(** A block in use: address, requested size, requested alignment. *)
Notation block := (Z * Z * Z)%type (only parsing).
Inductive lreach (PG : Z) : lst -> list block -> Prop :=
| l_init m : 0 < m -> m mod PG = 0 -> forall e f, lreach PG (mkL [] m e f []) []
| l_init_size m p : 0 < m -> m mod PG = 0 -> forall e f, granted PG (mkL [] m e f []) p (fresh_size PG (mkL [] m e f []) 1) ->
    (* the constructor with an initial size, lines 153-156 *)
    lreach PG (mkL [(p, fresh_size PG (mkL [] m e f []) 1 + BIT)] (if e then 2 * m else m) e f [(p, fresh_size PG (mkL [] m e f []) 1)]) []
| l_alloc s live size al p s' ptr f : lreach PG s live -> 0 < size < BIT -> (al = 0 \/ exists k, 0 <= k /\ al = 2 ^ k) ->
    (find_fit (fl s) size al = None -> granted PG s p (mmap_len PG s size al)) ->
    allocate PG s size al p = (s', ptr) ->
    (forall x, f x = mem s' x \/ header_word (fl s) x \/ header_word (fl s') x \/ ptr <= x < ptr + size_of_header) ->
    (forall x, x = size_addr ptr size -> f x = mem s' x) ->
    lreach PG (mkL (fl s') (min_size s') (expo s') f (regions s')) ((ptr, size, al) :: live)
| l_free s l1 ptr size al l2 s' f : lreach PG s (l1 ++ (ptr, size, al) :: l2) -> deallocate s ptr size = s' ->
    (forall x, f x = mem s' x \/ header_word (fl s) x \/ header_word (fl s') x \/ ptr <= x < ptr + size_of_header) ->
    lreach PG (mkL (fl s') (min_size s') (expo s') f (regions s')) (l1 ++ l2)
| l_write s live ptr size al f : lreach PG s live -> In (ptr, size, al) live ->
    (forall x, f x = mem s x \/ client_word ptr size x) ->
    lreach PG (mkL (fl s) (min_size s) (expo s) f (regions s)) live.

(** The destructor, lines 163-173: the address ranges it unmaps. *)
Definition unmapped (s : lst) : list (Z * Z) :=
  map (fun c => (fst c, ext (snd c))) (filter (fun c => marked (snd c)) (fl s)).
