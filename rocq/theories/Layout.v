(** * Model of data layouts and stores

    include/mutable/storage/DataLayout.hpp, src/storage/DataLayoutFactory.cpp (row and PAX layouts),
    src/storage/{Row,Pax,Column}Store.{hpp,cpp}, and the address computation of src/backend/Interpreter.cpp.

    Sizes and offsets are in bits, as in the code.  64 bit arithmetic is modelled without wrap-around except for the one
    subtraction that can become negative; the 32 bit fields of the stores are truncated.  A type is represented by its size
    and alignment. *)
From Coq Require Import List Arith Lia Bool NArith ZArith.
From Verif Require Arith Types.
Import ListNotations.
Local Open Scope N_scope.

(** include/mutable/catalog/Type.hpp: [size()] and [alignment()] of the types, in bits. *)
Record type := mkType { tsize : N; talign : N }.
Definition BOOL := mkType 1 1.                                                  (* 244-245 *)
Definition CHAR (n : N) := mkType (8 * n) 8.                                    (* 314-321 *)
Definition VARCHAR (n : N) := mkType (8 * (n + 1)) 8.                           (* 314-321 *)
Definition DATE := mkType 32 32.                                                (* 349-350 *)
Definition DATETIME := mkType 64 64.                                            (* 378-379 *)
Definition NUMERIC (t : Types.numeric) :=
  mkType (Z.to_N (Types.size t)) (Z.to_N (Types.alignment t)).                  (* 433-442 *)
Definition INT (bytes : N) := NUMERIC (Types.Get_Integer Types.TY_Vector (Z.of_N bytes)).
Definition FLOAT := NUMERIC (Types.Get_Float Types.TY_Vector).
Definition DOUBLE := NUMERIC (Types.Get_Double Types.TY_Vector).
Definition DECIMAL (p s : N) := NUMERIC (Types.Get_Decimal Types.TY_Vector (Z.of_N p) (Z.of_N s)).

Definition ty (types : list type) (i : nat) : type := nth i types BOOL.

(** DataLayoutFactory.cpp 68-87: [compute_attribute_order]; the stable sort by descending alignment as insertion sort. *)
Fixpoint sort_insert (types : list type) (x : nat) (l : list nat) : list nat :=
  match l with
  | [] => [x]
  | y :: r => if talign (ty types x) <? talign (ty types y) then y :: sort_insert types x r else x :: l
  end.
Definition stable_sort (types : list type) (l : list nat) : list nat := fold_right (sort_insert types) [] l.
Definition compute_attribute_order (reorder : bool) (types : list type) : list nat :=
  let indices := seq 0 (length types) in
  if reorder then stable_sort types indices else indices.

Definition set (f : nat -> N) (i : nat) (x : N) : nat -> N := fun j => if Nat.eqb j i then x else f j.

(** The layout both factories make: an INode of [rows] tuples repeated with [block] bits stride; the leaves at their offset
    and with their stride in it; the leaf with index n is the NULL bitmap. *)
Record layout := mkLayout { rows : N; block : N; loffset : nat -> N; lstride : nat -> N }.

(** Lines 96-107: offsets of the attributes in a row, returning (offsets, offset_in_bits, alignment_in_bits). *)
Fixpoint row_offsets (types : list type) (order : list nat) (offs : nat -> N) (off al : N) : (nat -> N) * N * N :=
  match order with
  | [] => (offs, off, al)
  | i :: r => row_offsets types r (set offs i off) (off + tsize (ty types i)) (N.max al (talign (ty types i)))
  end.

(** Lines 112-114 (and 201-202): padding to a multiple of the alignment. *)
Definition pad (x al : N) : N := let rem := x mod al in if rem =? 0 then x else x + (al - rem).

(** Lines 89-131: [RowLayoutFactory::make]. *)
Definition row_layout (reorder remove_null : bool) (types : list type) : layout :=
  let n := length types in
  let '(offs, off, al) := row_offsets types (compute_attribute_order reorder types) (fun _ => 0) 0 8 in
  let size := pad (if remove_null then off else off + N.of_nat n) al in
  mkLayout 1 size (set offs n off) (fun _ => 0).

(** DataLayoutFactory.hpp 62-70. *)
Inductive block_size := NTuples (num_tuples : N) | NBytes (num_bytes : N).

(** Lines 142-158, loop: the smallest size in bytes and the number of attributes that are not byte aligned. *)
Definition size_in_bytes (t : type) : N := (tsize t + 7) / 8.
Definition min_size_in_bytes (types : list type) (order : list nat) : N :=
  fold_left (fun m i => N.min m (size_in_bytes (ty types i))) order (2 ^ 64 - 1).
Definition num_not_byte_aligned (types : list type) : N :=
  N.of_nat (length (filter (fun t => negb (tsize t mod 8 =? 0)) types)).

(** Lines 168, 173: floor to a multiple of the number of SIMD lanes. *)
Definition floor_lanes (lanes r : N) : N := if lanes <? r then (r / lanes) * lanes else r.

(** Lines 187-194: offsets of the columns in a block of [R] rows. *)
Fixpoint column_offsets (types : list type) (R : N) (order : list nat) (offs : nat -> N) (padding : N) : (nat -> N) * N :=
  match order with
  | [] => (offs, padding)
  | i :: r =>
      let bit := (tsize (ty types i) * R) mod 8 in
      column_offsets types R r (set offs i (offs i * R + padding)) (if bit =? 0 then padding else padding + (8 - bit))
  end.

(** [size_t] subtraction. *)
Definition sub64 (a b : N) : N := (a + 2 ^ 64 - b) mod 2 ^ 64.

(** Lines 161-185: rows per block and blocks per row; [row] is the size of a row and [k] the number of attributes that are
    not byte aligned. *)
Definition pax_rows (less : bool) (opt : block_size) (lanes row k : N) : N * N :=
  match opt with
  | NTuples t => (floor_lanes lanes t, 1)
  | NBytes b =>
      let r1 := floor_lanes lanes (N.max 1 (sub64 (b * 8) (k * 7) / row)) in
      ((if less && (1 <? r1) then r1 - 1 else r1), (row + b * 8 - 1) / (b * 8))
  end.

(** Lines 133-226: [PAXLayoutFactory::make].  [None]: no types, a division by zero (an attribute of size 0) or a NULL bitmap
    whose size is not representable.  The assertions of lines 191 and 207-210 are properties, not part of the model. *)
Definition pax_layout (reorder remove_null less : bool) (opt : block_size) (types : list type) : option layout :=
  match types with
  | [] => None
  | _ =>
    let n := length types in
    let order := compute_attribute_order reorder types in
    let '(offs0, off, al) := row_offsets types order (fun _ => 0) 0 8 in
    let m := min_size_in_bytes types order in
    let k := num_not_byte_aligned types in
    match (if remove_null then Some 0 else option_map (fun p => N.max p 8) (Arith.ceil_to_pow_2 64 (N.of_nat n))) with
    | None => None
    | Some nb =>
      if m =? 0 then None else
      let k := if nb mod 8 =? 0 then k else k + 1 in
      let lanes := N.max 1 (16 / m) in
      let '(R, nblocks) := pax_rows less opt lanes (off + nb) k in
      let '(offs1, padding) := column_offsets types R order offs0 0 in
      let offn := off * R + padding in
      let bs := match opt with NTuples _ => pad (offn + nb * R) al | NBytes b => b * 8 end in
      Some (mkLayout R (nblocks * bs) (set offs1 n offn) (fun i => if Nat.eqb i n then nb else tsize (ty types i)))
    end
  end.

(** Interpreter.cpp 74-101, 109-125, 343-350: the address of leaf [i] in row [r] of a layout at byte address [base]: (byte
    address, bit offset). *)
Definition address (L : layout) (base r : N) (i : nat) : N * N :=
  let lin_id := r / rows L in
  let inner := r mod rows L in
  let a := base + (0 / 8 + lin_id * block L / 8) in
  let bits := loffset L i + inner * lstride L i in
  (a + bits / 8, bits mod 8).

(** ** Stores *)

(** The fields all stores have. *)
Record store := mkStore { num_rows : N; capacity : N }.

(** RowStore.hpp 46-50, PaxStore.hpp 49-53, ColumnStore.hpp 35-39: [append]; [None] is the exception. *)
Definition append (s : store) : option store :=
  if num_rows s =? capacity s then None else Some (mkStore (num_rows s + 1) (capacity s)).
(** RowStore.hpp 52-55 etc.: [drop]; [None] is the assertion. *)
Definition drop (s : store) : option store :=
  if num_rows s =? 0 then None else Some (mkStore (num_rows s - 1) (capacity s)).

Definition w32 (x : N) : N := x mod 2 ^ 32.

(** RowStore.cpp 31-63 and 17-24: offsets, row size, capacity; [alloc] is [ALLOCATION_SIZE]. *)
Record row_store := mkRowStore { rs_offset : nat -> N; rs_size : N; rs_store : store }.
Definition make_row_store (alloc : N) (types : list type) : row_store :=
  let n := length types in
  let '(offs, off, al) := row_offsets types (stable_sort types (seq 0 n)) (fun _ => 0) 0 8 in
  let size := w32 (pad (off + N.of_nat n) al) in
  mkRowStore (fun i => w32 (set offs n off i)) size (mkStore 0 (alloc / (size / 8))).

(** PaxStore.cpp 30-93 and 16-23. *)
Record pax_store := mkPaxStore { ps_offset : nat -> N; ps_block : N; ps_rows : N; ps_store : store }.
Fixpoint pax_offsets (types : list type) (R : N) (order : list nat) (offs : nat -> N) (running : N) : (nat -> N) * N :=
  match order with
  | [] => (offs, running)
  | i :: r =>
      let o := w32 (offs i * R + running) in
      let bit := (o + tsize (ty types i) * R) mod 8 in
      pax_offsets types R r (set offs i o) (if bit =? 0 then running else w32 (running + (8 - bit)))
  end.
Definition make_pax_store (alloc : N) (block_size : N) (types : list type) : pax_store :=
  let n := length types in
  let order := stable_sort types (seq 0 n) in
  let '(offs, off, _) := row_offsets types order (fun _ => 0) 0 8 in
  let row := off + N.of_nat n in
  let R := sub64 (w32 (block_size * 8)) (num_not_byte_aligned types * 7) / row in
  let '(offs1, running) := pax_offsets types R order (fun i => w32 (offs i)) 0 in
  mkPaxStore (set offs1 n (w32 (w32 off * R + running))) block_size R (mkStore 0 ((alloc / block_size) * R)).

(** ColumnStore.cpp 11-31, ColumnStore.hpp 43-49. *)
Record column_store := mkColumnStore { cs_memory : N; cs_bitmap : N; cs_store : store }.
Definition make_column_store (alloc : N) (types : list type) : column_store :=
  let n := N.of_nat (length types) in
  let m := fold_left (fun m t => N.max m (tsize t)) types 0 in
  let nb := (n + 7) / 8 * 8 in
  mkColumnStore (alloc * (n + 1)) nb (mkStore 0 (alloc * 8 / N.max m nb)).
(** The bit address, relative to the memory of the store, of column [i]. *)
Definition column (alloc : N) (i : nat) : N := 8 * (alloc * N.of_nat i).
