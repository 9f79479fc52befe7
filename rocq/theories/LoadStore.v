(** * Model of the code that loads and stores tuples: [compile_data_layout], src/backend/Interpreter.cpp 24-554

    Modelled: the complete compilation of a data layout (a tree of linearizations) to a sequence of stack machine operations, for
    loading and for storing, the context the operations work on, and the operations themselves with their effect on stack, context,
    memory and tuple.
    Simplified: 64 bit arithmetic has no wrap-around (addresses, counters and bit offsets are unbounded integers), except for the
    subtraction of line 455 and the one-byte arguments of operations; floating-point values are their bit patterns; a pointer to a
    string is the string; the stack has no size limit (see StackMachine.v for that); there is one tuple; a data layout has no upper
    limit on its number of tuples. *)
From Coq Require Import List Bool ZArith Arith.
Import ListNotations.
Local Open Scope Z_scope.

(** ** Values, memory, tuples *)

(** [Value], include/mutable/IR/Tuple.hpp 18-172.  [VS]: pointer to a NUL terminated string with these characters. *)
Inductive val : Set := VNone | VB (b : bool) | VI (z : Z) | VS (s : list Z).
Definition as_i (v : val) : Z := match v with VNone => 0 | VB b => if b then 1 else 0 | VI z => z | VS _ => 0 end.
Definition as_b (v : val) : bool := match v with VNone => false | VB b => b | VI z => negb (z mod 256 =? 0) | VS _ => false end.
Definition as_s (v : val) : list Z := match v with VS s => s | _ => [] end.

(** The bytes at all addresses. *)
Definition memory := Z -> Z.
Definition set_byte (m : memory) (a b : Z) : memory := fun x => if x =? a then b else m x.
(** Little-endian access to [w] bytes. *)
Fixpoint read_le (m : memory) (a : Z) (w : nat) : Z :=
  match w with O => 0 | S w' => m a + 256 * read_le m (a + 1) w' end.
Fixpoint write_le (m : memory) (a : Z) (w : nat) (v : Z) : memory :=
  match w with O => m | S w' => write_le (set_byte m a (v mod 256)) (a + 1) w' (v / 256) end.
(** Conversion of an unsigned integer to a signed one of the same size. *)
Definition signed (w : nat) (z : Z) : Z := if z <? 2 ^ (8 * Z.of_nat w - 1) then z else z - 2 ^ (8 * Z.of_nat w).
(** [strncpy], as reader and as writer. *)
Fixpoint read_str (m : memory) (a : Z) (n : nat) : list Z :=
  match n with O => [] | S n' => if m a =? 0 then [] else m a :: read_str m (a + 1) n' end.
Fixpoint write_str (m : memory) (a : Z) (n : nat) (s : list Z) : memory :=
  match n with
  | O => m
  | S n' => match s with [] => write_str (set_byte m a 0) (a + 1) n' [] | c :: s' => write_str (set_byte m a c) (a + 1) n' s' end
  end.
(** include/mutable/util/fn.hpp 441-445: [setbit] on bytes *)
Definition setbit (b : Z) (value : bool) (n : Z) : Z :=
  Z.lxor b (Z.land (Z.lxor (if value then 255 else 0) b) (2 ^ n mod 256)).

(** A stack or tuple entry: value and NULL bit. *)
Definition entry : Set := (val * bool)%type.
Record state := mkState { stk : list entry; mem : memory; tup : list entry }.

Fixpoint set_nth (l : list entry) (k : nat) (e : entry) : list entry :=
  match l, k with [] , _ => [] | _ :: r, O => e :: r | x :: r, S k' => x :: set_nth r k' e end.

(** ** Operations, src/backend/StackMachine.cpp 890-1535 *)
Inductive op : Set :=
| Pop | Push_Null | Dup | Ld_Tup (k : nat) | St_Tup (k : nat) | St_Tup_s (k : nat)
| Ld_i8 | Ld_i16 | Ld_i32 | Ld_i64 | Ld_f | Ld_d | Ld_s | Ld_b (mask : Z)
| St_i8 | St_i16 | St_i32 | St_i64 | St_f | St_d | St_s | St_b (bit : Z)
| Inc | Add_i | Add_p | Mul_i | Neg_i | And_i | Or_i | ShL_i | ShLi_i (c : Z) | SARi_i (c : Z)
| Not_b | NEZ_i | Eq_i | NE_i | Sel | Is_Null | Cast_i_b.

Definition unary (f : val -> val) (s : state) : option state :=
  match stk s with (v, n) :: r => Some (mkState ((f v, n) :: r) (mem s) (tup s)) | _ => None end.
Definition binary (f : val -> val -> val) (s : state) : option state :=
  match stk s with
  | (rhs, nr) :: (lhs, nl) :: r => Some (mkState ((f lhs rhs, nl || nr) :: r) (mem s) (tup s))
  | _ => None
  end.
(** Lines 1123-1135: [LOAD] *)
Definition load (f : memory -> Z -> val) (s : state) : option state :=
  match stk s with (p, n) :: r => Some (mkState ((f (mem s) (as_i p), n) :: r) (mem s) (tup s)) | _ => None end.
(** Lines 1161-1176: [STORE] *)
Definition store (f : memory -> Z -> val -> memory) (s : state) : option state :=
  match stk s with
  | (v, n) :: (p, _) :: r => Some (mkState r (if n : bool then mem s else f (mem s) (as_i p) v) (tup s))
  | _ => None
  end.
Definition ld_int (w : nat) := load (fun m a => VI (signed w (read_le m a w))).
Definition st_int (w : nat) := store (fun m a v => write_le m a w (as_i v)).

Definition step (o : op) (s : state) : option state :=
  match o with
  | Pop => match stk s with _ :: r => Some (mkState r (mem s) (tup s)) | _ => None end                           (* 921 *)
  | Push_Null => Some (mkState ((VNone, true) :: stk s) (mem s) (tup s))                                         (* 925 *)
  | Dup => match stk s with e :: r => Some (mkState (e :: e :: r) (mem s) (tup s)) | _ => None end               (* 929 *)
  | Ld_Tup k => match nth_error (tup s) k with Some e => Some (mkState (e :: stk s) (mem s) (tup s)) | None => None end   (* 963 *)
  | St_Tup k =>                                                                                                  (* 979-987 *)
      match stk s with
      | e :: r => if Nat.ltb k (length (tup s)) then Some (mkState (e :: r) (mem s) (set_nth (tup s) k e)) else None
      | _ => None
      end
  | St_Tup_s k =>                                                                                                (* 989-1004 *)
      match stk s, nth_error (tup s) k with
      | (l, _) :: (v, n) :: r, Some (old, _) =>
          Some (mkState ((v, n) :: r) (mem s)
                  (set_nth (tup s) k (if n : bool then (old, true) else (VS (firstn (Z.to_nat (as_i l)) (as_s v)), false))))
      | _, _ => None
      end
  | Ld_i8 => ld_int 1 s                                                                                          (* 1130 *)
  | Ld_i16 => ld_int 2 s
  | Ld_i32 => ld_int 4 s
  | Ld_i64 => ld_int 8 s
  | Ld_f => load (fun m a => VI (read_le m a 4)) s
  | Ld_d => ld_int 8 s
  | Ld_s =>                                                                                                      (* 1137-1147 *)
      match stk s with
      | (l, _) :: (p, n) :: r => Some (mkState ((VS (read_str (mem s) (as_i p) (Z.to_nat (as_i l))), n) :: r) (mem s) (tup s))
      | _ => None
      end
  | Ld_b mask => load (fun m a => VB (negb (Z.land (m a) mask =? 0))) s                                          (* 1149 *)
  | St_i8 => st_int 1 s                                                                                          (* 1172 *)
  | St_i16 => st_int 2 s
  | St_i32 => st_int 4 s
  | St_i64 => st_int 8 s
  | St_f => st_int 4 s
  | St_d => st_int 8 s
  | St_s =>                                                                                                      (* 1179-1191 *)
      match stk s with
      | (l, _) :: (v, n) :: (p, _) :: r =>
          Some (mkState r (if n : bool then mem s else write_str (mem s) (as_i p) (Z.to_nat (as_i l)) (as_s v)) (tup s))
      | _ => None
      end
  | St_b bit => store (fun m a v => set_byte m a (setbit (m a) (as_b v) bit)) s                                  (* 1193 *)
  | Inc => unary (fun v => VI (as_i v + 1)) s                                                                    (* 1231 *)
  | Add_i => binary (fun l r => VI (as_i l + as_i r)) s                                                          (* 1243 *)
  | Add_p => binary (fun l r => VI (as_i l + as_i r)) s                                                          (* 1246 *)
  | Mul_i => binary (fun l r => VI (as_i l * as_i r)) s                                                          (* 1263 *)
  | Neg_i => unary (fun v => VI (Z.lnot (as_i v))) s                                                             (* 1313 *)
  | And_i => binary (fun l r => VI (Z.land (as_i l) (as_i r))) s                                                 (* 1316 *)
  | Or_i => binary (fun l r => VI (Z.lor (as_i l) (as_i r))) s                                                   (* 1319 *)
  | ShL_i =>                                                                                                     (* 1325 *)
      match stk s with
      | (c, _) :: (v, n) :: r => Some (mkState ((VI (Z.shiftl (as_i v) (as_i c)), n) :: r) (mem s) (tup s))
      | _ => None
      end
  | ShLi_i c => unary (fun v => VI (Z.shiftl (as_i v) c)) s                                                      (* 1335 *)
  | SARi_i c => unary (fun v => VI (Z.shiftr (as_i v) c)) s                                                      (* 1344 *)
  | Not_b => unary (fun v => VB (negb (as_b v))) s                                                               (* 1358 *)
  | NEZ_i => unary (fun v => VB (negb (as_i v =? 0))) s                                                          (* 1398 *)
  | Eq_i => binary (fun l r => VB (as_i l =? as_i r)) s                                                          (* 1405 *)
  | NE_i => binary (fun l r => VB (negb (as_i l =? as_i r))) s
  | Sel =>                                                                                                       (* 1489-1512 *)
      match stk s with
      | (f, nf) :: (t, nt) :: (c, nc) :: r =>
          Some (mkState ((if nc : bool then (t, true) else if as_b c then (t, nt) else (f, nf)) :: r) (mem s) (tup s))
      | _ => None
      end
  | Is_Null => match stk s with (_, n) :: r => Some (mkState ((VB n, false) :: r) (mem s) (tup s)) | _ => None end    (* 1519 *)
  | Cast_i_b => unary (fun v => VI (if as_b v then 1 else 0)) s                                                  (* 1527 *)
  end.

(** ** The machine: operations and accesses to the context by index *)
Inductive instr : Set := IOp (o : op) | ILd (k : nat) | IUpd (k : nat).
Definition ctx := list val.
Fixpoint set_ctx (c : ctx) (k : nat) (v : val) : ctx :=
  match c, k with [], _ => [] | _ :: r, O => v :: r | x :: r, S k' => x :: set_ctx r k' v end.
Definition istep (i : instr) (c : ctx) (s : state) : option (ctx * state) :=
  match i with
  | IOp o => option_map (fun s' => (c, s')) (step o s)
  | ILd k => match nth_error c k with Some v => Some (c, mkState ((v, false) :: stk s) (mem s) (tup s)) | None => None end   (* 939 *)
  | IUpd k =>                                                                                                    (* 946 *)
      match stk s with (v, _) :: _ => if Nat.ltb k (length c) then Some (set_ctx c k v, s) else None | [] => None end
  end.
Fixpoint iexec (l : list instr) (c : ctx) (s : state) : option (ctx * state) :=
  match l with [] => Some (c, s) | i :: r => match istep i c s with Some (c', s') => iexec r c' s' | None => None end end.

(** [StackMachine]: its operations and its context, which lives on from one execution to the next (lines 859-880). *)
Record machine := mkMachine { code : list instr; context : ctx }.
Definition execute (M : machine) (m : memory) (t : list entry) : option (machine * memory * list entry) :=
  match iexec (code M) (context M) (mkState [] m t) with
  | Some (c, s) => Some (mkMachine (code M) c, mem s, tup s)
  | None => None
  end.

(** ** Emission

    The C++ variables that hold indices of context entries. *)
Inductive name : Set :=
| Ptr (leaf : nat) | Mask (leaf : nat)          (* leaf2id, leaf2mask: lines 58-59 *)
| NAddr (leaf : nat) | NMask (leaf : nat)       (* address_id, mask_id: line 168 *)
| NullP | NullOfs                               (* null_bitmap_info.id, null_bitmap_info.offset_id: lines 47-48 *)
| NullCtr                                       (* counter_id: line 371 *)
| Ctr (inode : nat).                            (* counter_id: line 515 *)
Definition name_eqb (x y : name) : bool :=
  match x, y with
  | Ptr i, Ptr j | Mask i, Mask j | NAddr i, NAddr j | NMask i, NMask j | Ctr i, Ctr j => Nat.eqb i j
  | NullP, NullP | NullOfs, NullOfs | NullCtr, NullCtr => true
  | _, _ => false
  end.

(** The calls that emit code. *)
Inductive call : Set :=
| Emit (o : op)
| Load (x : name)              (* [emit_Ld_Ctx(x)] *)
| Update (x : name)            (* [emit_Upd_Ctx(x)] *)
| Const (v : val)              (* [add_and_emit_load(v)], result dropped *)
| New (x : name) (v : val)     (* [x = add(v)] *)
| NewLoad (x : name) (v : val) (* [x = add_and_emit_load(v)] *).

(** StackMachine.hpp 185-211; the arguments of operations are one byte (lines 140-160); an index never set is -1. *)
Definition u8 (k : nat) : nat := Nat.modulo k 256.
Fixpoint index_of (x : name) (l : list (option name * val)) (k : nat) : option nat :=
  match l with
  | [] => None
  | (y, _) :: r =>
      match index_of x r (S k) with
      | Some i => Some i
      | None => match y with Some y' => if name_eqb x y' then Some k else None | None => None end
      end
  end.
Definition lookup (x : name) (l : list (option name * val)) : nat :=
  match index_of x l O with Some k => u8 k | None => 255%nat end.
Fixpoint assemble (p : list call) (c : list (option name * val)) : list instr * list (option name * val) :=
  match p with
  | [] => ([], c)
  | i :: r =>
      let '(out, c') :=
        match i with
        | Emit o => ([IOp o], c)
        | Load x => ([ILd (lookup x c)], c)
        | Update x => ([IUpd (lookup x c)], c)
        | Const v => ([ILd (u8 (length c))], c ++ [(None, v)])
        | New x v => ([], c ++ [(Some x, v)])
        | NewLoad x v => ([ILd (u8 (length c))], c ++ [(Some x, v)])
        end in
      let '(l, c'') := assemble r c' in (out ++ l, c'')
  end.
Definition make_machine (p : list call) : machine := let '(l, c) := assemble p [] in mkMachine l (map snd c).

(** ** Data layouts, include/mutable/storage/DataLayout.hpp *)
Inductive type : Set :=
| TBool | TI8 | TI16 | TI32 | TI64 (* INT, DECIMAL, DATE, DATETIME *) | TF32 | TF64 | TChar (n : nat) | TVarchar (n : nat) | TBitmap.
Definition is_boolean (t : type) : bool := match t with TBool => true | _ => false end.

(** [Leaf] with its index and type, [INode] with its identity, its number of tuples and its children; a child with offset and stride. *)
Inductive node : Set :=
| Leaf (i : nat) (t : type)
| INode (id : nat) (num_tuples : Z) (cs : children)
with children : Set :=
| Nil
| Child (c : node) (offset stride : Z) (cs : children).

(** The schema of the layout: for each attribute its identifier and whether it can be NULL; the schema of the tuple: identifiers. *)
Definition schema := list (nat * bool).

Fixpoint position (id : nat) (l : list nat) : option nat :=
  match l with [] => None | x :: r => if Nat.eqb id x then Some O else option_map S (position id r) end.
(** Line 111: [tuple_schema.find(layout_schema[index].id)] *)
Definition slot (ls : schema) (ts : list nat) (i : nat) : option nat :=
  match nth_error ls i with Some (id, _) => position id ts | None => None end.
Definition nullable (ls : schema) (i : nat) : bool := match nth_error ls i with Some (_, b) => b | None => false end.
(** Lines 62-69 *)
Definition needs_null_bitmap (ls : schema) (ts : list nat) : bool :=
  existsb (fun id => match position id (map fst ls) with Some i => nullable ls i | None => false end) ts.

(** Lines 46-56 *)
Record null_info := mkNull { n_addr : Z; n_bit_offset : Z; n_stride : Z; n_num : Z; n_row : Z }.

(** Lines 72-101: [find_null_bitmap] *)
Fixpoint find_null (nb : nat) (cs : children) (num base row : Z) : option null_info :=
  match cs with
  | Nil => None
  | Child c off st r =>
      match find_null_node nb c off st num base row with Some x => Some x | None => find_null nb r num base row end
  end
with find_null_node (nb : nat) (c : node) (off st num base row : Z) : option null_info :=
  match c with
  | Leaf i _ =>
      if Nat.eqb i nb then
        let a := off + row * st in Some (mkNull (base + a / 8) (a mod 8) st num row)
      else None
  | INode _ n cs => find_null nb cs n (base + (off / 8 + (row / n) * st / 8)) (row mod n)
  end.

Section Compile.
  Variable is_store : bool.
  Variables (ls : schema) (ts : list nat).
  Variable null_bitmap : option null_info.

  (** Lines 620-655, 658-693, 695-713 of StackMachine.cpp *)
  Definition emit_Ld (t : type) : list call :=
    match t with
    | TI8 => [Emit Ld_i8] | TI16 => [Emit Ld_i16] | TI32 => [Emit Ld_i32] | TI64 => [Emit Ld_i64]
    | TF32 => [Emit Ld_f] | TF64 => [Emit Ld_d]
    | TChar n | TVarchar n => [Const (VI (Z.of_nat n)); Emit Ld_s]
    | TBool | TBitmap => []
    end.
  Definition emit_St (t : type) : list call :=
    match t with
    | TI8 => [Emit St_i8] | TI16 => [Emit St_i16] | TI32 => [Emit St_i32] | TI64 => [Emit St_i64]
    | TF32 => [Emit St_f] | TF64 => [Emit St_d]
    | TChar n => [Const (VI (Z.of_nat n)); Emit St_s]
    | TVarchar n => [Const (VI (Z.of_nat n + 1)); Emit St_s]
    | TBool | TBitmap => []
    end.
  Definition emit_St_Tup (k : nat) (t : type) : list call :=
    match t with
    | TChar n | TVarchar n => [Const (VI (Z.of_nat n)); Emit (St_Tup_s (u8 k))]
    | _ => [Emit (St_Tup (u8 k))]
    end.
  Definition ld_tup (k : nat) : list call := [Emit (Ld_Tup (u8 k))].

  (** Lines 135-158: the NULL bit at a fixed offset in the bitmap *)
  Definition null_fixed (x : null_info) (i k : nat) : list call :=
    let b := n_bit_offset x + Z.of_nat i in
    let access b := if is_store then ld_tup k ++ [Emit Is_Null; Emit (St_b (b mod 256))] else [Emit (Ld_b (2 ^ b mod 256))] in
    if b <? 8 then [Load NullP] ++ access b
    else [Const (VI (b / 8)); Load NullP; Emit Add_p] ++ access (b mod 8).
  (** Lines 159-223: the NULL bit at an adjustable offset *)
  Definition null_adjustable (i k : nat) : list call :=
    (if is_store then [New (NAddr i) (VI 0); New (NMask i) (VI 0)] else []) ++
    [Load NullOfs; Const (VI (Z.of_nat i)); Emit Add_i; Emit (SARi_i 3); Load NullP; Emit Add_p] ++
    (if is_store then [Update (NAddr i)] ++ ld_tup k ++ [Emit Is_Null] else [Emit Ld_i8]) ++
    [Const (VI 1); Load NullOfs; Const (VI (Z.of_nat i)); Emit Add_i; Const (VI 7); Emit And_i; Emit ShL_i] ++
    (if is_store then
       [Update (NMask i); Load (NAddr i); Emit Ld_i8; Emit Or_i;
        Load (NMask i); Emit Neg_i; Load (NAddr i); Emit Ld_i8; Emit And_i; Emit Sel; Emit St_i8]
     else [Emit And_i; Emit NEZ_i]).
  (** Lines 133-226 *)
  Definition access_null (i k : nat) : list call :=
    match null_bitmap with
    | Some x =>
        if nullable ls i then
          (if n_stride x =? 0 then null_fixed x i k else null_adjustable i k) ++ (if is_store then [] else [Emit Push_Null])
        else []
    | None => []
    end.
  Definition can_be_null (i : nat) : bool := match null_bitmap with Some _ => nullable ls i | None => false end.

  (** Lines 232-299: an attribute with a stride of less than a byte *)
  Definition access_bit (i k : nat) (t : type) (bit_offset : Z) : list call :=
    (if is_store then ld_tup k else [Emit Ld_i8]) ++
    [New (Mask i) (VI (2 ^ bit_offset))] ++
    (if is_store then
       [Load (Ptr i); Emit Ld_i8; Load (Mask i); Emit Or_i;
        Load (Ptr i); Emit Ld_i8; Load (Mask i); Emit Neg_i; Emit And_i; Emit Sel; Emit St_i8]
     else
       [Load (Mask i); Emit And_i; Emit NEZ_i] ++ (if can_be_null i then [Emit Sel] else []) ++
       emit_St_Tup k t ++ [Emit Pop]) ++
    [Load (Mask i); Emit (ShLi_i 1); Update (Mask i);
     Const (VI 256); Emit Eq_i; Emit Dup; Const (VI 1); Load (Mask i); Emit Sel; Update (Mask i); Emit Pop;
     Emit Cast_i_b; Load (Ptr i); Emit Add_p; Update (Ptr i); Emit Pop].
  (** Lines 300-338: an attribute with a stride of whole bytes *)
  Definition access_bytes (i k : nat) (t : type) (bit_offset byte_stride : Z) : list call :=
    (if is_store then
       ld_tup k ++ (if is_boolean t then [Emit (St_b (bit_offset mod 256))] else emit_St t)
     else
       (if is_boolean t then [Emit (Ld_b (2 ^ bit_offset mod 256))] else emit_Ld t) ++
       (if can_be_null i then [Emit Sel] else []) ++ emit_St_Tup k t ++ [Emit Pop]) ++
    (if byte_stride =? 0 then [] else [Const (VI byte_stride); Load (Ptr i); Emit Add_p; Update (Ptr i); Emit Pop]).

  (** Lines 110-131, 228-231 *)
  Definition access_leaf (i : nat) (t : type) (off st base row : Z) : list call :=
    if Nat.eqb i (length ls) then []
    else
      match slot ls ts i with
      | None => []
      | Some k =>
          let a := off + row * st in
          access_null i k ++ [NewLoad (Ptr i) (VI (base + a / 8))] ++
          (if st mod 8 =? 0 then access_bytes i k t (a mod 8) (st / 8) else access_bit i k t (a mod 8))
      end.
  (** Lines 103-355: [compile_accesses] *)
  Fixpoint accesses (cs : children) (base row : Z) : list call :=
    match cs with
    | Nil => []
    | Child c off st r => access_node c off st base row ++ accesses r base row
    end
  with access_node (c : node) (off st base row : Z) : list call :=
    match c with
    | Leaf i t => access_leaf i t off st base row
    | INode _ n cs => accesses cs (base + (off / 8 + (row / n) * st / 8)) (row mod n)
    end.

  (** Lines 357-402 *)
  Definition advance_null : list call :=
    match null_bitmap with
    | Some x =>
        if n_stride x =? 0 then [] else
        [Load NullOfs; Const (VI (n_stride x)); Emit Add_i; Update NullOfs; Emit Pop;
         NewLoad NullCtr (VI (n_row x)); Emit Inc; Update NullCtr; Const (VI (n_num x)); Emit NE_i; Emit Dup; Emit Dup;
         Emit Not_b; Emit Cast_i_b; Load NullOfs; Emit (SARi_i 3); Emit Mul_i; Load NullP; Emit Add_p; Update NullP; Emit Pop;
         Emit Cast_i_b; Load NullOfs; Emit Mul_i; Update NullOfs; Emit Pop;
         Emit Cast_i_b; Load NullCtr; Emit Mul_i; Update NullCtr; Emit Pop]
    | None => []
    end.

  (** Line 455: [size_t] subtraction *)
  Definition sub64 (a b : Z) : Z := (a - b) mod 2 ^ 64.

  (** Lines 466-498: reset of the bit offset *)
  Definition reset_null (c : nat) (n : Z) : list call :=
    (if n =? 1 then [Const (VI 0)] else [Load (Ctr c); Const (VI n); Emit NE_i; Emit Cast_i_b]) ++
    [Load NullOfs; Emit Mul_i; Update NullOfs; Emit Pop].
  Definition reset_mask (i c : nat) (n : Z) : list call :=
    (if n =? 1 then [Const (VI 1)]
     else [Load (Ctr c); Const (VI n); Emit Eq_i; Const (VI 1); Load (Mask i); Emit Sel]) ++
    [Update (Mask i); Emit Pop].
  (** Lines 504-521: advance the pointer *)
  Definition advance_ptr (x : name) (c : nat) (n bytes : Z) : list call :=
    (if n =? 1 then [Const (VI bytes)]
     else [Load (Ctr c); Const (VI n); Emit Eq_i; Emit Cast_i_b; Const (VI bytes); Emit Mul_i]) ++
    [Load x; Emit Add_p; Update x; Emit Pop].
  (** Lines 446-527: the jumps of a leaf; the levels are those of [stride_info_stack], last first: inode, tuples, stride *)
  Fixpoint jumps (i : nat) (x : name) (prev_num prev_stride : Z) (lv : list (nat * Z * Z)) : list call :=
    match lv with
    | [] => []
    | (c, n, st) :: r =>
        let rem := sub64 st ((n / prev_num) * prev_stride) in
        (if rem =? 0 then [] else
           if rem mod 8 =? 0 then advance_ptr x c n (rem / 8)
           else (if Nat.eqb i (length ls) then reset_null c n else reset_mask i c n) ++ advance_ptr x c n (rem / 8 + 1)) ++
        jumps i x n st r
    end.
  (** Lines 408-445 *)
  Definition stride_leaf (i : nat) (st : Z) (lv : list (nat * Z * Z)) : list call :=
    match null_bitmap, Nat.eqb i (length ls), slot ls ts i with
    | Some _, true, _ => jumps i NullP 1 st lv
    | _, false, Some _ => jumps i (Ptr i) 1 st lv
    | _, _, _ => []
    end.
  (** Lines 404-440: [compile_strides] *)
  Fixpoint strides (cs : children) (row : Z) (lv : list (nat * Z * Z)) : list call :=
    match cs with
    | Nil => []
    | Child c off st r => stride_node c st row lv ++ strides r row lv
    end
  with stride_node (c : node) (st row : Z) (lv : list (nat * Z * Z)) : list call :=
    match c with
    | Leaf i _ => stride_leaf i st lv
    | INode id n cs =>
        [NewLoad (Ctr id) (VI (row mod n)); Emit Inc; Update (Ctr id); Emit Pop] ++
        strides cs (row mod n) ((id, n, st) :: lv) ++
        (if n =? 1 then [Const (VI 0)]
         else [Load (Ctr id); Const (VI n); Emit NE_i; Emit Cast_i_b; Load (Ctr id); Emit Mul_i]) ++
        [Update (Ctr id)]
    end.

  (** Lines 103-540 *)
  Definition compile_body (cs : children) (base row : Z) : list call :=
    match null_bitmap with
    | Some x => [New NullP (VI (n_addr x))] ++ (if n_stride x =? 0 then [] else [New NullOfs (VI (n_bit_offset x))])
    | None => []
    end ++
    accesses cs base row ++ advance_null ++ strides cs row [].
End Compile.

(** A data layout: a single child with a stride (DataLayout.hpp 186-190, [inode_]). *)
Record layout := mkLayout { child : node; lstride : Z }.
Definition root (L : layout) : children := Child (child L) 0 (lstride L) Nil.

(** Lines 24-541: [compile_data_layout] *)
Definition compile (is_store : bool) (ts : list nat) (base : Z) (L : layout) (ls : schema) (row : Z) : machine :=
  let null_bitmap := if needs_null_bitmap ls ts then find_null (length ls) (root L) 0 base row else None in
  make_machine (compile_body is_store ls ts null_bitmap (root L) base row).
(** Lines 544-554: [compile_load], [compile_store] *)
Definition compile_load := compile false.
Definition compile_store := compile true.
