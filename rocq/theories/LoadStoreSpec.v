(** * C54: what loading and storing tuples means *)
From Coq Require Import List Bool ZArith Arith.
From Verif Require Import LoadStore.
Import ListNotations.
Local Open Scope Z_scope.

(** ** Where the data are

    A row of a linearization of [n] tuples with stride [st] is in the instance number [r / n], and there it is row [r mod n]. *)
Fixpoint find_in (cs : children) (r : Z) (i : nat) : option (type * Z) :=
  match cs with
  | Nil => None
  | Child c off st rest => match find_at c off st r i with Some x => Some x | None => find_in rest r i end
  end
with find_at (c : node) (off st r : Z) (i : nat) : option (type * Z) :=
  match c with
  | Leaf j t => if Nat.eqb j i then Some (t, off + r * st) else None
  | INode _ n cs => match find_in cs (r mod n) i with Some (t, p) => Some (t, off + (r / n) * st + p) | None => None end
  end.
(** Type and bit address of leaf [i] in row [r], relative to the start of the layout. *)
Definition place (L : layout) (r : Z) (i : nat) : option (type * Z) := find_at (child L) 0 (lstride L) r i.

(** ** What the data are *)
Definition get_bit (m : memory) (a : Z) : bool := Z.testbit (m (a / 8)) (a mod 8).
Definition bytes_ok (m : memory) : Prop := forall a, 0 <= m a < 256.
Definition bits (t : type) : Z :=
  match t with
  | TBool => 1 | TI8 => 8 | TI16 => 16 | TI32 => 32 | TI64 => 64 | TF32 => 32 | TF64 => 64
  | TChar n => 8 * Z.of_nat n | TVarchar n => 8 * (Z.of_nat n + 1) | TBitmap => 0
  end.
(** The value of type [t] at bit address [a]. *)
Definition value_at (t : type) (m : memory) (a : Z) : val :=
  match t with
  | TBool => VB (get_bit m a)
  | TI8 => VI (signed 1 (read_le m (a / 8) 1))
  | TI16 => VI (signed 2 (read_le m (a / 8) 2))
  | TI32 => VI (signed 4 (read_le m (a / 8) 4))
  | TI64 | TF64 => VI (signed 8 (read_le m (a / 8) 8))
  | TF32 => VI (read_le m (a / 8) 4)
  | TChar n | TVarchar n => VS (read_str m (a / 8) n)
  | TBitmap => VNone
  end.
(** The values of a type. *)
Definition has_type (t : type) (v : val) : Prop :=
  match t, v with
  | TBool, VB _ => True
  | TI8, VI z => - 2 ^ 7 <= z < 2 ^ 7
  | TI16, VI z => - 2 ^ 15 <= z < 2 ^ 15
  | TI32, VI z => - 2 ^ 31 <= z < 2 ^ 31
  | (TI64 | TF64), VI z => - 2 ^ 63 <= z < 2 ^ 63
  | TF32, VI z => 0 <= z < 2 ^ 32
  | (TChar n | TVarchar n), VS s => (length s <= n)%nat /\ Forall (fun c => 0 < c < 256) s
  | _, _ => False
  end.

(** Strings consist of bytes. *)
Definition chars_ok (v : val) : Prop := match v with VS s => Forall (fun c => 0 <= c < 256) s | _ => True end.

(** ** Which attributes are accessed *)
(** Attribute [i] of the layout is entry [k] of the tuple; [nl]: it can be NULL. *)
Definition attribute (ls : schema) (ts : list nat) (i k : nat) (nl : bool) : Prop :=
  exists id, nth_error ls i = Some (id, nl) /\ nth_error ts k = Some id.

(** After loading row [r] into tuple [t], giving [t']. *)
Definition loaded (ls : schema) (ts : list nat) (L : layout) (base r : Z) (m : memory) (t t' : list entry) : Prop :=
  length t' = length t /\
  (forall i k nl ty a, attribute ls ts i k nl -> place L r i = Some (ty, a) ->
     exists v, nth_error t' k = Some (v, nl && match place L r (length ls) with Some (_, b) => get_bit m (8 * base + b + Z.of_nat i) | None => false end) /\
       (nth_error t' k = Some (v, false) -> v = value_at ty m (8 * base + a))) /\
  (forall k, (forall i nl, attribute ls ts i k nl -> place L r i = None) -> nth_error t' k = nth_error t k).

(** The bits of row [r] that belong to attribute [i]: those of its value and its NULL bit. *)
Definition value_bit (L : layout) (r : Z) (i : nat) (x : Z) : Prop := exists ty a, place L r i = Some (ty, a) /\ a <= x < a + bits ty.
Definition null_bit (ls : schema) (L : layout) (r : Z) (i : nat) (x : Z) : Prop :=
  nullable ls i = true /\ exists ty b, place L r (length ls) = Some (ty, b) /\ x = b + Z.of_nat i.
Definition part (ls : schema) (L : layout) (r : Z) (i : nat) (null : bool) (x : Z) : Prop :=
  (i < length ls)%nat /\ if null then null_bit ls L r i x else value_bit L r i x.
(** No two parts of the rows share a bit. *)
Definition separate (ls : schema) (L : layout) : Prop :=
  forall r r' i i' n n' x, 0 <= r -> 0 <= r' -> part ls L r i n x -> part ls L r' i' n' x -> (r, i, n) = (r', i', n').

(** Row [r] holds the values and the NULL bits of tuple [t]. *)
Definition contains (ls : schema) (ts : list nat) (L : layout) (base r : Z) (t : list entry) (m : memory) : Prop :=
  forall i k nl ty a v n, attribute ls ts i k nl -> place L r i = Some (ty, a) -> nth_error t k = Some (v, n) ->
    (forall ty' b, nl = true -> place L r (length ls) = Some (ty', b) -> get_bit m (8 * base + b + Z.of_nat i) = n) /\
    (n = false -> has_type ty v -> value_at ty m (8 * base + a) = v).
(** After storing tuple [t] in row [r] of memory [m], giving [m']; the value of an attribute that is NULL is not touched. *)
Definition stored (ls : schema) (ts : list nat) (L : layout) (base r : Z) (t : list entry) (m m' : memory) : Prop :=
  bytes_ok m' /\ contains ls ts L base r t m' /\
  (forall x, (forall i k nl, attribute ls ts i k nl -> place L r i <> None -> ~ part ls L r i true x /\ ~ (part ls L r i false x /\ exists v, nth_error t k = Some (v, false))) ->
     get_bit m' (8 * base + x) = get_bit m (8 * base + x)).

(** ** Layouts

    The requirements of [DataLayout::INode::add_leaf] and [add_inode], DataLayout.cpp 27-66: offsets and strides are whole bytes except
    for booleans and bitmaps, and the number of tuples of a linearization divides that of the surrounding one ([np], 0 at the top).
    Further: a boolean with a stride of less than a byte has a stride of one bit, and it starts at a byte boundary unless there is a
    multiple of 8 of them; so does a bitmap with stride; and a linearization is not smaller than its contents.
    [nb] is the index of the NULL bitmap. *)
Definition leaf_ok (nb i : nat) (t : type) (off st np : Z) : Prop :=
  if Nat.eqb i nb then st = 0 \/ off mod 8 = 0
  else match t with
       | TBool => st mod 8 = 0 \/ st = 1 /\ (off mod 8 = 0 \/ np mod 8 = 0)
       | TBitmap => False
       | _ => off mod 8 = 0 /\ st mod 8 = 0
       end.
Definition tuples (c : node) : Z := match c with Leaf _ _ => 1 | INode _ n _ => n end.
Fixpoint fits (cs : children) (n size : Z) : Prop :=
  match cs with Nil => True | Child c _ st r => n / tuples c * st <= size /\ fits r n size end.
Fixpoint node_ok (nb : nat) (c : node) (off st np : Z) : Prop :=
  0 <= off /\ 0 <= st /\
  match c with
  | Leaf i t => leaf_ok nb i t off st np
  | INode _ n cs => 0 < n /\ np mod n = 0 /\ off mod 8 = 0 /\ st mod 8 = 0 /\ st < 2 ^ 64 /\ fits cs n st /\ children_ok nb cs n
  end
with children_ok (nb : nat) (cs : children) (np : Z) : Prop :=
  match cs with Nil => True | Child c off st r => node_ok nb c off st np /\ children_ok nb r np end.

(** Leaves have different indices, nodes are different. *)
Fixpoint indices (cs : children) : list nat :=
  match cs with Nil => [] | Child c _ _ r => indices_node c ++ indices r end
with indices_node (c : node) : list nat := match c with Leaf i _ => [i] | INode _ _ cs => indices cs end.
Fixpoint inodes (cs : children) : list nat :=
  match cs with Nil => [] | Child c _ _ r => inodes_node c ++ inodes r end
with inodes_node (c : node) : list nat := match c with Leaf _ _ => [] | INode id _ cs => id :: inodes cs end.

Definition layout_ok (nb : nat) (L : layout) : Prop :=
  node_ok nb (child L) 0 (lstride L) 0 /\ NoDup (indices_node (child L)) /\ NoDup (inodes_node (child L)).
(** Attributes have different names; so have the entries of the tuple, which are attributes. *)
Definition schemas_ok (ls : schema) (ts : list nat) : Prop :=
  NoDup (map fst ls) /\ NoDup ts /\ incl ts (map fst ls) /\ (length ts <= 256)%nat.

(** ** Several rows *)
(** Storing the tuples one after the other. *)
Fixpoint store_rows (M : machine) (m : memory) (rows : list (list entry)) : option memory :=
  match rows with
  | [] => Some m
  | t :: rest => match execute M m t with Some (M', m', _) => store_rows M' m' rest | None => None end
  end.
(** Loading [n] times into the same tuple. *)
Fixpoint load_rows (M : machine) (m : memory) (t : list entry) (n : nat) : option (list (list entry)) :=
  match n with
  | O => Some []
  | S n' => match execute M m t with Some (M', _, t') => option_map (cons t') (load_rows M' m t' n') | None => None end
  end.
