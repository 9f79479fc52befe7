(** * Model of the stack machine (src/backend/StackMachine.{hpp,cpp}, src/tables/Opcodes.tbl) and of the compiler from
    expressions to its code.

    Modelled: the complete opcode table with the stack-size bookkeeping of the [emit_X] functions, the stack effect of every opcode,
    and, for the opcodes that expressions over booleans, integers, decimals, dates compile to, their effect on values and NULL bits.
    Not modelled: floating-point and string operands, memory loads/stores, printing, [Sel] and the tuple stores as value
    transformers (their stack effect is modelled), and the byte encoding of the op sequence (an instruction is an opcode with its
    argument bytes). *)
From Coq Require Import List Bool ZArith.
Import ListNotations.
Local Open Scope Z_scope.

(** src/tables/Opcodes.tbl *)
Inductive opcode : Set :=
  | Stop | Stop_Z | Stop_NZ | Stop_False | Stop_True | Pop | Push_Null | Dup | Ld_Ctx | Upd_Ctx | Ld_Tup | St_Tup_Null
  | St_Tup_i | St_Tup_f | St_Tup_d | St_Tup_s | St_Tup_b | Putc | Print_i | Print_f | Print_d | Print_s | Print_b | Print_date
  | Print_datetime | Ld_i8 | Ld_i16 | Ld_i32 | Ld_i64 | Ld_f | Ld_d | Ld_s | Ld_b | St_i8 | St_i16 | St_i32 | St_i64 | St_f
  | St_d | St_s | St_b | Inc | Dec | Minus_i | Minus_f | Minus_d | Add_i | Add_f | Add_d | Add_p | Sub_i | Sub_f | Sub_d
  | Mul_i | Mul_f | Mul_d | Div_i | Div_f | Div_d | Mod_i | Neg_i | And_i | Or_i | Xor_i | ShL_i | ShLi_i | SARi_i | Not_b
  | And_b | Or_b | Cat_s | Is_Null | EqZ_i | NEZ_i | Eq_i | Eq_f | Eq_d | Eq_b | Eq_s | NE_i | NE_f | NE_d | NE_b | NE_s | LT_i
  | LT_f | LT_d | LT_s | GT_i | GT_f | GT_d | GT_s | LE_i | LE_f | LE_d | LE_s | GE_i | GE_f | GE_d | GE_s | Cmp_i | Cmp_f
  | Cmp_d | Cmp_b | Cmp_s | Like_const | Like_expr | Sel | Cast_i_f | Cast_i_d | Cast_i_b | Cast_f_i | Cast_f_d | Cast_d_i
  | Cast_d_f.

(** Second column of src/tables/Opcodes.tbl *)
Definition delta (o : opcode) : Z :=
  match o with
  | St_s => (-3)
  | St_i8 | St_i16 | St_i32 | St_i64 | St_f | St_d | St_b | Sel => (-2)
  | Pop | St_Tup_s | Ld_s | Add_i | Add_f | Add_d | Add_p | Sub_i | Sub_f | Sub_d | Mul_i | Mul_f | Mul_d | Div_i | Div_f
  | Div_d | Mod_i | And_i | Or_i | Xor_i | ShL_i | And_b | Or_b | Cat_s | Eq_i | Eq_f | Eq_d | Eq_b | Eq_s | NE_i | NE_f | NE_d
  | NE_b | NE_s | LT_i | LT_f | LT_d | LT_s | GT_i | GT_f | GT_d | GT_s | LE_i | LE_f | LE_d | LE_s | GE_i | GE_f | GE_d | GE_s
  | Cmp_i | Cmp_f | Cmp_d | Cmp_b | Cmp_s | Like_const | Like_expr => (-1)
  | Stop | Stop_Z | Stop_NZ | Stop_False | Stop_True | Upd_Ctx | St_Tup_Null | St_Tup_i | St_Tup_f | St_Tup_d | St_Tup_b | Putc
  | Print_i | Print_f | Print_d | Print_s | Print_b | Print_date | Print_datetime | Ld_i8 | Ld_i16 | Ld_i32 | Ld_i64 | Ld_f
  | Ld_d | Ld_b | Inc | Dec | Minus_i | Minus_f | Minus_d | Neg_i | ShLi_i | SARi_i | Not_b | Is_Null | EqZ_i | NEZ_i
  | Cast_i_f | Cast_i_d | Cast_i_b | Cast_f_i | Cast_f_d | Cast_d_i | Cast_d_f => 0
  | Push_Null | Dup | Ld_Ctx | Ld_Tup => 1
  end.

(** What the interpreter loop does to the height of the stack: [(least height, change)], read off the code of each label,
    StackMachine.cpp lines 891-1533. *)
Definition effect (o : opcode) : nat * Z :=
  match o with
  | Stop | St_Tup_Null | Putc => (0%nat, 0)
  | Push_Null | Ld_Ctx | Ld_Tup => (0%nat, 1)
  | Pop => (1%nat, (-1))
  | Stop_Z | Stop_NZ | Stop_False | Stop_True | Upd_Ctx | St_Tup_i | St_Tup_f | St_Tup_d | St_Tup_b | Print_i | Print_f
  | Print_d | Print_s | Print_b | Print_date | Print_datetime | Ld_i8 | Ld_i16 | Ld_i32 | Ld_i64 | Ld_f | Ld_d | Ld_b | Inc
  | Dec | Minus_i | Minus_f | Minus_d | Neg_i | ShLi_i | SARi_i | Not_b | Is_Null | EqZ_i | NEZ_i | Cast_i_f | Cast_i_d
  | Cast_i_b | Cast_f_i | Cast_f_d | Cast_d_i | Cast_d_f => (1%nat, 0)
  | Dup => (1%nat, 1)
  | St_i8 | St_i16 | St_i32 | St_i64 | St_f | St_d | St_b => (2%nat, (-2))
  | St_Tup_s | Ld_s | Add_i | Add_f | Add_d | Add_p | Sub_i | Sub_f | Sub_d | Mul_i | Mul_f | Mul_d | Div_i | Div_f | Div_d
  | Mod_i | And_i | Or_i | Xor_i | ShL_i | And_b | Or_b | Cat_s | Eq_i | Eq_f | Eq_d | Eq_b | Eq_s | NE_i | NE_f | NE_d | NE_b
  | NE_s | LT_i | LT_f | LT_d | LT_s | GT_i | GT_f | GT_d | GT_s | LE_i | LE_f | LE_d | LE_s | GE_i | GE_f | GE_d | GE_s
  | Cmp_i | Cmp_f | Cmp_d | Cmp_b | Cmp_s | Like_const | Like_expr => (2%nat, (-1))
  | St_s => (3%nat, (-3))
  | Sel => (3%nat, (-2))
  end.

(** [Value], include/mutable/IR/Tuple.hpp 18-172: a 64 bit union; [VNone] is the all-zero value of the default constructor.  Reading
    a boolean as an integer sees zero bytes above the low byte (line 47); reading an integer as a boolean tests the low byte. *)
Inductive val : Set := VNone | VB (b : bool) | VI (z : Z).
Definition as_i (v : val) : Z := match v with VNone => 0 | VB b => if b then 1 else 0 | VI z => z end.
Definition as_b (v : val) : bool := match v with VNone => false | VB b => b | VI z => negb (z mod 256 =? 0) end.

Record instr := mkI { code : opcode; args : list nat }.
(** The fields of [StackMachine] that matter, StackMachine.hpp 58-69 *)
Record sm := mkSM { ops : list instr; ctx : list val; req : Z; cur : Z }.
Definition empty_sm : sm := mkSM [] [] 0 0.
(** [emit_X], StackMachine.hpp 149-156: arguments are [uint8_t] *)
Definition emit_op (o : opcode) (a : list nat) (m : sm) : sm :=
  let c := cur m + delta o in
  mkSM (ops m ++ [mkI o (map (fun x => Nat.modulo x 256) a)]) (ctx m) (Z.max (req m) c) c.
(** [emit(Opcode)], line 174, and [ops.push_back(...)]: no bookkeeping *)
Definition emit_raw (o : opcode) (m : sm) : sm := mkSM (ops m ++ [mkI o []]) (ctx m) (req m) (cur m).
(** [add_and_emit_load], lines 191-211 *)
Definition add_load (v : val) (m : sm) : sm := emit_op Ld_Ctx [length (ctx m)] (mkSM (ops m) (ctx m ++ [v]) (req m) (cur m)).

(** ** Execution, StackMachine.cpp 859-1540 *)
Inductive outcome : Set :=
| Ok (st : list (val * bool))      (* the stack, top first; the flag is the NULL bit *)
| Overrun                          (* write behind the allocated stack *)
| Underrun                         (* access below the bottom of the stack *)
| Trap                             (* arithmetic without defined result: signed overflow, division by zero *)
| BadIndex                         (* context or tuple index out of range *)
| Unmodelled.
Definition in64 (z : Z) : bool := (- 2 ^ 63 <=? z) && (z <? 2 ^ 63).
Definition push (cap : Z) (e : val * bool) (st : list (val * bool)) : outcome :=
  if Z.of_nat (length st) <? cap then Ok (e :: st) else Overrun.
(** [UNARY] / [BINARY], lines 1231-1248: the operation is applied to the payloads, whatever the NULL bits *)
Definition unary (f : val -> option val) (st : list (val * bool)) : outcome :=
  match st with
  | (v, n) :: st' => match f v with Some r => Ok ((r, n) :: st') | None => Trap end
  | [] => Underrun
  end.
Definition binary (f : val -> val -> option val) (st : list (val * bool)) : outcome :=
  match st with
  | (rhs, nr) :: (lhs, nl) :: st' => match f lhs rhs with Some r => Ok ((r, nl || nr) :: st') | None => Trap end
  | _ => Underrun
  end.
Definition arith (f : Z -> Z -> Z) (l r : val) : option val := let z := f (as_i l) (as_i r) in if in64 z then Some (VI z) else None.
Definition divide (f : Z -> Z -> Z) (l r : val) : option val :=
  if (as_i r =? 0) || negb (in64 (Z.quot (as_i l) (as_i r))) then None else Some (VI (f (as_i l) (as_i r))).
Definition compare_i (f : Z -> Z -> bool) (l r : val) : option val := Some (VB (f (as_i l) (as_i r))).
Definition compare_b (f : bool -> bool -> bool) (l r : val) : option val := Some (VB (f (as_b l) (as_b r))).
Notation tuples := (list (list (val * bool))) (only parsing).

Definition step (cap : Z) (cx : list val) (ts : tuples) (i : instr) (st : list (val * bool)) : outcome :=
  match code i, args i with
  | Push_Null, _ => push cap (VNone, true) st                                                      (* line 925 *)
  | Ld_Ctx, [k] => match nth_error cx k with Some v => push cap (v, false) st | None => BadIndex end      (* line 939 *)
  | Ld_Tup, [t; k] =>                                                                              (* line 963 *)
      match nth_error ts t with
      | Some tup => match nth_error tup k with Some e => push cap e st | None => BadIndex end
      | None => BadIndex
      end
  | Minus_i, _ => unary (fun v => let z := - as_i v in if in64 z then Some (VI z) else None) st         (* line 1257 *)
  | Neg_i, _ => unary (fun v => Some (VI (- as_i v - 1))) st                                      (* line 1329: ~x *)
  | Not_b, _ => unary (fun v => Some (VB (negb (as_b v)))) st                                     (* line 1374 *)
  | Cast_i_b, _ => unary (fun v => Some (VI (if as_b v then 1 else 0))) st                        (* line 1526 *)
  | Is_Null, _ => match st with (v, n) :: st' => Ok ((VB n, false) :: st') | [] => Underrun end    (* line 1518 *)
  | Add_i, _ => binary (arith Z.add) st                                                           (* lines 1262-1294 *)
  | Sub_i, _ => binary (arith Z.sub) st
  | Mul_i, _ => binary (arith Z.mul) st
  | Div_i, _ => binary (divide Z.quot) st
  | Mod_i, _ => binary (divide Z.rem) st
  | And_b, _ =>                                                                                   (* lines 1377-1387 *)
      match st with
      | (r, nr) :: (l, nl) :: st' =>
          let lhs := as_b l in let rhs := as_b r in
          Ok ((VB (lhs && rhs), (lhs || nl) && (rhs || nr) && (nl || nr)) :: st')
      | _ => Underrun
      end
  | Or_b, _ =>                                                                                    (* lines 1391-1401 *)
      match st with
      | (r, nr) :: (l, nl) :: st' =>
          let lhs := as_b l in let rhs := as_b r in
          Ok ((VB (lhs || rhs), (negb lhs || nl) && (negb rhs || nr) && (nl || nr)) :: st')
      | _ => Underrun
      end
  | Eq_i, _ => binary (compare_i Z.eqb) st                                                        (* lines 1423-1452 *)
  | NE_i, _ => binary (compare_i (fun a b => negb (a =? b))) st
  | LT_i, _ => binary (compare_i Z.ltb) st
  | GT_i, _ => binary (compare_i Z.gtb) st
  | LE_i, _ => binary (compare_i Z.leb) st
  | GE_i, _ => binary (compare_i Z.geb) st
  | Eq_b, _ => binary (compare_b Bool.eqb) st
  | NE_b, _ => binary (compare_b xorb) st
  | _, _ => Unmodelled
  end.
Fixpoint exec (cap : Z) (cx : list val) (ts : tuples) (l : list instr) (st : list (val * bool)) : outcome :=
  match l with
  | [] => Ok st                                                                                   (* the appended [Stop] *)
  | i :: l' => match step cap cx ts i st with Ok st' => exec cap cx ts l' st' | o => o end
  end.
(** [operator()], lines 859-880 and 1535-1540, of a machine run for the first time: the stack is allocated with the required size. *)
Definition run (m : sm) (ts : tuples) : outcome := exec (req m) (ctx m) ts (ops m) [].

(** ** Expressions and their types *)
Inductive nkind : Set := NInt | NDec.
(** Types (src/catalog/Type): the byte width / precision of a numeric type plays no role for the code emitted. *)
Inductive ty : Set := TNone | TBool | TNum (k : nkind) (scale : nat) | TDate.
Inductive aop : Set := APlus | AMinus | AMul | ADiv | AMod.
Inductive cop : Set := CEq | CNE | CLT | CGT | CLE | CGE.
Inductive expr : Set :=
| EAttr (tup idx : nat) (t : ty)       (* designator, aggregate or nested query: a slot of an input tuple, lines 85-90, 134-147, 510-515 *)
| EConst (v : val) (t : ty)            (* integer, boolean, date literal *)
| ENull
| EIsNull (e : expr)
| ECastInt (e : expr)                  (* INT(e), lines 113-131 *)
| EPos (e : expr) | ENeg (e : expr) | ETilde (e : expr) | ENot (e : expr)
| EArith (o : aop) (l r : expr)
| ECmp (o : cop) (l r : expr)
| EAnd (l r : expr) | EOr (l r : expr).

(** [arithmetic_join], src/catalog/Type.cpp 24-60, kind and scale *)
Definition kind_join (a b : nkind) : nkind := match a, b with NInt, NInt => NInt | _, _ => NDec end.
Definition num_join (a b : ty) : option ty :=
  match a, b with TNum k s, TNum k' s' => Some (TNum (kind_join k k') (Nat.max s s')) | _, _ => None end.
(** Semantic analysis, src/parse/Sema.cpp: UnaryExpr 724-758, BinaryExpr 760-945, FN_ISNULL and FN_INT; [None]: rejected (or, for
    [~] on a decimal and [INT] of a decimal, not implemented by the stack machine). *)
Fixpoint type_of (e : expr) : option ty :=
  match e with
  | EAttr _ _ t => match t with TNum NInt (S _) | TNone => None | _ => Some t end
  | EConst v t => match v, t with VB _, TBool | VI _, TNum NInt O | VI _, TDate => Some t | _, _ => None end
  | ENull => Some TNone
  | EIsNull e => match type_of e with Some _ => Some TBool | None => None end
  | ECastInt e => match type_of e with Some TBool | Some (TNum NInt _) => Some (TNum NInt O) | _ => None end
  | EPos e | ENeg e => match type_of e with Some (TNum k s) => Some (TNum k s) | _ => None end
  | ETilde e => match type_of e with Some (TNum NInt s) => Some (TNum NInt s) | _ => None end
  | ENot e => match type_of e with Some TBool => Some TBool | _ => None end
  | EArith _ l r => match type_of l, type_of r with Some a, Some b => num_join a b | _, _ => None end
  | ECmp o l r =>
      match type_of l, type_of r with
      | Some (TNum _ _), Some (TNum _ _) => Some TBool
      | Some TDate, Some TDate => Some TBool
      | Some TBool, Some TBool => match o with CEq | CNE => Some TBool | _ => None end
      | _, _ => None
      end
  | EAnd l r | EOr l r => match type_of l, type_of r with Some TBool, Some TBool => Some TBool | _, _ => None end
  end.
Definition scale_of (t : option ty) : nat := match t with Some (TNum _ s) => s | _ => O end.

(** ** The compiler, StackMachine.cpp 43-515 *)
(** [powi<int64_t>(10, n)]: wraps around for [n > 18] *)
Definition wrap64 (z : Z) : Z := (z + 2 ^ 63) mod 2 ^ 64 - 2 ^ 63.
Definition pow10 (n : nat) : Z := wrap64 (10 ^ Z.of_nat n).
(** [scale], lines 219-273 (integer and decimal operands) *)
Definition c_scale (from to : nat) (m : sm) : sm :=
  if Nat.ltb from to then emit_op Mul_i [] (add_load (VI (pow10 (to - from))) m)
  else if Nat.ltb to from then emit_op Div_i [] (add_load (VI (pow10 (from - to))) m)
  else m.
Definition cmp_i (o : cop) : opcode := match o with CEq => Eq_i | CNE => NE_i | CLT => LT_i | CGT => GT_i | CLE => LE_i | CGE => GE_i end.
Definition cmp_b (o : cop) : opcode := match o with CEq => Eq_b | CNE => NE_b | CLT => LT_s | CGT => GT_s | CLE => LE_s | CGE => GE_s end.
Fixpoint compile (e : expr) (m : sm) : sm :=
  match e with
  | EAttr t k _ => emit_op Ld_Tup [t; k] m
  | EConst v _ => add_load v m
  | ENull => emit_op Push_Null [] m
  | EIsNull e => emit_op Is_Null [] (compile e m)
  | ECastInt e => match type_of e with Some TBool => emit_op Cast_i_b [] (compile e m) | _ => compile e m end
  | EPos e => compile e m
  | ENeg e => emit_op Minus_i [] (compile e m)
  | ETilde e => emit_op Neg_i [] (compile e m)
  | ENot e => emit_op Not_b [] (compile e m)
  | EArith o l r =>
      let sl := scale_of (type_of l) in let sr := scale_of (type_of r) in let s := scale_of (type_of (EArith o l r)) in
      match o with
      | APlus | AMinus =>                                                                          (* lines 324-339 *)
          let m1 := c_scale sl s (compile l m) in
          let m2 := c_scale sr s (compile r m1) in
          emit_raw (match o with APlus => Add_i | _ => Sub_i end) m2
      | AMul =>                                                                                    (* lines 341-377 *)
          let m1 := emit_raw Mul_i (compile r (compile l m)) in
          if Nat.eqb (sl + sr - s) O then m1 else emit_op Div_i [] (add_load (VI (pow10 (sl + sr - s))) m1)
      | ADiv =>                                                                                    (* lines 379-435 *)
          let m1 := compile l m in
          let m2 := if Z.of_nat sl - Z.of_nat sr <? Z.of_nat s
                    then emit_op Mul_i [] (add_load (VI (pow10 (Z.to_nat (Z.of_nat s - (Z.of_nat sl - Z.of_nat sr))))) m1) else m1 in
          let m3 := emit_raw Div_i (compile r m2) in
          if Z.of_nat s <? Z.of_nat sl - Z.of_nat sr
          then emit_op Div_i [] (add_load (VI (pow10 (Z.to_nat (Z.of_nat sl - Z.of_nat sr - Z.of_nat s)))) m3) else m3
      | AMod => emit_op Mod_i [] (compile r (compile l m))                                         (* lines 437-441 *)
      end
  | ECmp o l r =>                                                                                  (* lines 450-482 *)
      match type_of l with
      | Some (TNum _ sl) =>
          let sr := scale_of (type_of r) in let s := Nat.max sl sr in
          emit_raw (cmp_i o) (c_scale sr s (compile r (c_scale sl s (compile l m))))
      | Some TBool => emit_raw (cmp_b o) (compile r (compile l m))
      | _ => emit_raw (cmp_i o) (compile r (compile l m))
      end
  | EAnd l r => emit_op And_b [] (compile r (compile l m))                                         (* lines 499-508 *)
  | EOr l r => emit_op Or_b [] (compile r (compile l m))
  end.

(** [emit(cnf, ...)], lines 571-608: a CNF is a list of clauses, a clause a list of (negated?, expression) *)
Fixpoint compile_clause (first : bool) (c : list (bool * expr)) (m : sm) : sm :=
  match c with
  | [] => m
  | (neg, e) :: c' =>
      let m1 := compile e m in
      let m2 := if neg : bool then emit_raw Not_b m1 else m1 in
      compile_clause false c' (if first then m2 else emit_raw Or_b m2)
  end.
Fixpoint compile_cnf (first : bool) (f : list (list (bool * expr))) (m : sm) : sm :=
  match f with
  | [] => m
  | c :: f' => let m1 := compile_clause true c m in compile_cnf false f' (if first then m1 else emit_raw And_b m1)
  end.
