(** * Model of the numeric types: include/mutable/catalog/Type.hpp lines 392-460 and src/catalog/Type.cpp lines 24-60

    Floating-point computations of the code are IEEE operations of [Coq.Floats.SpecFloat] (round to nearest even) on
    binary64 (53, 1024) and binary32 (24, 128).  [unsigned] arithmetic is modelled without wrap-around (precisions are
    tiny).  Types are compared by content (they are pooled). *)
From Coq Require Import ZArith Lia Bool.
From Coq.Floats Require Import SpecFloat.
From Verif Require Arith.
Local Open Scope Z_scope.

(** Type.hpp 402: [kind_t] in the order of the enumeration; 47: [category_t]. *)
Inductive kind := N_Int | N_Float | N_Decimal.
Inductive category := TY_Scalar | TY_Vector.

(** Type.hpp 392-423: [Numeric]. *)
Record numeric := mkNumeric { cat : category; knd : kind; precision : Z; scale : Z }.

(** The order of the enumerators, used by [std::max]. *)
Definition kind_num (k : kind) : Z := match k with N_Int => 0 | N_Float => 1 | N_Decimal => 2 end.
Definition cat_num (c : category) : Z := match c with TY_Scalar => 0 | TY_Vector => 1 end.
Definition max_kind (a b : kind) : kind := if kind_num a <? kind_num b then b else a.
Definition max_cat (a b : category) : category := if cat_num a <? cat_num b then b else a.

(** Conversion of a double/float to an integer: [std::ceil] followed by the (exact) conversion; truncation. *)
Definition sf_ceil (v : spec_float) : Z :=
  match v with
  | S754_finite s m e =>
      let n := cond_Zopp s (Z.pos m) in
      if e <? 0 then - ((- n) / 2 ^ (- e)) else n * 2 ^ e
  | _ => 0
  end.
Definition sf_trunc (v : spec_float) : Z :=
  match v with
  | S754_finite s m e => cond_Zopp s (if e <? 0 then Z.pos m / 2 ^ (- e) else Z.pos m * 2 ^ e)
  | _ => 0
  end.

Definition d_ofZ (z : Z) : spec_float := binary_normalize 53 1024 z 0 false.
Definition f_ofZ (z : Z) : spec_float := binary_normalize 24 128 z 0 false.

(** Type.cpp 27: [LOG_2_OF_10 = 3.321928094887362] (numerator and denominator are exact doubles, so the quotient is
    the correctly rounded literal). *)
Definition LOG_2_OF_10 : spec_float := SFdiv 53 1024 (d_ofZ 3321928094887362) (d_ofZ 1000000000000000).

(** Type.hpp 400: [DECIMAL_TO_BINARY_DIGITS = 3.32192f]. *)
Definition DECIMAL_TO_BINARY_DIGITS : spec_float := SFdiv 24 128 (f_ofZ 332192) (f_ofZ 100000).

(** Type.cpp 36-46: the precision of an operand in bits. *)
Definition precision_bits (t : numeric) : Z :=
  match knd t with
  | N_Int => 8 * precision t
  | N_Float => precision t
  | N_Decimal => sf_ceil (SFmul 53 1024 LOG_2_OF_10 (d_ofZ (precision t)))
  end.

(** Type.cpp 92-105: the factories. *)
Definition Get_Decimal c digits s := mkNumeric c N_Decimal digits s.
Definition Get_Integer c bytes := mkNumeric c N_Int bytes 0.
Definition Get_Float c := mkNumeric c N_Float 32 0.
Definition Get_Double c := mkNumeric c N_Float 64 0.

(** Type.cpp 24-60: [arithmetic_join].  [None]: the assertion of line 55 fails. *)
Definition arithmetic_join (lhs rhs : numeric) : option numeric :=
  let c := max_cat (cat lhs) (cat rhs) in
  let k := max_kind (knd lhs) (knd rhs) in
  let prec := Z.max (precision_bits lhs) (precision_bits rhs) in
  let s := Z.max (scale lhs) (scale rhs) in
  match k with
  | N_Int => Some (Get_Integer c (prec / 8))
  | N_Float => if prec =? 32 then Some (Get_Float c) else
               if prec =? 64 then Some (Get_Double c) else None
  | N_Decimal => Some (Get_Decimal c (sf_trunc (SFdiv 53 1024 (d_ofZ prec) LOG_2_OF_10)) s)
  end.

(** Type.hpp 433-440: [size] in bits. *)
Definition size (t : numeric) : Z :=
  match knd t with
  | N_Int => 8 * precision t
  | N_Float => precision t
  | N_Decimal => match Arith.ceil_to_pow_2 32 (Z.to_N (sf_ceil (SFmul 24 128 DECIMAL_TO_BINARY_DIGITS (f_ofZ (precision t))))) with
                 | Some n => Z.of_N n
                 | None => 0                                              (* assertion of fn.hpp *)
                 end
  end.

(** Type.hpp 442: [alignment]. *)
Definition alignment (t : numeric) : Z := size t.

(** Type.cpp 163-172: [operator==]; 208-211: [hash] (64 bit). *)
Definition numeric_eqb (a b : numeric) : bool :=
  (cat_num (cat a) =? cat_num (cat b)) && (kind_num (knd a) =? kind_num (knd b)) &&
  (precision a =? precision b) && (scale a =? scale b).
Definition w64 (x : Z) : Z := x mod 2 ^ 64.
Definition numeric_hash (t : numeric) : Z :=
  Z.lor (Z.lxor (Z.lxor (w64 (precision t * 2 ^ 32)) (w64 (scale t * 2 ^ 3))) (w64 (kind_num (knd t) * 2))) (cat_num (cat t)).
