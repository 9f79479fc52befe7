(** * Model of the arithmetic helpers in include/mutable/util/fn.hpp.

    Unsigned integer types are identified by their width [w] in bits (8, 16, 32 or 64); values are [N] below [2^w] and
    arithmetic wraps modulo [2^w].  [None] means: an [M_insist] fails, an exception is thrown, or the C++ behaviour is
    undefined. *)
From Coq Require Import NArith ZArith List Bool.
Import ListNotations.
Open Scope N_scope.

Definition wr (w x : N) : N := x mod 2 ^ w.
(** [a - b] on a [w]-bit type *)
Definition wsub (w a b : N) : N := (a + (2 ^ w - wr w b)) mod 2 ^ w.
(** [~a] on a [w]-bit type *)
Definition wnot (w a : N) : N := N.lxor a (N.ones w).
(** Width of the builtin chosen by [if constexpr (sizeof(T) <= sizeof(unsigned))], fn.hpp:143-151 and 198-206. *)
Definition builtin_width (w : N) : N := if w <=? 32 then 32 else 64.
(** [__builtin_clz], [__builtin_clzl]: undefined for 0. *)
Definition builtin_clz (bw x : N) : option N := if x =? 0 then None else Some (bw - 1 - N.log2 x).

(** [is_pow_2], fn.hpp:129-132. *)
Definition is_pow_2 (w n : N) : bool := if n =? 0 then false else N.land n (wsub w n 1) =? 0.

(** [ceil_to_pow_2] (integral), fn.hpp:137-159.  [8 * sizeof(T) - lz] is computed in [std::size_t]: if [lz] exceeds the
    width, the shift amount is huge (undefined behaviour).  For types narrower than [int] the shifts are done in [int]. *)
Definition ceil_to_pow_2 (w n : N) : option N :=
  if n <=? 1 then Some 1 else
  match builtin_clz (builtin_width w) (n - 1) with
  | None => None
  | Some lz =>
      if lz =? 0 then None else                                            (* M_insist(lz > 0) *)
      if w <? lz then None else                                            (* shift amount wraps *)
      let ceiled := wr w (N.shiftl 1 (w - lz)) in
      let n2 := wr (N.max w 32) (N.shiftl n 1) in
      if ceiled <? n then None else
      if negb (n2 =? 0) && negb (ceiled <? n2) then None else
      if negb (is_pow_2 w ceiled) then None else Some ceiled
  end.

(** [ceil_to_multiple_of_pow_2], fn.hpp:172-178. *)
Definition ceil_to_multiple_of_pow_2 (w n p : N) : option N :=
  if negb (is_pow_2 w p) then None else
  let ceiled := N.land (wr w (n + wsub w p 1)) (wnot w (wsub w p 1)) in
  if negb (ceiled mod p =? 0) then None else Some ceiled.

(** [round_up_to_multiple], fn.hpp:183-191. *)
Definition round_up_to_multiple (w val factor : N) : option N :=
  if val =? 0 then Some val else
  if factor =? 0 then None else                                            (* throw invalid_argument *)
  let d := val / factor in
  let differ := if negb (wr w (d * factor) =? val) then 1 else 0 in
  Some (wr w (wr w (d + differ) * factor)).

(** [log2_floor], fn.hpp:196-207: computed in [std::size_t], returned as [T]. *)
Definition log2_floor (w n : N) : option N :=
  match builtin_clz (builtin_width w) n with
  | None => None
  | Some lz => Some (wr w (wsub 64 (wsub 64 w lz) 1))
  end.
(** [log2_ceil], fn.hpp:212-215. *)
Definition log2_ceil (w n : N) : option N :=
  if n <=? 1 then Some 0 else
  match log2_floor w (n - 1) with None => None | Some l => Some (wr w (l + 1)) end.

(** [Is_Page_Aligned], [Ceil_To_Next_Page], fn.hpp:700-703; [P] is the page size. *)
Definition is_page_aligned (P n : N) : bool := N.land n (wsub 64 P 1) =? 0.
Definition ceil_to_next_page (P n : N) : N := wr 64 (N.lor (wsub 64 n 1) (wsub 64 P 1) + 1).

(** [add_wo_overflow], [mul_wo_overflow], fn.hpp:632-645, 663-676.  A number is given with the width of its (unsigned) type;
    the common type of two unsigned types of at least 32 bits, or of twice the same type, is the wider one.
    [__builtin_add_overflow] computes the exact result and reports whether it does not fit. *)
Definition num := (N * N)%type.      (* width, value *)
Definition add_wo_overflow (a b : num) : num :=
  let w := N.max (fst a) (fst b) in
  let s := snd a + snd b in
  if 2 ^ w <=? s then (w, 2 ^ w - 1) else (w, s).
Definition mul_wo_overflow (a b : num) : num :=
  let w := N.max (fst a) (fst b) in
  let s := snd a * snd b in
  if 2 ^ w <=? s then (w, 2 ^ w - 1) else (w, s).
(** [sum_wo_overflow], [prod_wo_overflow] with at least two arguments, fn.hpp:648-660, 679-691. *)
Definition sum_wo_overflow (n0 n1 : num) (rest : list num) : num := fold_left add_wo_overflow rest (add_wo_overflow n0 n1).
Definition prod_wo_overflow (n0 n1 : num) (rest : list num) : num := fold_left mul_wo_overflow rest (mul_wo_overflow n0 n1).

(** [powi], fn.hpp:427-439, on a type with values [lo .. hi].  A product outside the range is signed overflow, i.e. undefined
    ([None]).  Recursion: an odd exponent [2q+1] goes via [2q] to [q], an even exponent [2q] to [q]. *)
Definition zmul (lo hi a b : Z) : option Z :=
  let p := (a * b)%Z in if ((lo <=? p) && (p <=? hi))%Z then Some p else None.
Fixpoint powi_pos (lo hi base : Z) (e : positive) : option Z :=
  let sq q := match powi_pos lo hi base q with None => None | Some tmp => zmul lo hi tmp tmp end in
  match e with
  | xH => zmul lo hi base 1
  | xO q => sq q
  | xI q => match sq q with None => None | Some t => zmul lo hi base t end
  end.
Definition powi (lo hi base : Z) (e : N) : option Z :=
  match e with N0 => Some 1%Z | Npos p => powi_pos lo hi base p end.
(** [powi] on an unsigned type: products wrap. *)
Fixpoint powu_pos (w base : N) (e : positive) : N :=
  let sq q := let tmp := powu_pos w base q in wr w (tmp * tmp) in
  match e with xH => wr w (base * 1) | xO q => sq q | xI q => wr w (base * sq q) end.
Definition powu (w base : N) (e : N) : N := match e with N0 => 1 | Npos p => powu_pos w base p end.

(** [setbit], fn.hpp:441-445: [*bytes ^= (-T(value) ^ *bytes) & (T(1) << n)]; [n] must be below the width. *)
Definition setbit (w : N) (bytes : N) (value : bool) (n : N) : option N :=
  if n <? w
  then Some (N.lxor bytes (N.land (N.lxor (wsub w 0 (if value then 1 else 0)) bytes) (wr w (N.shiftl 1 n))))
  else None.

(** [sequence_number], fn.hpp:708-732, on the bit pattern of a [double] ([w = 64]) or a [float] ([w = 32]). *)
Definition sequence_number (w u : N) : N :=
  if negb (N.land u (2 ^ (w - 1)) =? 0)
  then let u' := N.lxor u (2 ^ (w - 1)) in wsub w (2 ^ (w - 1)) u'
  else wr w (u + 2 ^ (w - 1)).

(** [is_range_wide_enough], fn.hpp:735-764, for signed, unsigned and floating-point types of width [w]; [n] is a
    [std::size_t].  [lt] is [operator<] on the type. *)
Definition range_wide_signed (w : N) (a b : Z) (n : N) : bool :=
  let '(a, b) := if (b <? a)%Z then (b, a) else (a, b) in
  if n =? 0 then true else
  if Bool.eqb (a <? 0)%Z (b <? 0)%Z then wsub 64 n 1 <=? Z.to_N ((b - a) mod 2 ^ Z.of_N w)%Z
  else
    let a_abs := wr w (Z.to_N ((Z.lnot a) mod 2 ^ Z.of_N w)%Z + 1) in
    (n <=? a_abs) || (wsub 64 (wsub 64 n a_abs) 1 <=? Z.to_N (b mod 2 ^ Z.of_N w)%Z).
Definition range_wide_unsigned (w a b n : N) : bool :=
  let '(a, b) := if b <? a then (b, a) else (a, b) in
  if n =? 0 then true else wsub 64 n 1 <=? wsub w b a.
Definition range_wide_float (w : N) (gt : N -> N -> bool) (a b : N) (n : N) : bool :=
  let '(a, b) := if gt a b then (b, a) else (a, b) in
  if n =? 0 then true else wsub 64 n 1 <=? wsub w (sequence_number w b) (sequence_number w a).
