(** * Model of date constants: validation (src/parse/Sema.cpp 409-432), evaluation (src/backend/Interpreter.hpp 265-271) and printing
    (src/IR/Tuple.cpp 21-33; the same code in src/backend/StackMachine.cpp 1085-1100 and src/backend/V8Engine.cpp 388-400).

    Characters are their ASCII codes.  [sscanf]'s [%d] is modelled without leading white space (the lexer admits none in a date) and
    without overflow.  Datetimes ([timegm], [gmtime_r] of the C library) are not modelled. *)
From Coq Require Import ZArith List Bool.
Import ListNotations.
Local Open Scope Z_scope.

(** conversion to [int32_t] *)
Definition int32 (z : Z) : Z := (z + 2 ^ 31) mod 2 ^ 32 - 2 ^ 31.
Definition uint32 (z : Z) : Z := z mod 2 ^ 32.
(** Interpreter.hpp 270: [int32_t(unsigned(year) << 9 | month << 5 | day)] *)
Definition encode (year month day : Z) : Z := int32 (Z.lor (Z.lor (uint32 (Z.shiftl (uint32 year) 9)) (Z.shiftl month 5)) day).
(** Tuple.cpp 27-29 *)
Definition year_of (date : Z) : Z := Z.shiftr date 9.
Definition month_of (date : Z) : Z := Z.land (Z.shiftr date 5) 15.
Definition day_of (date : Z) : Z := Z.land date 31.
(** Sema.cpp 412-429 *)
Definition sema_accepts (year month day : Z) : bool :=
  negb (year =? 0) && negb ((month <? 1) || (month >? 12)) &&
  negb ((day <? 1) || ((month =? 2) && (day >? 29))
        || (((month =? 4) || (month =? 6) || (month =? 9) || (month =? 11)) && (day >? 30))
        || (((month =? 1) || (month =? 3) || (month =? 5) || (month =? 7) || (month =? 8) || (month =? 10) || (month =? 12)) && (day >? 31))).

(** decimal digits, most significant first *)
Fixpoint digits_fuel (f : nat) (n : Z) : list Z :=
  match f with O => [] | S f' => if n <? 10 then [48 + n] else digits_fuel f' (n / 10) ++ [48 + n mod 10] end.
Definition digits (n : Z) : list Z := digits_fuel 20 n.
(** [std::setw(w)] with [std::internal] and fill '0' *)
Definition pad (w : nat) (l : list Z) : list Z := repeat 48 (w - length l) ++ l.
Definition put_int (w : nat) (n : Z) : list Z := if n <? 0 then 45 :: pad (w - 1) (digits (- n)) else pad w (digits n).
(** Tuple.cpp 21-33 *)
Definition print_date (date : Z) : list Z :=
  put_int (if year_of date >? 0 then 4 else 5) (year_of date) ++ [45] ++ put_int 2 (month_of date) ++ [45] ++ put_int 2 (day_of date).

Definition is_digit (c : Z) : bool := (48 <=? c) && (c <=? 57).
Fixpoint scan_digits (l : list Z) (acc : Z) : Z * list Z :=
  match l with
  | c :: l' => if is_digit c then scan_digits l' (acc * 10 + (c - 48)) else (acc, l)
  | [] => (acc, [])
  end.
(** [%d] *)
Definition scan_unsigned (l : list Z) : option (Z * list Z) :=
  match l with c :: _ => if is_digit c then Some (scan_digits l 0) else None | [] => None end.
Definition scan_int (l : list Z) : option (Z * list Z) :=
  match l with
  | c :: l' => if c =? 45 then option_map (fun p => (- fst p, snd p)) (scan_unsigned l')
               else if c =? 43 then scan_unsigned l' else scan_unsigned l
  | [] => None
  end.
Definition scan_char (c : Z) (l : list Z) : option (list Z) := match l with x :: l' => if x =? c then Some l' else None | [] => None end.
(** [sscanf(text, "d'%d-%d-%d'", ...) == 3]; [None]: fewer than three numbers were assigned, the remaining variables are uninitialised *)
Definition scan_date (l : list Z) : option (Z * Z * Z) :=
  match scan_char 100 l with None => None | Some l =>
  match scan_char 39 l with None => None | Some l =>
  match scan_int l with None => None | Some (y, l) =>
  match scan_char 45 l with None => None | Some l =>
  match scan_int l with None => None | Some (m, l) =>
  match scan_char 45 l with None => None | Some l =>
  match scan_int l with None => None | Some (d, _) => Some (y, m, d)
  end end end end end end end.
(** [Interpreter::eval] of a TK_DATE token *)
Definition eval_date (l : list Z) : option Z := match scan_date l with Some (y, m, d) => Some (encode y m d) | None => None end.
