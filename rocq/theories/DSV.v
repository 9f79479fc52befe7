(** * Model of the DSV reader, src/io/DSVReader.cpp and include/mutable/io/Reader.hpp

    The current character [c] is the head of the remaining input.  [c] has type [char], so that EOF (-1) and the byte 255 are the same
    character; [in.good()] is false exactly after a read beyond the end, i.e. when the remaining input is empty.
    The store is a list of rows, a row that was appended but not written is [None]; the stack machine that writes the rows remembers the
    next row to write.  Floating-point conversion ([strtod] and rounding) is a parameter.  Diagnostics are not modelled. *)
From Coq Require Import NArith ZArith String Ascii List Bool.
From Verif Require Import Lexer.
Import ListNotations.
Local Open Scope N_scope.
Local Notation "c == a" := (N.eqb c (chr a)) (at level 70).

(** Reader.hpp:48-61. *)
Record config := mkConfig { delimiter : N; quote : N; escape : N; has_header : bool; skip_header : bool; limit : nat }.

(** Types of columns (ErrorType, NoneType, Bitmap, FnType are unreachable). *)
Inductive ty := TBool | TString | TDate | TDateTime | TInt | TDecimal (scale : nat) | TFloat.

Section F.
(** The result of [strtod] and its checks, DSVReader.cpp:337-354: [None] if the text is not a number. *)
Variable float : Type.
Variable to_float : list N -> option float.

(** A date is represented by the literal that is evaluated (DSVReader.cpp:238, 277). *)
Inductive val := VBool (b : bool) | VString (s : list N) | VDate (literal : list N) | VInt (i : Z) | VFloat (d : float).
(** What reading a cell does to the tuple: set a value, set NULL, or nothing. *)
Inductive effect := Set_ (v : val) | Null | Keep.

Definition wrap (z : Z) : Z := ((z + 2 ^ 63) mod 2 ^ 64 - 2 ^ 63)%Z.    (* int64_t; overflow is undefined, modelled as wrapping *)

(** [c], [step()], Reader.hpp:106-118; [accept], 122. *)
Definition cur (s : list N) : N := match s with [] => 255 | c :: _ => c end.
Definition EOF : N := 255.
(** [c == EOF or c == '\n'], [... or c == delimiter]. *)
Definition eol (c : N) : bool := (c =? EOF) || (c =? 10).
Definition ends (cfg : config) (c : N) : bool := eol c || (c =? delimiter cfg).
Definition accept_ (c : N) (s : list N) : bool * list N := if cur s =? c then (true, tl s) else (false, s).

(** [while (not f(c)) push();]: the pushed characters and the rest. *)
Fixpoint until (f : N -> bool) (s : list N) : list N * list N :=
  match s with [] => ([], []) | c :: r => if f c then ([], s) else let '(a, b) := until f r in (c :: a, b) end.
Definition skip_until (f : N -> bool) (s : list N) : list N := snd (until f s).

(** [discard_cell()], [discard_row()], Reader.hpp:124-132. *)
Definition discard_cell (cfg : config) (s : list N) : list N :=
  if cur s =? quote cfg then
    let s := skip_until (fun c => eol c || (c =? quote cfg)) (tl s) in snd (accept_ (quote cfg) s)
  else skip_until (ends cfg) s.
Definition discard_row (s : list N) : list N := skip_until eol s.

(** DSVReader.cpp:155-166. *)
Definition read_bool (cfg : config) (s : list N) : effect * list N :=
  let '(buf, s) := until (ends cfg) s in
  if list_eq_dec N.eq_dec (cstr buf) (chars "TRUE") then (Set_ (VBool true), s)
  else if list_eq_dec N.eq_dec (cstr buf) (chars "FALSE") then (Set_ (VBool false), s)
  else (Keep, s).

(** DSVReader.cpp:176-188: a quote is escaped by a quote. *)
Fixpoint quoted_rfc (q : N) (s : list N) : list N * list N :=
  match s with
  | [] => ([], [])
  | c :: r =>
      if c =? EOF then ([], s)
      else if negb (c =? q) then let '(a, b) := quoted_rfc q r in (c :: a, b)
      else match r with
           | [] => ([], [])
           | c2 :: r2 => if c2 =? q then let '(a, b) := quoted_rfc q r2 in (c2 :: a, b) else ([], r)
           end
  end.
(** DSVReader.cpp:189-201: an escape character. *)
Fixpoint quoted_esc (q e : N) (s : list N) : list N * list N :=
  match s with
  | [] => ([], [])
  | c :: r =>
      if c =? EOF then ([], s)
      else if c =? q then ([], r)
      else if c =? e then match r with
           | [] => ([EOF], [])
           | c2 :: r2 => let '(a, b) := quoted_esc q e r2 in (c2 :: a, b)
           end
      else let '(a, b) := quoted_esc q e r in (c :: a, b)
  end.
(** DSVReader.cpp:168-217. *)
Definition read_string (cfg : config) (s : list N) : effect * list N :=
  let '(q, s) := accept_ (quote cfg) s in
  if q : bool then
    let '(buf, s) := if escape cfg =? quote cfg then quoted_rfc (quote cfg) s else quoted_esc (quote cfg) (escape cfg) s in
    (Set_ (VString (cstr buf)), s)
  else
    let '(buf, s) := until (ends cfg) s in
    if existsb (N.eqb (quote cfg)) buf then (Null, s) else (Set_ (VString (cstr buf)), s).

(** DSVReader.cpp:227-237, 258-275: digits and separators in a row; [goto invalid] at the first other character. *)
Inductive item := D | L (c : N).
Definition matches (i : item) (c : N) : bool := match i with D => is_dec c | L x => c =? x end.
Fixpoint read_items (is : list item) (s : list N) : bool * list N * list N :=
  match is with
  | [] => (true, [], s)
  | i :: is =>
      if matches i (cur s) then let '(ok, a, s') := read_items is (tl s) in (ok, cur s :: a, s')
      else (false, [], s)
  end.
Definition date_items : list item := [D; D; D; D; L (chr "-"); D; D; L (chr "-"); D; D].
Definition time_items : list item := [L (chr " "); D; D; L (chr ":"); D; D; L (chr ":"); D; D].
(** DSVReader.cpp:219-246 and 248-283. *)
Definition read_date (is : list item) (cfg : config) (s : list N) : effect * list N :=
  let '(has_quote, s) := accept_ (quote cfg) s in
  let '(sg, s) := if cur s == "-" then ([cur s], tl s) else ([], s) in
  let '(ok, a, s) := read_items is s in
  if ok : bool then
    let '(closed, s) := if has_quote : bool then accept_ (quote cfg) s else (true, s) in
    if closed : bool then (Set_ (VDate (cstr (chars "d'" ++ sg ++ a ++ chars "'"))), s) else (Null, s)
  else (Null, s).

(** [read_unsigned_int()], DSVReader.cpp:370-378. *)
Fixpoint read_digits (i : Z) (s : list N) : Z * list N :=
  match s with
  | c :: r => if is_dec c then read_digits (wrap (10 * i + Z.of_N c - 48)) r else (i, s)
  | [] => (i, [])
  end.
Definition sign_ (s : list N) : bool * list N :=
  let '(neg, s) := accept_ (chr "-") s in
  if neg : bool then (true, s) else (false, snd (accept_ (chr "+") s)).
(** Lines 296-303, 328-336: the end of a number. *)
Definition finish (cfg : config) (neg : bool) (i : Z) (s : list N) : effect * list N :=
  if negb (ends cfg (cur s)) then (Null, skip_until (ends cfg) s)
  else (Set_ (VInt (if neg then wrap (- i) else i)), s).
(** DSVReader.cpp:288-305. *)
Definition read_int (cfg : config) (s : list N) : effect * list N :=
  let '(neg, s) := sign_ s in
  let '(i, s) := read_digits 0 s in
  finish cfg neg i s.
(** DSVReader.cpp:307-337. *)
Fixpoint read_post (n : nat) (p : Z) (s : list N) : nat * Z * list N :=
  match n with
  | O => (O, p, s)
  | S k => match s with
           | c :: r => if is_dec c then read_post k (wrap (10 * p + Z.of_N c - 48)) r else (n, p, s)
           | [] => (n, p, [])
           end
  end.
Definition powi (n : nat) : Z := wrap (10 ^ Z.of_nat n).
Definition read_decimal (scale : nat) (cfg : config) (s : list N) : effect * list N :=
  let '(neg, s) := sign_ s in
  let '(d, s) := read_digits 0 s in
  let d := wrap (d * powi scale) in
  let '(dot, s) := accept_ (chr ".") s in
  if dot : bool then
    let '(n, p, s) := read_post scale 0 s in
    let p := wrap (p * powi n) in
    let s := skip_until (fun c => negb (is_dec c)) s in
    let d := wrap (if (0 <=? d)%Z then d + p else d - p) in
    finish cfg neg d s
  else finish cfg neg d s.
(** DSVReader.cpp:339-365. *)
Definition read_float (cfg : config) (s : list N) : effect * list N :=
  let '(buf, s) := until (ends cfg) s in
  match to_float (cstr buf) with Some d => (Set_ (VFloat d), s) | None => (Null, s) end.

(** Dispatch on the column's type, DSVReader.cpp:125. *)
Definition read_value (t : ty) (cfg : config) (s : list N) : effect * list N :=
  match t with
  | TBool => read_bool cfg s
  | TString => read_string cfg s
  | TDate => read_date date_items cfg s
  | TDateTime => read_date (date_items ++ time_items) cfg s
  | TInt => read_int cfg s
  | TDecimal sc => read_decimal sc cfg s
  | TFloat => read_float cfg s
  end.

(** The tuple: one slot per attribute of the table (hidden ones included). *)
Definition tuple := list (option val).
Fixpoint update {A : Type} (n : nat) (x : A) (l : list A) : list A :=
  match l, n with [], _ => [] | _ :: r, O => x :: r | y :: r, S k => y :: update k x r end.
Definition apply (e : effect) (id : nat) (t : tuple) : tuple :=
  match e with Set_ v => update id (Some v) t | Null => update id None t | Keep => t end.

(** A column of the file: the attribute's id and type, or [None] if the header names no attribute of the table. *)
Definition column := option (nat * ty).
(** DSVReader.cpp:106-131: the cells of a row; [true]: all cells were read; [false]: a delimiter was missing. *)
Fixpoint read_cells (cfg : config) (cols : list column) (first : bool) (s : list N) (t : tuple) : bool * list N * tuple :=
  match cols with
  | [] => (true, s, t)
  | col :: cols' =>
      let '(ok, s) := if first then (true, s) else accept_ (delimiter cfg) s in
      if ok : bool then
        match col with
        | Some (id, ct) =>
            if match cols' with [] => cur s =? 10 | _ => cur s =? delimiter cfg end
            then read_cells cfg cols' false s (update id None t)
            else let '(e, s) := read_value ct cfg s in read_cells cfg cols' false (discard_cell cfg s) (apply e id t)
        | None => read_cells cfg cols' false (discard_cell cfg s) t
        end
      else (false, discard_row s, t)
  end.

(** The store: its rows, the next row the stack machine writes. *)
Record store := mkStore { rows : list (option tuple); next_row : option nat }.
Definition append (st : store) : store := mkStore (rows st ++ [None]) (next_row st).
Definition drop (st : store) : store := mkStore (removelast (rows st)) (next_row st).
(** DSVReader.cpp:135-150. *)
Definition write (t : tuple) (st : store) : store :=
  let n := match next_row st with Some n => n | None => length (rows st) - 1 end%nat in
  mkStore (update n (Some t) (rows st)) (Some (S n)).

(** DSVReader.cpp:141-147; [ts]: ids of $ts_begin and $ts_end and the transaction's start time. *)
Definition stamp (ts : option (nat * nat * Z)) (t : tuple) : tuple :=
  match ts with Some (b, e, start) => update e (Some (VInt (-1))) (update b (Some (VInt start)) t) | None => t end.

(** DSVReader.cpp:102-154. *)
Fixpoint read_rows (fuel : nat) (cfg : config) (cols : list column) (ts : option (nat * nat * Z)) (idx : nat) (s : list N) (t : tuple) (st : store) : option store :=
  match fuel with
  | O => None
  | S f =>
      match s with
      | [] => Some st
      | _ =>
          if (idx <? limit cfg)%nat then
            let st := append st in
            match read_cells cfg cols true s t with
            | (false, s, t) => read_rows f cfg cols ts idx (tl s) t (drop st)
            | (true, s, t) =>
                if negb (eol (cur s)) then read_rows f cfg cols ts (S idx) (tl (discard_row s)) t st
                else let t := stamp ts t in read_rows f cfg cols ts (S idx) (tl s) t (write t st)
            end
          else Some st
      end
  end.

(** Attributes of the table: name, type, hidden? *)
Record attr := mkAttr { aname : list N; aty : ty; ahidden : bool }.
Fixpoint visible_from (i : nat) (l : list attr) : list column :=
  match l with [] => [] | a :: r => if ahidden a then visible_from (S i) r else Some (i, aty a) :: visible_from (S i) r end.
Fixpoint find_from (i : nat) (name : list N) (l : list attr) : column :=
  match l with [] => None | a :: r => if list_eq_dec N.eq_dec (aname a) name then Some (i, aty a) else find_from (S i) name r end.
(** DSVReader.cpp:54-76: the header; [fuel] bounds the number of columns. *)
Fixpoint read_header (fuel : nat) (cfg : config) (attrs : list attr) (s : list N) : list column * list N :=
  match fuel with
  | O => ([], s)
  | S f =>
      if eol (cur s) then ([], s)
      else
        let '(name, s) := until (ends cfg) s in
        let s := if cur s =? delimiter cfg then tl s else s in
        let '(cols, s) := read_header f cfg attrs s in
        (find_from 0 (cstr name) attrs :: cols, s)
  end.
(** DSVReader.cpp:64-86; [in.ignore(max, '\n')] starts after the current character. *)
Definition header (cfg : config) (attrs : list attr) (s : list N) : list column * list N :=
  if has_header cfg && negb (skip_header cfg) then
    let '(cols, s) := read_header (S (length s)) cfg attrs s in (cols, tl s)
  else (visible_from 0 attrs, if skip_header cfg then tl (skip_until (N.eqb 10) (tl s)) else s).
(** DSVReader.cpp:33-155. *)
Definition import (cfg : config) (attrs : list attr) (ts : option (nat * nat * Z)) (text : list N) (old : list (option tuple)) : option (list (option tuple)) :=
  let '(cols, s) := header cfg attrs text in
  option_map rows (read_rows (S (length s)) cfg cols ts 0 s (repeat None (length attrs)) (mkStore old None)).
End F.
