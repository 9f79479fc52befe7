(** * Model of the lexer, src/lex/Lexer.hpp and src/lex/Lexer.cpp

    Characters are bytes; the lexer's current character [c_] is the head of [inp] and the rest of the stream its tail;
    [inp = []] is [c_ == EOF].  [in.putback(c_); c_ = chr] is [chr :: inp]: at the end of the stream [putback] has no effect,
    and the next [get] yields EOF again.  Line and column are unbounded.  Diagnostics are not modelled. *)
From Coq Require Import NArith String Ascii List Bool.
Import ListNotations.
Local Open Scope N_scope.

Definition chr (a : ascii) : N := N_of_ascii a.
Definition chars (s : string) : list N := map N_of_ascii (list_ascii_of_string s).
Local Coercion chr : ascii >-> N.
Local Notation "c == a" := (N.eqb c (chr a)) (at level 70).

(** include/mutable/util/fn.hpp:588-594. *)
Definition is_oct (c : N) : bool := (chr "0" <=? c) && (c <=? chr "7").
Definition is_dec (c : N) : bool := (chr "0" <=? c) && (c <=? chr "9").
Definition is_hex (c : N) : bool := is_dec c || ((chr "a" <=? c) && (c <=? chr "f")) || ((chr "A" <=? c) && (c <=? chr "F")).
Definition is_lower (c : N) : bool := (chr "a" <=? c) && (c <=? chr "z").
Definition is_upper (c : N) : bool := (chr "A" <=? c) && (c <=? chr "Z").
Definition is_alpha (c : N) : bool := is_lower c || is_upper c.
Definition is_alnum (c : N) : bool := is_dec c || is_alpha c.

(** include/mutable/tables/TokenType.tbl; keywords carry their text. *)
Inductive tk :=
  | TK_ERROR | TK_EOF | TK_IDENTIFIER | TK_STRING_LITERAL | TK_DATE | TK_DATE_TIME | TK_INSTRUCTION
  | TK_OCT_INT | TK_DEC_INT | TK_HEX_INT | TK_DEC_FLOAT | TK_HEX_FLOAT
  | TK_KEYWORD (text : list N)
  | TK_LPAR | TK_RPAR | TK_TILDE | TK_PLUS | TK_MINUS | TK_ASTERISK | TK_SLASH | TK_PERCENT | TK_DOTDOT | TK_EQUAL | TK_BANG_EQUAL
  | TK_LESS | TK_GREATER | TK_LESS_EQUAL | TK_GREATER_EQUAL | TK_COMMA | TK_DOT | TK_SEMICOL.

(** include/mutable/tables/Keywords.tbl. *)
Definition keywords : list (list N) := map chars
  ["AND"; "AS"; "ASC"; "BOOL"; "BY"; "CASCADE"; "CHAR"; "CHECK"; "CREATE"; "DATABASE"; "DATE"; "DATETIME"; "DECIMAL"; "DEFAULT";
   "DELETE"; "DELIMITER"; "DESC"; "DOUBLE"; "DROP"; "DSV"; "ESCAPE"; "EXISTS"; "FALSE"; "FLOAT"; "FROM"; "GROUP"; "HAS"; "HAVING";
   "HEADER"; "IF"; "IMPORT"; "INDEX"; "INSERT"; "INT"; "INTO"; "KEY"; "LIKE"; "LIMIT"; "NOT"; "NULL"; "OFFSET"; "ON"; "OR"; "ORDER";
   "PRIMARY"; "QUOTE"; "REFERENCES"; "RESTRICT"; "ROWS"; "SELECT"; "SET"; "SKIP"; "TABLE"; "TRUE"; "UNIQUE"; "UPDATE"; "USE";
   "USING"; "VALUES"; "VARCHAR"; "WHERE"]%string.

Record token := mkToken { tline : N; tcolumn : N; ttext : list N; ttype : tk }.

(** Lexer.hpp:24-31. *)
Record lexer := mkLexer { inp : list N; line : N; column : N; sline : N; scolumn : N; buf : list N }.

(** Lexer.hpp:34-45: the current character is a line feed that is not part of the input. *)
Definition initial (text : list N) : lexer := mkLexer (10 :: text) 0 0 0 0 [].

(** [step()], Lexer.hpp:55-67. *)
Definition step (l : lexer) : lexer :=
  match inp l with
  | 10 :: r => mkLexer r (line l + 1) 1 (sline l) (scolumn l) (buf l)
  | _ :: r => mkLexer r (line l) (column l + 1) (sline l) (scolumn l) (buf l)
  | [] => mkLexer [] (line l) (column l + 1) (sline l) (scolumn l) (buf l)
  end.
(** [push()], Lexer.hpp:69-72: at the end, EOF = -1 is converted to a [char]. *)
Definition push (l : lexer) : lexer :=
  let c := match inp l with c :: _ => c | [] => 255 end in
  step (mkLexer (inp l) (line l) (column l) (sline l) (scolumn l) (buf l ++ [c])).
(** [UNDO(CHR)], Lexer.cpp:6. *)
Definition undo (c : N) (l : lexer) : lexer := mkLexer (c :: inp l) (line l) (column l - 1) (sline l) (scolumn l) (buf l).
(** [c_ == c], [f(c_)]. *)
Definition at_ (f : N -> bool) (l : lexer) : bool := match inp l with c :: _ => f c | [] => false end.
(** [accept(c)], Lexer.hpp:74-80. *)
Definition accept (c : N) (l : lexer) : bool * lexer := if at_ (N.eqb c) l then (true, push l) else (false, l).
(** [internalize()], Lexer.hpp:82-85: a C string, up to the first NUL. *)
Fixpoint cstr (s : list N) : list N := match s with [] => [] | c :: r => if c =? 0 then [] else c :: cstr r end.
Definition make (l : lexer) (t : tk) : token * lexer := (mkToken (sline l) (scolumn l) (cstr (buf l)) t, l).
(** [Token(start_, pool(text), tt)]. *)
Definition make_text (l : lexer) (text : list N) (t : tk) : token * lexer := (mkToken (sline l) (scolumn l) text t, l).

(** [while (f(c_)) push();] *)
Fixpoint push_while_ (f : N -> bool) (s : list N) (l : lexer) : lexer :=
  match s with c :: r => if f c then push_while_ f r (push l) else l | [] => l end.
Definition push_while (f : N -> bool) (l : lexer) : lexer := push_while_ f (inp l) l.

(** Lexer.cpp:115-124. *)
Definition is_ident (c : N) : bool := (c == "_") || is_alnum c.
Definition read_keyword_or_identifier (l : lexer) : token * lexer :=
  let l := push_while is_ident l in
  let str := cstr (buf l) in
  make l (if existsb (fun k => if list_eq_dec N.eq_dec k str then true else false) keywords then TK_KEYWORD str else TK_IDENTIFIER).

(** Lexer.cpp:126-189. *)
Inductive base := Oct | Dec | Hex.
Definition base_eqb (a b : base) : bool := match a, b with Oct, Oct | Dec, Dec | Hex, Hex => true | _, _ => false end.
(** Lines 140-149: the sequence before the dot; [has] and [empty] are updated. *)
Fixpoint before_dot_ (is : base) (s : list N) (has : base) (empty : bool) (l : lexer) : base * bool * lexer :=
  match s with
  | [] => (has, empty, l)
  | c :: r =>
      match is with
      | Oct => if is_oct c then before_dot_ is r has false (push l)
               else if is_dec c then before_dot_ is r Dec false (push l) else (has, empty, l)
      | Dec => if is_dec c then before_dot_ is r has false (push l) else (has, empty, l)
      | Hex => if is_hex c then before_dot_ is r has false (push l) else (has, empty, l)
      end
  end.
Definition no_oct (b : base) : base := match b with Oct => Dec | b => b end.
Definition digit_of (is : base) : N -> bool := match is with Hex => is_hex | _ => is_dec end.
Definition exponent_char (is : base) (c : N) : bool := match is with Hex => (c == "p") || (c == "P") | _ => (c == "e") || (c == "E") end.
Definition read_number (l : lexer) : token * lexer :=
  let '(is, empty, l) := if at_ (fun c => c == "0") l then (Oct, false, push l) else (Dec, true, l) in          (* 133-134 *)
  let '(is, empty, l) := if at_ (fun c => (c == "x") || (c == "X")) l then (Hex, true, push l) else (is, empty, l) in  (* 135 *)
  let '(has, empty, l) := before_dot_ is (inp l) is empty l in
  let '(is, has, empty, fl, l) :=                                                                              (* 151-161 *)
    if at_ (fun c => c == ".") l then
      let l := push l in
      let is := no_oct is in let has := no_oct has in
      let empty := if at_ (digit_of is) l then false else empty in
      (is, has, empty, true, push_while (digit_of is) l)
    else (is, has, empty, false, l) in
  let '(is, has, empty, fl, l) :=                                                                              (* 163-175 *)
    if at_ (exponent_char is) l then
      let l := push l in
      let is := no_oct is in let has := no_oct has in
      let l := if at_ (fun c => (c == "-") || (c == "+")) l then push l else l in
      (is, has, negb (at_ is_dec l), true, push_while is_dec l)
    else (is, has, empty, fl, l) in
  if empty || negb (base_eqb is has) then make l TK_ERROR                                                      (* 177-181 *)
  else make l (match is with Oct => TK_OCT_INT | Dec => if fl : bool then TK_DEC_FLOAT else TK_DEC_INT | Hex => if fl then TK_HEX_FLOAT else TK_HEX_INT end).

(** Lexer.cpp:195-213: the loop of [read_string_literal]. *)
Definition is_escape (c : N) : bool := (c =? 34) || (c == "\") || (c == "n") || (c == "t").
Fixpoint string_loop (s : list N) (invalid : bool) (l : lexer) : bool * lexer :=
  match s with
  | [] => (invalid, l)
  | c :: r =>
      if c =? 34 then (invalid, l)
      else if c == "\" then
        let l := push l in
        match r with
        | [] => (true, push l)
        | e :: r' => string_loop r' (invalid || negb (is_escape e)) (push l)
        end
      else string_loop r invalid (push l)
  end.
(** Lexer.cpp:191-229. *)
Definition read_string_literal (l : lexer) : token * lexer :=
  let l := push l in
  let '(invalid, l) := string_loop (inp l) false l in
  if negb (at_ (N.eqb 34) l) then make l TK_ERROR
  else let l := push l in make l (if invalid : bool then TK_ERROR else TK_STRING_LITERAL).

(** Lexer.cpp:237: [DIGITS(num)]. *)
Fixpoint digits (num : nat) (invalid : bool) (l : lexer) : bool * lexer :=
  match num with
  | O => (invalid, l)
  | S k => if at_ is_dec l then digits k invalid (push l) else digits k true l
  end.
(** [invalid &= accept(c)]. *)
Definition and_accept (c : N) (invalid : bool) (l : lexer) : bool * lexer := let '(a, l) := accept c l in (invalid && a, l).
(** Lexer.cpp:231-271. *)
Definition read_date_or_datetime (l : lexer) : token * lexer :=
  let l := push l in
  let '(_, l) := accept "-"%char l in
  let '(inv, l) := digits 4 false l in
  let '(inv, l) := and_accept "-"%char inv l in
  let '(inv, l) := digits 2 inv l in
  let '(inv, l) := and_accept "-"%char inv l in
  let '(inv, l) := digits 2 inv l in
  let '(datetime, l) := accept " "%char l in
  let '(inv, l) :=
    if datetime : bool then
      let '(inv, l) := digits 2 inv l in
      let '(inv, l) := and_accept ":"%char inv l in
      let '(inv, l) := digits 2 inv l in
      let '(inv, l) := and_accept ":"%char inv l in
      digits 2 inv l
    else (inv, l) in
  if negb (at_ (fun c => c == "'") l) then make l TK_ERROR
  else let l := push l in make l (if inv : bool then TK_ERROR else if datetime then TK_DATE_TIME else TK_DATE).

(** Lexer.cpp:273-279. *)
Definition read_instruction (l : lexer) : token * lexer :=
  make (push_while (fun c => negb (c == ";")) (push l)) TK_INSTRUCTION.

(** Lexer.cpp:23-44: skip whitespace and comments; [true] is the end of the input. *)
Definition is_space (c : N) : bool := (c =? 32) || ((9 <=? c) && (c <=? 13)).
Fixpoint comment (s : list N) (l : lexer) : lexer :=       (* [while (c_ != EOF and c_ != '\n') step();] *)
  match s with c :: r => if c =? 10 then l else comment r (step l) | [] => l end.
Fixpoint skip (fuel : nat) (l : lexer) : option (bool * lexer) :=
  match fuel with
  | O => None
  | S f =>
      match inp l with
      | [] => Some (true, l)
      | c :: _ =>
          if is_space c then skip f (step l)
          else if c == "-" then
            let l1 := step l in
            if at_ (fun c => c == "-") l1 then let l2 := step l1 in skip f (comment (inp l2) l2)
            else Some (false, undo "-"%char l1)
          else Some (false, l)
      end
  end.

(** Lexer.cpp:20-106. *)
Definition set_start (l : lexer) : lexer := mkLexer (inp l) (line l) (column l) (line l) (column l) [].   (* 47-48 *)
Definition push_buf (c : N) (l : lexer) : lexer := mkLexer (inp l) (line l) (column l) (sline l) (scolumn l) (buf l ++ [c]).
Definition one (s : string) (t : tk) (l : lexer) : token * lexer := make_text (step l) (chars s) t.        (* LEX *)
Definition eof_token (l : lexer) : token * lexer := (mkToken (line l) (column l) (chars "EOF") TK_EOF, l).
(** Lines 99-105. *)
Definition otherwise (l : lexer) : token * lexer :=
  if at_ (fun c => (c == "_") || is_alpha c) l then read_keyword_or_identifier l
  else make (push l) TK_ERROR.
(** Lines 50-97. *)
Definition dispatch (l : lexer) : token * lexer :=
  match inp l with
  | [] => make (push l) TK_ERROR                      (* not reachable *)
  | c :: _ =>
      if is_dec c then read_number l
      else if c =? 34 then read_string_literal l
      else if c == "d" then
        let l1 := step l in
        if at_ (fun c => c == "'") l1 then read_date_or_datetime (push_buf "d"%char l1)
        else read_keyword_or_identifier (undo "d"%char l1)
      else if c == "(" then one "(" TK_LPAR l
      else if c == ")" then one ")" TK_RPAR l
      else if c == "~" then one "~" TK_TILDE l
      else if c == "+" then one "+" TK_PLUS l
      else if c == "-" then one "-" TK_MINUS l
      else if c == "*" then one "*" TK_ASTERISK l
      else if c == "/" then one "/" TK_SLASH l
      else if c == "%" then one "%" TK_PERCENT l
      else if c == "=" then one "=" TK_EQUAL l
      else if c == "!" then
        let l1 := step l in
        if at_ (fun c => c == "=") l1 then one "!=" TK_BANG_EQUAL l1 else otherwise (undo "!"%char l1)
      else if c == "<" then
        let l1 := step l in
        if at_ (fun c => c == "=") l1 then one "<=" TK_LESS_EQUAL l1 else make_text l1 (chars "<") TK_LESS
      else if c == ">" then
        let l1 := step l in
        if at_ (fun c => c == "=") l1 then one ">=" TK_GREATER_EQUAL l1 else make_text l1 (chars ">") TK_GREATER
      else if c == "," then one "," TK_COMMA l
      else if c == ";" then one ";" TK_SEMICOL l
      else if c == "." then
        let l1 := step l in
        if at_ (fun c => c == ".") l1 then one ".." TK_DOTDOT l1
        else if at_ is_dec l1 then read_number (undo "."%char l1)
        else make_text l1 (chars ".") TK_DOT
      else if c == "\" then read_instruction l
      else otherwise l
  end.
Definition next (l : lexer) : option (token * lexer) :=
  match skip (S (length (inp l))) l with
  | None => None
  | Some (true, l) => Some (eof_token l)
  | Some (false, l) => Some (dispatch (set_start l))
  end.

(** All tokens up to TK_EOF (which is not included), as a parser obtains them. *)
Fixpoint all_tokens (fuel : nat) (l : lexer) : option (list token) :=
  match fuel with
  | O => None
  | S f =>
      match next l with
      | None => None
      | Some (t, l') =>
          match ttype t with
          | TK_EOF => Some []
          | _ => option_map (cons t) (all_tokens f l')
          end
      end
  end.
Definition tokens (text : list N) : option (list token) := all_tokens (length text + 2) (initial text).
