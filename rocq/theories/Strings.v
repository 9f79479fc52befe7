(** * Model of the string helpers: include/mutable/util/fn.hpp and src/util/fn.cpp.

    A [std::string] is a list of characters; characters are 8-bit ([ascii]). *)
From Coq Require Import List Ascii Bool Arith.
Import ListNotations.
Open Scope char_scope.

Definition str := list ascii.
Definition NL : ascii := "010".
Definition DQ : ascii := """".

(** [escape(const std::string&, char, char)], src/util/fn.cpp:17-36. *)
Fixpoint escape (esc quote : ascii) (s : str) : str :=
  match s with
  | [] => []
  | c :: s' =>
      (if (c =? esc) || (c =? quote) then [esc; c]
       else if c =? NL then [esc; "n"]
       else [c]) ++ escape esc quote s'
  end.

(** [escape(char)], fn.hpp:275-283. *)
Definition escape_char (c : ascii) : str :=
  if c =? "\" then ["\"; "\"] else if c =? DQ then ["\"; DQ] else if c =? NL then ["\"; "n"] else [c].

(** [unescape], src/util/fn.cpp:38-61.  After an escape character the loop dereferences [++it] without checking for the end:
    an escape character at the end of the text makes it read [*end()] (undefined behaviour, [None]).  An invalid escape
    sequence emits the escape character and re-reads the character after it. *)
Fixpoint unescape (esc quote : ascii) (s : str) : option str :=
  match s with
  | [] => Some []
  | c :: s' =>
      if c =? esc then
        match s' with
        | [] => None
        | d :: s'' =>
            if (d =? esc) || (d =? quote) then option_map (cons d) (unescape esc quote s'')
            else if d =? "n" then option_map (cons NL) (unescape esc quote s'')
            else option_map (cons esc) (unescape esc quote s')
        end
      else option_map (cons c) (unescape esc quote s')
  end.

(** [quote], fn.hpp:289. *)
Definition quote (s : str) : str := [DQ] ++ s ++ [DQ].
(** [unquote], fn.hpp:291-300; [None] is the exception. *)
Definition unquote (q : ascii) (s : str) : option str :=
  if (length s <? 2)%nat then None else
  match s with
  | [] => None
  | c :: _ =>
      if negb (c =? q) then Some s else
      if negb (last s c =? q) then None else Some (removelast (tl s))
  end.
(** [interpret], fn.hpp:302-305. *)
Definition interpret (esc q : ascii) (s : str) : option str :=
  match unquote q s with Some u => unescape esc q u | None => None end.

(** [std::string::find(from, pos)]. *)
Fixpoint is_prefix (p s : str) : bool :=
  match p, s with
  | [], _ => true
  | _, [] => false
  | a :: p', b :: s' => (a =? b) && is_prefix p' s'
  end.
Fixpoint find_from (fuel : nat) (s from : str) (pos : nat) : option nat :=
  match fuel with
  | O => None
  | S f => if (length s <? pos)%nat then None
           else if is_prefix from (skipn pos s) then Some pos else find_from f s from (S pos)
  end.
Definition find (s from : str) (pos : nat) : option nat := find_from (S (length s)) s from pos.
(** [std::string::replace(pos, len, to)]. *)
Definition replace (s : str) (pos len : nat) (to : str) : str := firstn pos s ++ to ++ skipn (pos + len) s.
(** [replace_all], fn.hpp:35-43; [fuel] bounds the number of loop iterations, [None] if it does not suffice. *)
Fixpoint replace_loop (fuel : nat) (s from to : str) (pos : nat) : option str :=
  match fuel with
  | O => None
  | S f => match find s from pos with
           | None => Some s
           | Some p => replace_loop f (replace s p (length from) to) from to (p + length to)
           end
  end.
Definition replace_all (fuel : nat) (s from to : str) : option str := replace_loop fuel s from to 0.

(** [html_escape], src/util/fn.cpp:63-69. *)
Definition html_escape (fuel : nat) (s : str) : option str :=
  match replace_all fuel s ["&"] ["&"; "a"; "m"; "p"; ";"] with
  | None => None
  | Some s => match replace_all fuel s ["<"] ["&"; "l"; "t"; ";"] with
              | None => None
              | Some s => replace_all fuel s [">"] ["&"; "g"; "t"; ";"]
              end
  end.

(** [like], src/util/fn.cpp:71-123.  The two-dimensional array [dp] is a list of rows; row [i] is indexed by [j].
    The first loop (lines 80-94) computes the first column; [i] is the row number, [er] is [escaped_row], [prev] is
    [dp[i-1][0]].  [None] is the exception. *)
Fixpoint like_col0 (esc : ascii) (pat : str) (i er : nat) (prev : bool) : option (list bool) :=
  match pat with
  | [] => if (i =? er)%nat then None else Some []       (* [pattern.length() + 1 == escaped_row], line 93 *)
  | c :: pat' =>
      let escaped := (i =? er)%nat in
      if escaped && negb (c =? "_") && negb (c =? "%") && negb (c =? esc) then None else
      let er' := if negb escaped && (c =? esc) then S i else er in
      let cell := if negb escaped && (c =? "%") then prev else false in
      option_map (cons cell) (like_col0 esc pat' (S i) er' cell)
  end.
(** The loop over [j], lines 108-120: [diag = dp[i-1][j-1]], [up] the cells [dp[i-1][j..]], [left = dp[i][j-1]]. *)
Fixpoint like_row (escaped : bool) (c : ascii) (s : str) (diag : bool) (up : list bool) (left : bool) : list bool :=
  match s, up with
  | x :: s', u :: up' =>
      let cell := if negb escaped && (c =? "%") then left || u
                  else if (negb escaped && (c =? "_")) || (x =? c) then diag
                  else false in
      cell :: like_row escaped c s' u up' cell
  | _, _ => []
  end.
(** The second loop over [i], lines 97-121; [col0] are the cells [dp[i..][0]], [row] is row [i-1]. *)
Fixpoint like_rows (esc : ascii) (s pat : str) (i er : nat) (col0 : list bool) (row : list bool) : list bool :=
  match pat, col0 with
  | c :: pat', c0 :: col0' =>
      let escaped := (i =? er)%nat in
      if negb escaped && (c =? esc) then like_rows esc s pat' (S i) (S i) col0' row
      else match row with
           | d :: up => like_rows esc s pat' (S i) er col0' (c0 :: like_row escaped c s d up c0)
           | [] => []
           end
  | _, _ => row
  end.
Inductive like_result := LikeAssert | LikeThrow | LikeBool (b : bool).
Definition like (s pat : str) (esc : ascii) : like_result :=
  if (esc =? "_") || (esc =? "%") then LikeAssert else
  match like_col0 esc pat 1 0 true with
  | None => LikeThrow
  | Some col0 => LikeBool (nth (length s) (like_rows esc s pat 1 0 col0 (true :: repeat false (length s))) false)
  end.
