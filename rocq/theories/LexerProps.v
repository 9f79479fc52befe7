(** * Properties of the lexer (C37) *)
From Coq Require Import Arith NArith Lia String Ascii List Bool.
From Verif Require Import Lexer.
Import ListNotations.
Local Open Scope N_scope.

(** ** Specification *)
(** Positions: the line is one more than the number of line feeds before it, the column one more than the number of characters since the
    last line feed. *)
Fixpoint newlines (s : list N) : N := match s with [] => 0 | c :: r => (if c =? 10 then 1 else 0) + newlines r end.
Fixpoint last_line (s : list N) : list N :=
  match s with [] => [] | c :: r => if existsb (N.eqb 10) s then last_line r else s end.
Definition line_at (pre : list N) : N := 1 + newlines pre.
Definition column_at (pre : list N) : N := 1 + N.of_nat (length (last_line pre)).

(** White space and comments. *)
Definition whitespace (c : N) : Prop := In c [9; 10; 11; 12; 13; 32].
Inductive blank : list N -> Prop :=
  | blank_nil : blank []
  | blank_space c s : whitespace c -> blank s -> blank (c :: s)
  | blank_comment b s : ~ In 10 b -> blank s -> blank (chars "--" ++ b ++ 10 :: s).
Inductive blank_end : list N -> Prop :=
  | blank_end_blank s : blank s -> blank_end s
  | blank_end_comment s b : blank s -> ~ In 10 b -> blank_end (s ++ chars "--" ++ b).

(** Character classes. *)
Definition in_ (s : string) (c : N) : Prop := In c (chars s).
Definition decdigit := in_ "0123456789".
Definition octdigit := in_ "01234567".
Definition hexdigit := in_ "0123456789abcdefABCDEF".
Definition letter := in_ "abcdefghijklmnopqrstuvwxyzABCDEFGHIJKLMNOPQRSTUVWXYZ".
Definition wordchar c := decdigit c \/ letter c \/ in_ "_" c.

Definition word (s : list N) : Prop := exists c r, s = c :: r /\ (letter c \/ in_ "_" c) /\ Forall wordchar r.

(** An optional fraction, an optional exponent. *)
Inductive fraction (digit : N -> Prop) : list N -> Prop :=
  | no_fraction : fraction digit []
  | some_fraction b : Forall digit b -> fraction digit (chars "." ++ b).
Inductive exponent (letters : string) : list N -> Prop :=
  | no_exponent : exponent letters []
  | some_exponent c sg d : in_ letters c -> In sg [[]; chars "+"; chars "-"] -> Forall decdigit d -> d <> [] -> exponent letters (c :: sg ++ d).

Inductive number : tk -> list N -> Prop :=
  | number_oct s : Forall octdigit s -> number TK_OCT_INT (chars "0" ++ s)
  | number_dec c s : in_ "123456789" c -> Forall decdigit s -> number TK_DEC_INT (c :: s)
  | number_hex x s : in_ "xX" x -> Forall hexdigit s -> s <> [] -> number TK_HEX_INT (chars "0" ++ x :: s)
  | number_float a b e : Forall decdigit a -> fraction decdigit b -> exponent "eE" e -> b <> [] \/ e <> [] -> Exists decdigit (a ++ b) ->
      number TK_DEC_FLOAT (a ++ b ++ e)
  | number_hexfloat x a b e : in_ "xX" x -> Forall hexdigit a -> fraction hexdigit b -> exponent "pP" e -> b <> [] \/ e <> [] ->
      Exists hexdigit (a ++ b) -> number TK_HEX_FLOAT (chars "0" ++ x :: a ++ b ++ e).
(** What the lexer accepts in addition. *)
Inductive digitless : tk -> list N -> Prop :=
  | digitless_hexfloat x b e : in_ "xX" x -> b = [] \/ b = chars "." -> exponent "pP" e -> e <> [] -> digitless TK_HEX_FLOAT (chars "0" ++ x :: b ++ e).

(** The inside of a string literal. *)
Inductive string_body : list N -> Prop :=
  | body_nil : string_body []
  | body_char c s : c <> 34 -> c <> chr "\" -> string_body s -> string_body (c :: s)
  | body_escape e s : e = 34 \/ in_ "\nt" e -> string_body s -> string_body (chr "\" :: e :: s).

Definition digits_n (n : nat) (s : list N) : Prop := Forall decdigit s /\ length s = n.
Definition sign (s : list N) : Prop := s = [] \/ s = chars "-".
Inductive date : list N -> Prop :=
  | date_ sg y m d : sign sg -> digits_n 4 y -> digits_n 2 m -> digits_n 2 d -> date (sg ++ y ++ chars "-" ++ m ++ chars "-" ++ d).
Inductive time : list N -> Prop :=
  | time_ h m s : digits_n 2 h -> digits_n 2 m -> digits_n 2 s -> time (h ++ chars ":" ++ m ++ chars ":" ++ s).
(** What the lexer accepts instead: separators may be missing, and then what precedes them is not checked. *)
Definition digits_upto (n : nat) (s : list N) : Prop := Forall decdigit s /\ (length s <= n)%nat.
Definition opt (sep : string) (s : list N) : Prop := s = [] \/ s = chars sep.
Inductive sloppy_date : list N -> Prop :=
  | sloppy_date_ sg y s1 m s2 d : sign sg -> digits_upto 4 y -> digits_upto 2 m -> digits_n 2 d -> opt "-" s1 -> opt "-" s2 ->
      (s2 <> [] -> length m = 2%nat) -> (s2 <> [] -> s1 <> [] -> length y = 4%nat) -> sloppy_date (sg ++ y ++ s1 ++ m ++ s2 ++ d).
Inductive sloppy_date_time : list N -> Prop :=
  | sloppy_date_time_ sg y s1 mo s2 d h s3 mi s4 s : sign sg -> digits_upto 4 y -> digits_upto 2 mo -> digits_upto 2 d -> digits_upto 2 h ->
      digits_upto 2 mi -> digits_n 2 s -> opt "-" s1 -> opt "-" s2 -> opt ":" s3 -> opt ":" s4 ->
      (s4 <> [] -> length mi = 2%nat) -> (s4 <> [] -> s3 <> [] -> length h = 2%nat) -> (s4 <> [] -> s3 <> [] -> length d = 2%nat) ->
      (s4 <> [] -> s3 <> [] -> s2 <> [] -> length mo = 2%nat) -> (s4 <> [] -> s3 <> [] -> s2 <> [] -> s1 <> [] -> length y = 4%nat) ->
      sloppy_date_time (sg ++ y ++ s1 ++ mo ++ s2 ++ d ++ chars " " ++ h ++ s3 ++ mi ++ s4 ++ s).

Definition punctuators : list (list N * tk) := map (fun p => (chars (fst p), snd p))
  [("(", TK_LPAR); (")", TK_RPAR); ("~", TK_TILDE); ("+", TK_PLUS); ("-", TK_MINUS); ("*", TK_ASTERISK); ("/", TK_SLASH); ("%", TK_PERCENT);
   ("..", TK_DOTDOT); ("=", TK_EQUAL); ("!=", TK_BANG_EQUAL); ("<", TK_LESS); (">", TK_GREATER); ("<=", TK_LESS_EQUAL); (">=", TK_GREATER_EQUAL);
   (",", TK_COMMA); (".", TK_DOT); (";", TK_SEMICOL)]%string.

(** The documented tokens ... *)
Inductive lexeme : tk -> list N -> Prop :=
  | lex_word s : word s -> ~ In s keywords -> lexeme TK_IDENTIFIER s
  | lex_keyword s : In s keywords -> lexeme (TK_KEYWORD s) s
  | lex_number T s : number T s -> lexeme T s
  | lex_string b : string_body b -> lexeme TK_STRING_LITERAL (34 :: b ++ [34])
  | lex_date s : date s -> lexeme TK_DATE (chars "d'" ++ s ++ chars "'")
  | lex_datetime d t : date d -> time t -> lexeme TK_DATE_TIME (chars "d'" ++ d ++ chars " " ++ t ++ chars "'")
  | lex_instruction s : ~ In (chr ";") s -> lexeme TK_INSTRUCTION (chr "\" :: s)
  | lex_punctuator s T : In (s, T) punctuators -> lexeme T s.
(** ... and those the lexer accepts. *)
Inductive accepted : tk -> list N -> Prop :=
  | acc_lexeme T s : lexeme T s -> accepted T s
  | acc_digitless T s : digitless T s -> accepted T s
  | acc_date s : sloppy_date s -> accepted TK_DATE (chars "d'" ++ s ++ chars "'")
  | acc_datetime s : sloppy_date_time s -> accepted TK_DATE_TIME (chars "d'" ++ s ++ chars "'").

(** The character after a token does not belong to it. *)
Definition starts (P : N -> Prop) (s : list N) : Prop := exists c r, s = c :: r /\ P c.
Definition ends_before (T : tk) (rest : list N) : Prop :=
  match T with
  | TK_IDENTIFIER | TK_KEYWORD _ => ~ starts (fun c => wordchar c \/ in_ "'" c) rest
  | TK_OCT_INT | TK_DEC_INT | TK_HEX_INT | TK_DEC_FLOAT | TK_HEX_FLOAT => ~ starts (fun c => decdigit c \/ letter c \/ in_ "." c) rest
  | TK_INSTRUCTION => rest = [] \/ starts (eq (chr ";")) rest
  | TK_MINUS => ~ starts (eq (chr "-")) rest
  | TK_LESS | TK_GREATER => ~ starts (eq (chr "=")) rest
  | TK_DOT => ~ starts (fun c => decdigit c \/ in_ "." c) rest
  | _ => True
  end.

(** ** Auxiliary facts *)
Lemma range_in : forall n lo c, (lo <= c /\ c < lo + N.of_nat n) <-> In c (map (fun i => lo + N.of_nat i) (seq 0 n)).
Proof.
  intros n lo c. rewrite in_map_iff. setoid_rewrite in_seq. split.
  - intros [A B]. exists (N.to_nat (c - lo)). lia.
  - intros (i & A & B). lia.
Qed.
Lemma is_dec_spec : forall c, is_dec c = true <-> decdigit c.
Proof.
  intros c. unfold is_dec, decdigit, in_. rewrite andb_true_iff, !N.leb_le.
  etransitivity; [|apply (range_in 10 48)]. unfold chr; cbn -[seq]. lia.
Qed.
Lemma is_oct_spec : forall c, is_oct c = true <-> octdigit c.
Proof.
  intros c. unfold is_oct, octdigit, in_. rewrite andb_true_iff, !N.leb_le.
  etransitivity; [|apply (range_in 8 48)]. unfold chr; cbn -[seq]. lia.
Qed.
Lemma is_hex_spec : forall c, is_hex c = true <-> hexdigit c.
Proof.
  intros c. unfold is_hex, hexdigit, in_.
  rewrite !orb_true_iff, is_dec_spec, !andb_true_iff, !N.leb_le.
  replace (chars "0123456789abcdefABCDEF") with (chars "0123456789" ++ chars "abcdef" ++ chars "ABCDEF") by reflexivity.
  rewrite !in_app_iff. unfold decdigit, in_.
  assert (A : forall c, (chr "a" <= c /\ c <= chr "f") <-> In c (chars "abcdef")).
  { intros x. etransitivity; [|apply (range_in 6 97)]. cbn. unfold chr; cbn. lia. }
  assert (B : forall c, (chr "A" <= c /\ c <= chr "F") <-> In c (chars "ABCDEF")).
  { intros x. etransitivity; [|apply (range_in 6 65)]. cbn. unfold chr; cbn. lia. }
  rewrite A, B. tauto.
Qed.
Lemma is_alpha_spec : forall c, is_alpha c = true <-> letter c.
Proof.
  intros c. unfold is_alpha, is_lower, is_upper, letter, in_.
  rewrite !orb_true_iff, !andb_true_iff, !N.leb_le.
  replace (chars "abcdefghijklmnopqrstuvwxyzABCDEFGHIJKLMNOPQRSTUVWXYZ") with (chars "abcdefghijklmnopqrstuvwxyz" ++ chars "ABCDEFGHIJKLMNOPQRSTUVWXYZ") by reflexivity.
  rewrite !in_app_iff.
  assert (A : forall c, (chr "a" <= c /\ c <= chr "z") <-> In c (chars "abcdefghijklmnopqrstuvwxyz")).
  { intros x. etransitivity; [|apply (range_in 26 97)]. unfold chr; cbn -[seq]. lia. }
  assert (B : forall c, (chr "A" <= c /\ c <= chr "Z") <-> In c (chars "ABCDEFGHIJKLMNOPQRSTUVWXYZ")).
  { intros x. etransitivity; [|apply (range_in 26 65)]. unfold chr; cbn -[seq]. lia. }
  rewrite A, B. tauto.
Qed.
Lemma is_ident_spec : forall c, is_ident c = true <-> wordchar c.
Proof.
  intros c. unfold is_ident, wordchar, is_alnum. rewrite !orb_true_iff, is_dec_spec, is_alpha_spec, N.eqb_eq.
  assert (X : c = chr "_" <-> in_ "_" c) by (unfold in_, chr; cbn; split; [intros ->; auto|intros [->|[]]; auto]).
  rewrite X. generalize (decdigit c) (letter c) (in_ "_" c). tauto.
Qed.
Lemma is_space_spec : forall c, is_space c = true <-> whitespace c.
Proof.
  intros c. unfold is_space, whitespace. rewrite orb_true_iff, andb_true_iff, N.eqb_eq, !N.leb_le. cbn.
  split; [|intros [<-|[<-|[<-|[<-|[<-|[<-|[]]]]]]]; lia]. intros H.
  assert (X : c = 9 \/ c = 10 \/ c = 11 \/ c = 12 \/ c = 13 \/ c = 32) by lia. clear H.
  destruct X as [->|[->|[->|[->|[->| ->]]]]]; auto 10.
Qed.
Lemma refl_false : forall (b : bool) (P : Prop), (b = true <-> P) -> b = false -> ~ P.
Proof. intros b P H -> Q. apply H in Q. discriminate. Qed.

(** [span f s]: the longest prefix of characters with [f]. *)
Lemma span_exists : forall (f : N -> bool) s, exists a r, s = a ++ r /\ Forall (fun c => f c = true) a /\ ~ starts (fun c => f c = true) r.
Proof.
  intros f s. induction s as [|c s (a & r & -> & A & B)].
  - exists [], []. repeat split; auto. intros (c & r & X & _); discriminate.
  - destruct (f c) eqn:E.
    + exists (c :: a), r. repeat split; auto.
    + exists [], (c :: a ++ r). repeat split; auto. intros (x & y & X & Y). injection X as <- <-. congruence.
Qed.

(** Movement of the position. *)
Definition move1 (p : N * N) (c : N) : N * N := if c =? 10 then (fst p + 1, 1) else (fst p, snd p + 1).
Definition move (p : N * N) (s : list N) : N * N := fold_left move1 s p.
Definition pos (l : lexer) : N * N := (line l, column l).
Record reads (s : list N) (l l' : lexer) : Prop := mkReads {
  r_inp : inp l = s ++ inp l'; r_buf : buf l' = buf l ++ s; r_sl : sline l' = sline l; r_sc : scolumn l' = scolumn l; r_pos : pos l' = move (pos l) s }.
Record steps (s : list N) (l l' : lexer) : Prop := mkSteps {
  s_inp : inp l = s ++ inp l'; s_sl : sline l' = sline l; s_sc : scolumn l' = scolumn l; s_pos : pos l' = move (pos l) s }.
Lemma reads_nil : forall l, reads [] l l.
Proof. intros l. split; auto. now rewrite app_nil_r. Qed.
Lemma reads_trans : forall a b l l' l'', reads a l l' -> reads b l' l'' -> reads (a ++ b) l l''.
Proof.
  intros a b l l' l'' [A1 A2 A3 A4 A5] [B1 B2 B3 B4 B5]. split; try congruence.
  - now rewrite A1, B1, app_assoc.
  - now rewrite B2, A2, app_assoc.
  - unfold move in *. rewrite fold_left_app. congruence.
Qed.
Lemma reads_steps : forall s l l', reads s l l' -> steps s l l'.
Proof. intros s l l' [A B C D E]. split; auto. Qed.
Lemma steps_trans : forall a b l l' l'', steps a l l' -> steps b l' l'' -> steps (a ++ b) l l''.
Proof.
  intros a b l l' l'' [A1 A3 A4 A5] [B1 B3 B4 B5]. split; try congruence.
  - now rewrite A1, B1, app_assoc.
  - unfold move in *. rewrite fold_left_app. congruence.
Qed.
Lemma step_fact : forall c r l, inp l = c :: r ->
  step l = mkLexer r (fst (move1 (pos l) c)) (snd (move1 (pos l) c)) (sline l) (scolumn l) (buf l).
Proof.
  intros c r l H. unfold step. rewrite H. unfold move1, pos. cbn [fst snd].
  destruct (c =? 10) eqn:E.
  - apply N.eqb_eq in E. subst c. reflexivity.
  - apply N.eqb_neq in E. cbn [fst snd].
    destruct c as [|p]; [reflexivity|].
    do 4 (try (destruct p as [p|p|])); try reflexivity; congruence.
Qed.
Lemma step_inp : forall c r l, inp l = c :: r -> inp (step l) = r.
Proof. intros c r l H. now rewrite (step_fact _ _ _ H). Qed.
Lemma push_reads : forall c r l, inp l = c :: r -> reads [c] l (push l) /\ inp (push l) = r.
Proof.
  intros c r l H. unfold push. rewrite H.
  match goal with |- context [step ?x] => set (l1 := x) end.
  assert (E : inp l1 = c :: r) by reflexivity.
  rewrite (step_fact _ _ _ E). subst l1. cbn [inp line column sline scolumn buf]. split; [|reflexivity].
  split; cbn [inp line column sline scolumn buf]; auto. apply surjective_pairing || symmetry. all: try apply surjective_pairing.
Qed.
Lemma step_steps : forall c r l, inp l = c :: r -> steps [c] l (step l) /\ inp (step l) = r.
Proof.
  intros c r l H. rewrite (step_fact _ _ _ H). cbn [inp line column sline scolumn buf]. split; [|reflexivity].
  split; cbn [inp line column sline scolumn buf]; auto. apply surjective_pairing || symmetry. all: try apply surjective_pairing.
Qed.
Lemma at_cons : forall f c r l, inp l = c :: r -> at_ f l = f c.
Proof. intros f c r l H. unfold at_. now rewrite H. Qed.
Lemma at_true : forall f l, at_ f l = true -> exists c r, inp l = c :: r /\ f c = true.
Proof. intros f l H. unfold at_ in H. destruct (inp l) as [|c r] eqn:E; [discriminate|eauto]. Qed.
Lemma at_false : forall (f : N -> bool) l, ~ starts (fun c => f c = true) (inp l) -> at_ f l = false.
Proof.
  intros f l H. unfold at_. destruct (inp l) as [|c r] eqn:E; [reflexivity|].
  destruct (f c) eqn:F; [|reflexivity]. exfalso. apply H. exists c, r. auto.
Qed.
Lemma at_false_inv : forall (f : N -> bool) l, at_ f l = false -> ~ starts (fun c => f c = true) (inp l).
Proof. intros f l H (c & r & A & B). unfold at_ in H. rewrite A in H. congruence. Qed.

Lemma push_while_run : forall f s r l, inp l = s ++ r -> Forall (fun c => f c = true) s -> ~ starts (fun c => f c = true) r ->
  reads s l (push_while f l) /\ inp (push_while f l) = r.
Proof.
  intros f s r l H F E. unfold push_while. rewrite H.
  revert l H. induction F as [|c s Fc F IH]; intros l H.
  - cbn. destruct r as [|c r]; cbn.
    + split; [apply reads_nil|exact H].
    + destruct (f c) eqn:X; [exfalso; apply E; exists c, r; auto|]. split; [apply reads_nil|exact H].
  - cbn. rewrite Fc. destruct (push_reads _ _ _ H) as [A B].
    destruct (IH (push l) B) as [C D]. split; [|exact D].
    change (c :: s) with ([c] ++ s). eapply reads_trans; eauto.
Qed.
Lemma push_while_any : forall f l, exists s, reads s l (push_while f l) /\ Forall (fun c => f c = true) s /\ ~ starts (fun c => f c = true) (inp (push_while f l)).
Proof.
  intros f l. destruct (span_exists f (inp l)) as (s & r & A & B & C).
  destruct (push_while_run f s r l A B C) as [D E]. exists s. rewrite E. auto.
Qed.

(** ** Numbers *)
Lemma oct_dec : forall c, is_oct c = true -> is_dec c = true.
Proof. intros c. unfold is_oct, is_dec, chr. cbn. rewrite !andb_true_iff, !N.leb_le. lia. Qed.
Definition isnil {A : Type} (s : list A) : bool := match s with [] => true | _ => false end.
Lemma before_dot_run : forall is s r has e l, inp l = s ++ r -> Forall (fun c => digit_of is c = true) s -> ~ starts (fun c => digit_of is c = true) r ->
  exists l', before_dot_ is (inp l) has e l =
     (match is with Oct => if forallb is_oct s then has else Dec | _ => has end, if isnil s then e else false, l') /\ reads s l l' /\ inp l' = r.
Proof.
  intros is s r has e l H F E. rewrite H. revert has e l H. induction F as [|c s Fc F IH]; intros has e l H.
  - exists l. split; [|split; [apply reads_nil|exact H]]. cbn [isnil forallb app].
    destruct r as [|c r]; cbn; [now destruct is|].
    assert (X : digit_of is c = false) by (destruct (digit_of is c) eqn:X; [exfalso; apply E; exists c, r; auto|reflexivity]).
    destruct is; cbn in X; rewrite ?X; auto.
    destruct (is_oct c) eqn:Y; auto. apply oct_dec in Y. congruence.
  - destruct (push_reads _ _ _ H) as [A B]. cbn [app before_dot_ isnil].
    destruct is; cbn [digit_of] in Fc; rewrite ?Fc.
    + cbn [forallb]. destruct (is_oct c) eqn:O.
      * destruct (IH has false (push l) B) as (l' & X & Y & Z). rewrite X. exists l'. split; [now destruct (isnil s)|]. split; [|exact Z].
        change (c :: s) with ([c] ++ s). eapply reads_trans; eauto.
      * destruct (IH Dec false (push l) B) as (l' & X & Y & Z). rewrite X. exists l'. cbn [andb].
        split; [destruct (isnil s), (forallb is_oct s); reflexivity|]. split; [|exact Z].
        change (c :: s) with ([c] ++ s). eapply reads_trans; eauto.
    + destruct (IH has false (push l) B) as (l' & X & Y & Z). rewrite X. exists l'. split; [now destruct (isnil s)|]. split; [|exact Z].
      change (c :: s) with ([c] ++ s). eapply reads_trans; eauto.
    + destruct (IH has false (push l) B) as (l' & X & Y & Z). rewrite X. exists l'. split; [now destruct (isnil s)|]. split; [|exact Z].
      change (c :: s) with ([c] ++ s). eapply reads_trans; eauto.
Qed.

(** The three ways a number begins: base, text, and whether no digit was seen. *)
Inductive prefix_of : base -> list N -> bool -> list N -> Prop :=
  | prefix_hex x r : (x =? chr "x") || (x =? chr "X") = true -> prefix_of Hex [48; x] true r
  | prefix_oct r : ~ starts (fun c => (c =? chr "x") || (c =? chr "X") = true) r -> prefix_of Oct [48] false r
  | prefix_dec c r : ~ (c = 48 \/ (c =? chr "x") || (c =? chr "X") = true) -> prefix_of Dec [] true (c :: r).
Definition dot_text (d : option (list N)) : list N := match d with None => [] | Some s => chr "." :: s end.
Definition exp_text (e : option (N * list N * list N)) : list N := match e with None => [] | Some (c, sg, s) => c :: sg ++ s end.
Definition is_sign (c : N) : bool := (c =? chr "-") || (c =? chr "+").
Definition number_type (is : base) (empty0 : bool) (m : list N) (d : option (list N)) (e : option (N * list N * list N)) : tk :=
  let fl := match d, e with None, None => false | _, _ => true end in
  let has0 := match is with Oct => if forallb is_oct m then Oct else Dec | b => b end in
  let is' := if fl then no_oct is else is in
  let has' := if fl then no_oct has0 else has0 in
  let empty := match e with Some (_, _, s) => isnil s | None => empty0 && isnil m && match d with Some s => isnil s | None => true end end in
  if empty || negb (base_eqb is' has') then TK_ERROR
  else match is' with Oct => TK_OCT_INT | Dec => if fl then TK_DEC_FLOAT else TK_DEC_INT | Hex => if fl then TK_HEX_FLOAT else TK_HEX_INT end.
Definition dot_ok (is : base) (d : option (list N)) (r : list N) : Prop :=
  match d with
  | None => ~ starts (fun c => (c =? chr ".") = true) r
  | Some s => Forall (fun c => digit_of is c = true) s /\ ~ starts (fun c => digit_of is c = true) r
  end.
Definition exp_ok (is : base) (e : option (N * list N * list N)) (r : list N) : Prop :=
  match e with
  | None => ~ starts (fun c => exponent_char is c = true) r
  | Some (c, sg, s) => exponent_char is c = true /\ Forall (fun c => is_dec c = true) s /\ ~ starts (fun c => is_dec c = true) r /\
      ((sg = [] /\ ~ starts (fun c => is_sign c = true) (s ++ r)) \/ exists x, sg = [x] /\ is_sign x = true)
  end.

Lemma no_oct_digit : forall is c, digit_of (no_oct is) c = digit_of is c.
Proof. destruct is; reflexivity. Qed.
Lemma no_oct_exp : forall is c, exponent_char (no_oct is) c = exponent_char is c.
Proof. destruct is; reflexivity. Qed.

(** Stages of [read_number]. *)
Lemma prefix_run : forall is pre em rest l, inp l = pre ++ rest -> prefix_of is pre em rest ->
  exists l', (let '(is, empty, l) := if at_ (fun c => c =? chr "0") l then (Oct, false, push l) else (Dec, true, l) in
      if at_ (fun c => (c =? chr "x") || (c =? chr "X")) l then (Hex, true, push l) else (is, empty, l)) = (is, em, l') /\ reads pre l l' /\ inp l' = rest.
Proof.
  intros is pre em rest l H P. destruct P as [x r X|r X|c r X].
  - rewrite (at_cons _ _ _ _ H). change (48 =? chr "0") with true. cbn iota beta.
    destruct (push_reads _ _ _ H) as [A B]. cbn [app] in B. rewrite (at_cons _ _ _ _ B), X.
    destruct (push_reads _ _ _ B) as [C D]. exists (push (push l)). split; [reflexivity|]. split; [|exact D].
    change [48; x] with ([48] ++ [x]). eapply reads_trans; eauto.
  - rewrite (at_cons _ _ _ _ H). change (48 =? chr "0") with true. cbn iota beta.
    destruct (push_reads _ _ _ H) as [A B]. cbn [app] in B. rewrite at_false by (rewrite B; exact X).
    exists (push l). auto.
  - cbn [app] in H. rewrite (at_cons _ _ _ _ H).
    destruct (c =? chr "0") eqn:E; [apply N.eqb_eq in E; exfalso; apply X; left; exact E|]. cbn iota beta.
    rewrite (at_cons _ _ _ _ H). destruct ((c =? chr "x") || (c =? chr "X")) eqn:E2; [exfalso; apply X; right; reflexivity|].
    exists l. split; [reflexivity|]. split; [apply reads_nil|exact H].
Qed.
Lemma read_number_run : forall is pre em m d e r l,
  inp l = pre ++ m ++ dot_text d ++ exp_text e ++ r ->
  prefix_of is pre em (m ++ dot_text d ++ exp_text e ++ r) ->
  Forall (fun c => digit_of is c = true) m -> ~ starts (fun c => digit_of is c = true) (dot_text d ++ exp_text e ++ r) ->
  dot_ok is d (exp_text e ++ r) -> exp_ok is e r ->
  exists l', read_number l = make l' (number_type is em m d e) /\ reads (pre ++ m ++ dot_text d ++ exp_text e) l l' /\ inp l' = r.
Proof.
  intros is pre em m d e r l H P Fm Em Dd De.
  destruct (prefix_run _ _ _ _ l H P) as (l1 & Q1 & R1 & I1).
  assert (S1 : forall k : base * bool * lexer -> token * lexer,
    (let '(is, empty, l) := if at_ (fun c => c =? chr "0") l then (Oct, false, push l) else (Dec, true, l) in
     k (if at_ (fun c => (c =? chr "x") || (c =? chr "X")) l then (Hex, true, push l) else (is, empty, l))) = k (is, em, l1)).
  { intros k. rewrite <- Q1. destruct (at_ (fun c => c =? chr "0") l); reflexivity. }
  set (k := fun p : base * bool * lexer => let '(is, empty, l) := p in
     let '(has, empty, l) := before_dot_ is (inp l) is empty l in
     let '(is, has, empty, fl, l) :=
       if at_ (fun c => c =? chr ".") l then
         let l := push l in
         let is := no_oct is in let has := no_oct has in
         let empty := if at_ (digit_of is) l then false else empty in
         (is, has, empty, true, push_while (digit_of is) l)
       else (is, has, empty, false, l) in
     let '(is, has, empty, fl, l) :=
       if at_ (exponent_char is) l then
         let l := push l in
         let is := no_oct is in let has := no_oct has in
         let l := if at_ (fun c => (c =? chr "-") || (c =? chr "+")) l then push l else l in
         (is, has, negb (at_ is_dec l), true, push_while is_dec l)
       else (is, has, empty, fl, l) in
     if empty || negb (base_eqb is has) then make l TK_ERROR
     else make l (match is with Oct => TK_OCT_INT | Dec => if fl : bool then TK_DEC_FLOAT else TK_DEC_INT | Hex => if fl then TK_HEX_FLOAT else TK_HEX_INT end)).
  change (read_number l) with (let '(is, empty, l) := if at_ (fun c => c =? chr "0") l then (Oct, false, push l) else (Dec, true, l) in
     k (if at_ (fun c => (c =? chr "x") || (c =? chr "X")) l then (Hex, true, push l) else (is, empty, l))).
  rewrite S1. clear S1 Q1. subst k. cbv beta iota.
  destruct (before_dot_run is m (dot_text d ++ exp_text e ++ r) is em l1 I1 Fm Em) as (l2 & Q2 & R2 & I2). rewrite Q2. clear Q2.
  set (has := match is with Oct => if forallb is_oct m then is else Dec | _ => is end).
  set (em1 := if isnil m then em else false).
  (* the fraction *)
  assert (R3 : exists l3, (if at_ (fun c => c =? chr ".") l2 then
         let l := push l2 in
         let is := no_oct is in let has := no_oct has in
         let empty := if at_ (digit_of is) l then false else em1 in
         (is, has, empty, true, push_while (digit_of is) l)
       else (is, has, em1, false, l2))
     = (match d with None => is | _ => no_oct is end, match d with None => has | _ => no_oct has end,
        em1 && match d with Some s => isnil s | None => true end, match d with None => false | _ => true end, l3)
     /\ reads (dot_text d) l2 l3 /\ inp l3 = exp_text e ++ r).
  { destruct d as [s|]; cbn [dot_text dot_ok app] in *.
    - rewrite (at_cons _ _ _ _ I2), N.eqb_refl. destruct (push_reads _ _ _ I2) as [A B]. destruct Dd as [Fs Es].
      destruct (push_while_run (digit_of (no_oct is)) s (exp_text e ++ r) (push l2) B) as [C D].
      { eapply Forall_impl; [|exact Fs]. intros a. now rewrite no_oct_digit. }
      { intros (c & q & X & Y). apply Es. exists c, q. now rewrite no_oct_digit in Y. }
      exists (push_while (digit_of (no_oct is)) (push l2)). split; [|split; [|exact D]].
      + cbv zeta. repeat f_equal. destruct s as [|c s].
        * rewrite at_false; [now rewrite andb_true_r|]. rewrite B. cbn [app]. intros (c & q & X & Y). apply Es. exists c, q. now rewrite no_oct_digit in Y.
        * rewrite (at_cons _ _ _ _ B). inversion Fs; subst. rewrite no_oct_digit. cbn beta in *. replace (digit_of is c) with true. now rewrite andb_false_r.
      + change (chr "." :: s) with ([chr "."] ++ s). eapply reads_trans; eauto.
    - rewrite at_false by (rewrite I2; exact Dd). exists l2. rewrite andb_true_r. split; [reflexivity|]. split; [apply reads_nil|exact I2]. }
  destruct R3 as (l3 & Q3 & R3 & I3). rewrite Q3. clear Q3. cbv beta iota.
  set (is3 := match d with None => is | _ => no_oct is end). set (has3 := match d with None => has | _ => no_oct has end).
  set (fl3 := match d with None => false | _ => true end). set (em3 := em1 && match d with Some s => isnil s | None => true end).
  assert (X3 : forall c, exponent_char is3 c = exponent_char is c) by (intros c; unfold is3; destruct d; [apply no_oct_exp|reflexivity]).
  assert (R4 : exists l4, (if at_ (exponent_char is3) l3 then
         let l := push l3 in
         let is := no_oct is3 in let has := no_oct has3 in
         let l := if at_ (fun c => (c =? chr "-") || (c =? chr "+")) l then push l else l in
         (is, has, negb (at_ is_dec l), true, push_while is_dec l)
       else (is3, has3, em3, fl3, l3))
     = (match e with None => is3 | _ => no_oct is3 end, match e with None => has3 | _ => no_oct has3 end,
        match e with Some (_, _, s) => isnil s | None => em3 end, match e with None => fl3 | _ => true end, l4)
     /\ reads (exp_text e) l3 l4 /\ inp l4 = r).
  { destruct e as [[[c sg] s]|]; cbn [exp_text exp_ok app] in *.
    - rewrite (at_cons _ _ _ _ I3), X3. destruct De as (Xc & Fs & Es & Sg). rewrite Xc.
      destruct (push_reads _ _ _ I3) as [A B]. cbv zeta.
      assert (S : exists l', (if at_ (fun c => (c =? chr "-") || (c =? chr "+")) (push l3) then push (push l3) else push l3) = l' /\ reads (c :: sg) l3 l' /\ inp l' = s ++ r).
      { destruct Sg as [[-> Sg]|(x & -> & Sg)].
        - rewrite at_false by (rewrite B; exact Sg). exists (push l3). auto.
        - cbn [app] in B. rewrite (at_cons _ _ _ _ B). unfold is_sign in Sg. rewrite Sg. destruct (push_reads _ _ _ B) as [C D].
          exists (push (push l3)). split; [reflexivity|]. split; [|exact D]. change [c; x] with ([c] ++ [x]). eapply reads_trans; eauto. }
      destruct S as (l' & -> & RS & IS).
      destruct (push_while_run is_dec s r l' IS Fs Es) as [C D].
      exists (push_while is_dec l'). split; [|split; [|exact D]].
      + repeat f_equal. destruct s as [|x s].
        * rewrite at_false by (rewrite IS; exact Es). reflexivity.
        * rewrite (at_cons _ _ _ _ IS). inversion Fs; subst. cbn beta in *. replace (is_dec x) with true. reflexivity.
      + change (c :: sg ++ s) with ((c :: sg) ++ s). eapply reads_trans; eauto.
    - rewrite at_false.
      2:{ rewrite I3. intros (c & q & X & Y). apply De. exists c, q. now rewrite X3 in Y. }
      exists l3. split; [reflexivity|]. split; [apply reads_nil|exact I3]. }
  destruct R4 as (l4 & Q4 & R4 & I4). rewrite Q4. clear Q4. cbv beta iota.
  exists l4. split; [|split; [|exact I4]].
  - unfold number_type. subst is3 has3 fl3 em3 em1 has. generalize (forallb is_oct m) as fo. intros fo. clear.
    destruct fo, is, d as [s|], e as [[[ec sg] es]|], em, m as [|c0 m0]; cbn [isnil no_oct andb];
      repeat match goal with |- context [if ?b then _ else _] => destruct b eqn:?; cbn [isnil no_oct andb] end;
      reflexivity || (exfalso; cbn in *; congruence) || idtac.
  - eapply reads_trans; [exact R1|]. eapply reads_trans; [exact R2|]. eapply reads_trans; eauto.
Qed.

Lemma Forall_spec : forall (f : N -> bool) (P : N -> Prop) s, (forall c, f c = true <-> P c) -> (Forall (fun c => f c = true) s <-> Forall P s).
Proof. intros f P s H. split; apply Forall_impl; intros a; apply H. Qed.
Lemma starts_spec : forall (f : N -> bool) (P : N -> Prop) s, (forall c, f c = true <-> P c) -> (starts (fun c => f c = true) s <-> starts P s).
Proof. intros f P s H. split; intros (c & r & A & B); exists c, r; split; auto; now apply H. Qed.
Lemma starts_dec : forall (f : N -> bool) s, {starts (fun c => f c = true) s} + {~ starts (fun c => f c = true) s}.
Proof.
  intros f [|c s]; [right; intros (c & r & X & _); discriminate|].
  destruct (f c) eqn:E; [left; exists c, s; auto|right; intros (x & r & X & Y); injection X as <- <-; congruence].
Qed.
Lemma pieces : forall is rest, exists m d e r, rest = m ++ dot_text d ++ exp_text e ++ r /\
  Forall (fun c => digit_of is c = true) m /\ ~ starts (fun c => digit_of is c = true) (dot_text d ++ exp_text e ++ r) /\
  dot_ok is d (exp_text e ++ r) /\ exp_ok is e r.
Proof.
  intros is rest. destruct (span_exists (digit_of is) rest) as (m & r1 & -> & Fm & Em).
  assert (D : exists d r2, r1 = dot_text d ++ r2 /\ dot_ok is d r2).
  { destruct (starts_dec (fun c => c =? chr ".") r1) as [(c & q & -> & Y)|Y].
    - apply N.eqb_eq in Y. subst c. destruct (span_exists (digit_of is) q) as (s & r2 & -> & Fs & Es). exists (Some s), r2. repeat split; auto.
    - exists None, r1. split; [reflexivity|exact Y]. }
  destruct D as (d & r2 & -> & Dd).
  assert (E : exists e r, r2 = exp_text e ++ r /\ exp_ok is e r).
  { destruct (starts_dec (exponent_char is) r2) as [(c & q & -> & Y)|Y]; [|exists None, r2; split; [reflexivity|exact Y]].
    destruct (starts_dec is_sign q) as [(x & q' & -> & Z)|Z].
    - destruct (span_exists is_dec q') as (s & r & -> & Fs & Es). exists (Some (c, [x], s)), r. split; [reflexivity|]. repeat split; auto. right. eauto.
    - destruct (span_exists is_dec q) as (s & r & -> & Fs & Es). exists (Some (c, [], s)), r. split; [reflexivity|]. repeat split; auto. }
  destruct E as (e & r & -> & De). exists m, d, e, r. auto.
Qed.
Lemma eqb_in1 : forall c a, (c =? chr a) = true <-> In c [chr a].
Proof. intros c a. rewrite N.eqb_eq. cbn. intuition. Qed.
Lemma eqb_in2 : forall c a b, (c =? chr a) || (c =? chr b) = true <-> In c [chr a; chr b].
Proof. intros c a b. rewrite orb_true_iff, !N.eqb_eq. cbn. intuition. Qed.
Lemma exp_sound : forall is e r, exp_ok is e r -> match e with Some (_, _, s) => isnil s = false | None => True end ->
  exponent (match is with Hex => "pP" | _ => "eE" end) (exp_text e).
Proof.
  intros is [[[c sg] s]|] r; cbn [exp_ok exp_text]; [|constructor]. intros (A & B & C & D) E.
  constructor.
  - destruct is; cbn [exponent_char] in A; apply eqb_in2 in A; exact A.
  - destruct D as [[-> _]|(x & -> & X)]; [left; reflexivity|]. unfold is_sign in X. apply eqb_in2 in X.
    destruct X as [<-|[<-|[]]]; [right; right; left; reflexivity|right; left; reflexivity].
  - now apply (Forall_spec _ _ _ is_dec_spec).
  - destruct s; [discriminate|congruence].
Qed.
Lemma dot_sound : forall is P d r, (forall c, digit_of is c = true <-> P c) -> dot_ok is d r -> fraction P (dot_text d).
Proof.
  intros is P [s|] r H; cbn [dot_ok dot_text]; [|constructor]. intros [A B].
  change (chr "." :: s) with (chars "." ++ s). constructor. now apply (Forall_spec _ _ _ H).
Qed.
Lemma forallb_oct : forall m, forallb is_oct m = true -> Forall octdigit m.
Proof.
  intros m H. apply Forall_forall. intros x X. apply is_oct_spec. rewrite forallb_forall in H. auto.
Qed.
Lemma prefix_type : forall is pre em rest m d e r, prefix_of is pre em rest -> rest = m ++ dot_text d ++ exp_text e ++ r ->
  (is = Dec -> starts (fun c => is_dec c = true) rest \/ exists c q, rest = chr "." :: c :: q /\ is_dec c = true) ->
  Forall (fun c => digit_of is c = true) m -> ~ starts (fun c => digit_of is c = true) (dot_text d ++ exp_text e ++ r) ->
  dot_ok is d (exp_text e ++ r) -> exp_ok is e r ->
  number_type is em m d e = TK_ERROR \/ number (number_type is em m d e) (pre ++ m ++ dot_text d ++ exp_text e)
  \/ digitless (number_type is em m d e) (pre ++ m ++ dot_text d ++ exp_text e).
Proof.
  intros is pre em rest m d e r P Er St Fm Em Dd De.
  set (T := number_type is em m d e).
  assert (ET : T = number_type is em m d e) by reflexivity. clearbody T. unfold number_type in ET.
  set (fl := match d, e with None, None => false | _, _ => true end) in ET.
  assert (Hfl : fl = true -> dot_text d <> [] \/ exp_text e <> []).
  { subst fl. destruct d, e as [[[? ?] ?]|]; cbn; intros; try discriminate; (left; discriminate) || (right; discriminate). }
  assert (Hfl0 : fl = false -> dot_text d = [] /\ exp_text e = []) by (subst fl; destruct d, e as [[[? ?] ?]|]; cbn; intros; auto; discriminate).
  match type of ET with T = if ?b || _ then _ else _ => destruct b eqn:Eem end; [left; exact ET|]. cbn [orb] in ET.
  assert (Xe : match e with Some (_, _, s) => isnil s = false | None => True end) by (destruct e as [[[? ?] ?]|]; auto).
  pose proof (exp_sound is e r De Xe) as Ex.
  destruct P as [x q X|q X|c q X].
  - (* hex *) pose proof (dot_sound Hex hexdigit d _ is_hex_spec Dd) as Fr. cbn [digit_of] in Fm. apply (Forall_spec _ _ _ is_hex_spec) in Fm.
    apply eqb_in2 in X. change [chr "x"; chr "X"] with (chars "xX") in X.
    replace (base_eqb (if fl then no_oct Hex else Hex) (if fl then no_oct Hex else Hex)) with true in ET by (destruct fl; reflexivity). cbn [negb] in ET.
    destruct fl eqn:Ef.
    + cbn [no_oct] in ET. subst T.
      destruct (m ++ match d with Some s => s | None => [] end) as [|c0 r0] eqn:Q.
      * right. right. apply app_eq_nil in Q. destruct Q as [-> Q]. cbn [app].
        change (48 :: x :: dot_text d ++ exp_text e) with (chars "0" ++ x :: dot_text d ++ exp_text e). constructor; auto.
        { destruct d as [s|]; [subst s; right; reflexivity|left; reflexivity]. }
        { intros Z. destruct e as [[[? ?] ?]|]; [discriminate|]. cbn in Eem. destruct d as [s|]; [subst s|]; discriminate. }
      * right. left. change (number TK_HEX_FLOAT (chars "0" ++ x :: m ++ dot_text d ++ exp_text e)). constructor; auto.
        assert (F : Forall hexdigit (m ++ match d with Some s => s | None => [] end)).
        { apply Forall_app. split; [exact Fm|]. destruct d as [s|]; [|constructor]. destruct Dd as [Dd _]. now apply (Forall_spec _ _ _ is_hex_spec) in Dd. }
        rewrite Q in F. inversion F; subst. apply Exists_exists. exists c0. split; [|assumption].
        assert (I : In c0 (m ++ match d with Some s => s | None => [] end)) by (rewrite Q; left; reflexivity).
        apply in_app_iff in I. apply in_app_iff. destruct I as [I|I]; [left; exact I|right]. destruct d as [s|]; [right; exact I|destruct I].
    + right. left. destruct (Hfl0 eq_refl) as [A B]. rewrite A, B, !app_nil_r. subst T.
      change (number TK_HEX_INT (chars "0" ++ x :: m)). constructor; auto. intros ->. destruct d as [s|]; [discriminate A|].
      destruct e as [[[? ?] ?]|]; discriminate.
  - (* oct *) cbn [digit_of] in Fm. pose proof (dot_sound Oct decdigit d _ is_dec_spec Dd) as Fr.
    destruct fl eqn:Ef.
    + right. left. assert (ET' : T = TK_DEC_FLOAT) by (rewrite ET; destruct (forallb is_oct m); reflexivity). rewrite ET'.
      change ([48] ++ m ++ dot_text d ++ exp_text e) with ((48 :: m) ++ dot_text d ++ exp_text e). constructor; auto.
      * constructor; [left; reflexivity|]. now apply (Forall_spec _ _ _ is_dec_spec).
      * left. left. reflexivity.
    + destruct (forallb is_oct m) eqn:Fo; cbn in ET; [|left; exact ET]. right. left. subst T.
      destruct (Hfl0 eq_refl) as [A B]. rewrite A, B, !app_nil_r. change ([48] ++ m) with (chars "0" ++ m). constructor. now apply forallb_oct.
  - (* dec *) cbn [digit_of] in Fm. pose proof (dot_sound Dec decdigit d _ is_dec_spec Dd) as Fr. right. left.
    replace (base_eqb (if fl then no_oct Dec else Dec) (if fl then no_oct Dec else Dec)) with true in ET by (destruct fl; reflexivity). cbn [negb] in ET.
    cbn [app]. assert (Sx : Exists decdigit (m ++ dot_text d)).
    { destruct (St eq_refl) as [(c1 & q1 & E1 & D1)|(c1 & q1 & E1 & D1)].
      - destruct m as [|c2 m].
        + exfalso. cbn [app] in Er. apply Em. exists c1, q1. rewrite <- Er. auto.
        + left. rewrite Er in E1. injection E1 as <- _. now apply is_dec_spec.
      - apply Exists_app. destruct m as [|c2 m].
        + right. rewrite E1 in Er. cbn [app] in Er. destruct d as [s|].
          * cbn [dot_text app] in Er. injection Er as Er. destruct s as [|c3 s].
            { destruct Dd as [_ Dd]. exfalso. apply Dd. exists c1, q1. cbn [app] in Er. auto. }
            { cbn [app] in Er. injection Er as <- _. right. left. now apply is_dec_spec. }
          * exfalso. cbn [dot_text app dot_ok] in *. apply Dd. exists (chr "."), (c1 :: q1). split; [now rewrite <- Er|apply N.eqb_refl].
        + left. left. inversion Fm; subst. now apply is_dec_spec. }
    destruct fl eqn:Ef.
    + cbn [no_oct] in ET. subst T. constructor; auto. now apply (Forall_spec _ _ _ is_dec_spec).
    + subst T. destruct (Hfl0 eq_refl) as [A B]. rewrite A, B in *. rewrite !app_nil_r. rewrite app_nil_r in Sx. cbn [app] in Er.
      destruct m as [|c2 m]; [inversion Sx|]. cbn [app] in Er. injection Er as <- _.
      inversion Fm as [|? ? F1 F2]; subst. apply number_dec.
      * apply is_dec_spec in F1. unfold decdigit, in_ in F1. destruct F1 as [F1|F1]; [exfalso; apply X; left; auto|exact F1].
      * now apply (Forall_spec _ _ _ is_dec_spec).
Qed.
Lemma read_number_sound : forall l, starts (fun c => is_dec c = true) (inp l) \/ (exists c q, inp l = chr "." :: c :: q /\ is_dec c = true) ->
  exists T lex l', read_number l = make l' T /\ reads lex l l' /\ lex <> [] /\ (T = TK_ERROR \/ number T lex \/ digitless T lex).
Proof.
  intros l H.
  assert (P : exists is pre em rest, inp l = pre ++ rest /\ prefix_of is pre em rest /\ (pre <> [] \/ pre = [] /\ is = Dec)).
  { destruct (inp l) as [|c r] eqn:E.
    { destruct H as [(c & r & X & _)|(c & r & X & _)]; discriminate. }
    destruct (N.eq_dec c 48) as [->|N1].
    - destruct (starts_dec (fun c => (c =? chr "x") || (c =? chr "X")) r) as [(x & q & -> & X)|X].
      + exists Hex, [48; x], true, q. split; [reflexivity|]. split; [now constructor|]. left. discriminate.
      + exists Oct, [48], false, r. split; [reflexivity|]. split; [now constructor|]. left. discriminate.
    - exists Dec, [], true, (c :: r). split; [reflexivity|]. split; [|auto]. constructor. intros [A|A]; [auto|].
      apply eqb_in2 in A. destruct H as [(c1 & r1 & X & Y)|(c1 & r1 & X & Y)].
      + injection X as <- <-. destruct A as [<-|[<-|[]]]; discriminate Y.
      + injection X as -> ->. destruct A as [A|[A|[]]]; discriminate A. }
  destruct P as (is & pre & em & rest & E & P & Np).
  destruct (pieces is rest) as (m & d & e & r & Er & Fm & Em & Dd & De).
  rewrite Er in E. destruct (read_number_run is pre em m d e r l E) as (l' & A & B & C); auto; [now rewrite <- Er|].
  exists (number_type is em m d e), (pre ++ m ++ dot_text d ++ exp_text e), l'. split; [exact A|]. split; [exact B|].
  assert (St : is = Dec -> starts (fun c => is_dec c = true) rest \/ exists c q, rest = chr "." :: c :: q /\ is_dec c = true).
  { intros ->. destruct Np as [Np|[-> _]]; [inversion P; subst; congruence|]. cbn [app] in E. rewrite <- Er in E. now rewrite E in H. }
  split; [|eapply prefix_type; eauto].
  destruct Np as [Np|[-> ->]]; [destruct pre; [congruence|discriminate]|]. cbn [app].
  intros X. destruct (app_eq_nil _ _ X) as [-> X2]. destruct (app_eq_nil _ _ X2) as [X3 X4]. rewrite X3, X4 in *. cbn [app] in *. subst rest.
  destruct (St eq_refl) as [S|(c & q & S & S2)]; [exact (Em S)|].
  destruct d; [discriminate X3|]. apply Dd. exists (chr "."), (c :: q). split; [exact S|apply N.eqb_refl].
Qed.

Lemma decdigit_letter : forall c, decdigit c -> letter c -> False.
Proof.
  intros c A B. apply is_dec_spec in A. apply is_alpha_spec in B. unfold is_dec, is_alpha, is_lower, is_upper, chr in *. cbn in *.
  rewrite ?orb_true_iff, ?andb_true_iff, ?N.leb_le in *. lia.
Qed.
Definition after_number (rest : list N) : Prop := ~ starts (fun c => decdigit c \/ letter c \/ in_ "." c) rest.
Lemma after_not : forall rest (f : N -> bool), after_number rest -> (forall c, f c = true -> decdigit c \/ letter c \/ in_ "." c) ->
  ~ starts (fun c => f c = true) rest.
Proof. intros rest f H F (c & r & A & B). apply H. exists c, r. auto. Qed.
Lemma letter_in : forall s c, (forallb (fun x => is_alpha x) (chars s)) = true -> In c (chars s) -> letter c.
Proof. intros s c H I. apply is_alpha_spec. rewrite forallb_forall in H. auto. Qed.
Lemma hexdigit_cases : forall c, hexdigit c -> decdigit c \/ letter c.
Proof.
  intros c H. unfold hexdigit, in_ in H.
  replace (chars "0123456789abcdefABCDEF") with (chars "0123456789" ++ chars "abcdefABCDEF") in H by reflexivity.
  apply in_app_iff in H. destruct H as [H|H]; [left; exact H|right; eapply letter_in; [|exact H]; reflexivity].
Qed.
Lemma digit_after : forall is rest, after_number rest -> ~ starts (fun c => digit_of is c = true) rest.
Proof.
  intros is rest H. apply (after_not _ (digit_of is) H). intros c X. destruct is; cbn in X.
  - left. now apply is_dec_spec.
  - left. now apply is_dec_spec.
  - apply is_hex_spec, hexdigit_cases in X. tauto.
Qed.
Lemma dot_after : forall rest, after_number rest -> ~ starts (fun c => (c =? chr ".") = true) rest.
Proof. intros rest H. apply (after_not _ (fun c => c =? chr ".") H). intros c X. right. right. apply eqb_in1 in X. exact X. Qed.
Lemma x_letter : forall c, (c =? chr "x") || (c =? chr "X") = true -> letter c.
Proof. intros c X. apply eqb_in2 in X. eapply (letter_in "xX"); [|exact X]. reflexivity. Qed.
Lemma exp_letter : forall is c, exponent_char is c = true -> letter c.
Proof.
  intros is c X. destruct is; cbn [exponent_char] in X; apply eqb_in2 in X; [eapply (letter_in "eE")|eapply (letter_in "eE")|eapply (letter_in "pP")]; try exact X; reflexivity.
Qed.
Lemma exp_after : forall is rest, after_number rest -> ~ starts (fun c => exponent_char is c = true) rest.
Proof. intros is rest H. apply (after_not _ (exponent_char is) H). intros c X. right. left. eapply exp_letter; eauto. Qed.
Lemma sign_not_dec : forall c, is_sign c = true -> is_dec c = true -> False.
Proof. intros c A. unfold is_sign in A. apply eqb_in2 in A. destruct A as [<-|[<-|[]]]; discriminate. Qed.
Lemma exp_complete : forall is e rest, exponent (match is with Hex => "pP" | _ => "eE" end) e -> after_number rest ->
  exists e', e = exp_text e' /\ exp_ok is e' rest /\ (e = [] -> e' = None) /\ match e' with Some (_, _, s) => isnil s = false | None => True end.
Proof.
  intros is e rest X Ar. destruct X as [|c sg d A B C D].
  - exists None. split; [reflexivity|]. split; [now apply exp_after|]. split; auto.
  - exists (Some (c, sg, d)). split; [reflexivity|]. split; [|split; [discriminate|destruct d; [congruence|reflexivity]]].
    cbn [exp_ok]. split; [destruct is; cbn [exponent_char]; apply eqb_in2; exact A|]. split; [now apply (Forall_spec _ _ _ is_dec_spec)|].
    split; [apply (digit_after Dec _ Ar)|].
    destruct B as [<-|[<-|[<-|[]]]]; [left; split; [reflexivity|]|right; eexists; split; reflexivity|right; eexists; split; reflexivity].
    destruct d as [|y d]; [congruence|]. intros (z & q & Z1 & Z2). injection Z1 as <- _. inversion C; subst.
    eapply sign_not_dec; [exact Z2|]. now apply is_dec_spec.
Qed.
Lemma exp_not_digit : forall is e rest, exp_ok is e rest -> is <> Hex -> after_number rest -> ~ starts (fun c => digit_of is c = true) (exp_text e ++ rest).
Proof.
  intros is [[[c sg] s]|] rest H Nh Ar; cbn [exp_text app].
  - destruct H as (H & _). intros (x & r & X & Y). injection X as <- _. apply exp_letter in H.
    destruct is; try congruence; cbn in Y; apply is_dec_spec in Y; eapply decdigit_letter; eauto.
  - now apply digit_after.
Qed.
Lemma p_not_hex : forall c, exponent_char Hex c = true -> is_hex c = true -> False.
Proof. intros c A. cbn [exponent_char] in A. apply eqb_in2 in A. destruct A as [<-|[<-|[]]]; discriminate. Qed.
Lemma exp_not_digit' : forall is e rest, exp_ok is e rest -> after_number rest -> ~ starts (fun c => digit_of is c = true) (exp_text e ++ rest).
Proof.
  intros is e rest H Ar. destruct is; try (apply exp_not_digit; auto; discriminate).
  destruct e as [[[c sg] s]|]; cbn [exp_text app]; [|now apply digit_after].
  destruct H as (H & _). intros (x & r & X & Y). injection X as <- _. eapply p_not_hex; eauto.
Qed.
Lemma exp_not_dot : forall is e rest, exp_ok is e rest -> after_number rest -> ~ starts (fun c => (c =? chr ".") = true) (exp_text e ++ rest).
Proof.
  intros is [[[c sg] s]|] rest H Ar; cbn [exp_text app].
  - destruct H as (H & _). intros (x & r & X & Y). injection X as <- _. apply exp_letter in H. apply eqb_in1 in Y.
    destruct Y as [<-|[]]. apply is_alpha_spec in H. discriminate.
  - now apply dot_after.
Qed.
Lemma dot_complete : forall is P b e rest, (forall c, digit_of is c = true <-> P c) -> fraction P b -> exp_ok is e rest -> after_number rest ->
  exists d, b = dot_text d /\ dot_ok is d (exp_text e ++ rest) /\ ~ starts (fun c => digit_of is c = true) (dot_text d ++ exp_text e ++ rest) /\
    (b = [] -> d = None).
Proof.
  intros is P b e rest H F De Ar. destruct F as [|b F].
  - exists None. cbn [dot_text app dot_ok]. split; [reflexivity|]. split; [eapply exp_not_dot; eauto|]. split; [now apply exp_not_digit'|auto].
  - exists (Some b). cbn [dot_text app dot_ok]. split; [reflexivity|]. split; [|split; [|discriminate]].
    + split; [now apply (Forall_spec _ _ _ H)|now apply exp_not_digit'].
    + intros (x & r & X & Y). injection X as <- _. destruct is; discriminate Y.
Qed.
Lemma xprefix_letter : forall c, decdigit c \/ c = chr "." -> (c =? chr "x") || (c =? chr "X") = true -> False.
Proof.
  intros c A B. apply x_letter in B. destruct A as [A| ->]; [eapply decdigit_letter; eauto|]. apply is_alpha_spec in B. discriminate.
Qed.
Lemma read_number_complete : forall T lex rest l, number T lex -> after_number rest -> inp l = lex ++ rest ->
  exists l', read_number l = make l' T /\ reads lex l l' /\ inp l' = rest.
Proof.
  intros T lex rest l H Ar I.
  destruct H as [s Fs|c s Hc Fs|x s Hx Fs Ns|a b e Fa Fb He Hbe Hd|x a b e Hx Fa Fb He Hbe Hd].
  - (* oct *)
    destruct (read_number_run Oct [48] false s None None rest l) as (l' & A & B & C); auto.
    + constructor. cbn [dot_text exp_text app]. destruct s as [|c s]; cbn [app].
      * apply (after_not _ (fun c => (c =? chr "x") || (c =? chr "X")) Ar). intros c X. right. left. now apply x_letter.
      * intros (y & r & Y1 & Y2). injection Y1 as <- _. inversion Fs; subst. eapply xprefix_letter; [left|exact Y2].
        apply is_dec_spec, oct_dec, is_oct_spec. assumption.
    + eapply Forall_impl; [|exact Fs]. intros a X. apply oct_dec. now apply is_oct_spec.
    + cbn [dot_text exp_text app]. now apply digit_after.
    + cbn [dot_ok exp_text app]. now apply dot_after.
    + now apply exp_after.
    + exists l'. split; [|split; [|exact C]].
      * rewrite A. unfold number_type. replace (forallb is_oct s) with true; [reflexivity|]. symmetry. apply forallb_forall. intros y Y.
        apply is_oct_spec. rewrite Forall_forall in Fs. auto.
      * cbn [dot_text exp_text] in B. rewrite !app_nil_r in B. exact B.
  - (* dec *)
    assert (Hc' : decdigit c) by (right; exact Hc).
    destruct (read_number_run Dec [] true (c :: s) None None rest l) as (l' & A & B & C); auto.
    + cbn [dot_text exp_text app]. constructor. intros [X|X].
      * subst c. unfold in_ in Hc. cbn in Hc. intuition discriminate.
      * eapply xprefix_letter; [left; exact Hc'|exact X].
    + constructor; [now apply is_dec_spec|]. now apply (Forall_spec _ _ _ is_dec_spec).
    + cbn [dot_text exp_text app]. now apply digit_after.
    + cbn [dot_ok exp_text app]. now apply dot_after.
    + now apply exp_after.
    + exists l'. split; [|split; [|exact C]].
      * rewrite A. reflexivity.
      * cbn [dot_text exp_text app] in B. rewrite !app_nil_r in B. exact B.
  - (* hex *)
    destruct (read_number_run Hex [48; x] true s None None rest l) as (l' & A & B & C); auto.
    + constructor. now apply eqb_in2.
    + now apply (Forall_spec _ _ _ is_hex_spec).
    + cbn [dot_text exp_text app]. now apply digit_after.
    + cbn [dot_ok exp_text app]. now apply dot_after.
    + now apply exp_after.
    + exists l'. split; [|split; [|exact C]].
      * rewrite A. destruct s; [congruence|reflexivity].
      * cbn [dot_text exp_text app] in B. rewrite !app_nil_r in B. exact B.
  - (* dec float *)
    destruct a as [|c a].
    + destruct (exp_complete Dec e rest He Ar) as (e' & -> & De & Ne & Xe).
      destruct (dot_complete Dec decdigit b e' rest is_dec_spec Fb De Ar) as (d & -> & Dd & Em & Nd).
      cbn [app] in *. destruct d as [s|]; [|inversion Hd].
      destruct (read_number_run Dec [] true [] (Some s) e' rest l) as (l' & A & B & C); auto.
      * now rewrite I, <- app_assoc.
      * cbn [dot_text app]. constructor. intros [X|X]; [discriminate X|]. eapply xprefix_letter; [right; reflexivity|exact X].
      * exists l'. split; [|split; [exact B|exact C]]. rewrite A. unfold number_type. destruct e' as [[[? ?] es]|]; [now rewrite Xe|].
        destruct s; [|reflexivity]. inversion Hd as [? ? X|? ? X]; subst; [|inversion X]. exfalso. revert X. unfold decdigit, in_; cbn. intuition discriminate.
    + inversion Fa as [|? ? Fc Fa']; subst. destruct (N.eq_dec c 48) as [->|N0].
      * destruct (exp_complete Oct e rest He Ar) as (e' & -> & De & Ne & Xe).
        destruct (dot_complete Oct decdigit b e' rest is_dec_spec Fb De Ar) as (d & -> & Dd & Em & Nd).
        destruct (read_number_run Oct [48] false a d e' rest l) as (l' & A & B & C); auto.
        { rewrite I. cbn [app]. now rewrite <- !app_assoc. }
        { constructor. destruct a as [|y a]; cbn [app].
          - destruct d as [s|]; cbn [dot_text app].
            + intros (z & r & Z1 & Z2). injection Z1 as <- _. eapply xprefix_letter; [right; reflexivity|exact Z2].
            + destruct e' as [[[c sg] s]|]; cbn [exp_text app].
              * destruct De as (De & _). intros (z & r & Z1 & Z2). injection Z1 as <- _. cbn [exponent_char] in De. apply eqb_in2 in De, Z2.
                destruct De as [<-|[<-|[]]]; destruct Z2 as [Z2|[Z2|[]]]; discriminate Z2.
              * apply (after_not _ (fun c => (c =? chr "x") || (c =? chr "X")) Ar). intros c X. right. left. now apply x_letter.
          - intros (z & r & Z1 & Z2). injection Z1 as <- _. inversion Fa'; subst. eapply xprefix_letter; [left; eassumption|exact Z2]. }
        { now apply (Forall_spec _ _ _ is_dec_spec). }
        exists l'. split; [|split; [exact B|exact C]]. rewrite A. unfold number_type.
        destruct d as [s|], e' as [[[ec sg] es]|]; try rewrite Xe; cbn [andb orb]; try (destruct (forallb is_oct a); reflexivity).
        exfalso. cbn in Hbe. destruct Hbe; congruence.
      * destruct (exp_complete Dec e rest He Ar) as (e' & -> & De & Ne & Xe).
        destruct (dot_complete Dec decdigit b e' rest is_dec_spec Fb De Ar) as (d & -> & Dd & Em & Nd).
        destruct (read_number_run Dec [] true (c :: a) d e' rest l) as (l' & A & B & C); auto.
        { rewrite I. cbn [app]. now rewrite <- !app_assoc. }
        { cbn [app]. constructor. intros [X|X]; [congruence|]. eapply xprefix_letter; [left; exact Fc|exact X]. }
        { now apply (Forall_spec _ _ _ is_dec_spec). }
        exists l'. split; [|split; [exact B|exact C]]. rewrite A. unfold number_type.
        destruct d as [s|], e' as [[[ec sg] es]|]; try rewrite Xe; try reflexivity.
        exfalso. cbn in Hbe. destruct Hbe; congruence.
  - (* hex float *)
    destruct (exp_complete Hex e rest He Ar) as (e' & -> & De & Ne & Xe).
    destruct (dot_complete Hex hexdigit b e' rest is_hex_spec Fb De Ar) as (d & -> & Dd & Em & Nd).
    destruct (read_number_run Hex [48; x] true a d e' rest l) as (l' & A & B & C); auto.
    + rewrite I. cbn [app]. change (chars "0") with [48]. cbn [app]. now rewrite <- !app_assoc.
    + constructor. now apply eqb_in2.
    + now apply (Forall_spec _ _ _ is_hex_spec).
    + exists l'. split; [|split; [exact B|exact C]]. rewrite A. unfold number_type.
      destruct d as [s|], e' as [[[ec sg] es]|]; try rewrite Xe; try reflexivity.
      * destruct a; [|reflexivity]. destruct s; [|reflexivity]. cbn [app dot_text] in Hd.
        inversion Hd as [? ? X|? ? X]; subst; [|inversion X]. exfalso. apply is_hex_spec in X. discriminate X.
      * exfalso. cbn in Hbe. destruct Hbe; congruence.
Qed.

(** ** Words and instructions *)
Lemma cstr_no_nul : forall s, ~ In 0 s -> cstr s = s.
Proof.
  induction s as [|c s IH]; intros H; [reflexivity|]. cbn [cstr]. destruct (c =? 0) eqn:E.
  - apply N.eqb_eq in E. subst. exfalso. apply H. left. reflexivity.
  - rewrite IH; [reflexivity|]. intros X. apply H. right. exact X.
Qed.
Lemma wordchar_nul : ~ wordchar 0.
Proof. intros H. apply is_ident_spec in H. discriminate. Qed.
Lemma word_chars : forall s, word s -> Forall wordchar s.
Proof. intros s (c & r & -> & A & B). constructor; [unfold wordchar; tauto|exact B]. Qed.
Lemma word_no_nul : forall s, Forall wordchar s -> ~ In 0 s.
Proof. intros s H X. rewrite Forall_forall in H. exact (wordchar_nul (H _ X)). Qed.
Definition word_type (s : list N) : tk := if in_dec (list_eq_dec N.eq_dec) s keywords then TK_KEYWORD s else TK_IDENTIFIER.
Lemma existsb_keywords : forall s, existsb (fun k => if list_eq_dec N.eq_dec k s then true else false) keywords = if in_dec (list_eq_dec N.eq_dec) s keywords then true else false.
Proof.
  intros s. destruct (in_dec (list_eq_dec N.eq_dec) s keywords) as [H|H].
  - apply existsb_exists. exists s. split; [exact H|]. destruct (list_eq_dec N.eq_dec s s); congruence.
  - apply not_true_is_false. intros X. apply existsb_exists in X. destruct X as (k & A & B). destruct (list_eq_dec N.eq_dec k s); congruence.
Qed.
Lemma read_word_run : forall s rest l, inp l = s ++ rest -> buf l = [] -> Forall wordchar s -> ~ starts wordchar rest ->
  exists l', read_keyword_or_identifier l = make l' (word_type s) /\ reads s l l' /\ inp l' = rest.
Proof.
  intros s rest l H Hb F E. unfold read_keyword_or_identifier.
  destruct (push_while_run is_ident s rest l H) as [A B].
  - now apply (Forall_spec _ _ _ is_ident_spec).
  - intros X. apply E. now apply (starts_spec _ _ _ is_ident_spec).
  - exists (push_while is_ident l). split; [|auto]. pose proof (r_buf _ _ _ A) as X. rewrite Hb in X. cbn [app] in X. rewrite X.
    rewrite (cstr_no_nul s) by now apply word_no_nul. rewrite existsb_keywords. unfold word_type.
    destruct (in_dec (list_eq_dec N.eq_dec) s keywords); reflexivity.
Qed.
Lemma keywords_words : forall s, In s keywords -> word s.
Proof.
  intros s H.
  assert (K : forallb (fun s => match s with c :: r => is_alpha c && forallb is_ident r | [] => false end) keywords = true) by reflexivity.
  rewrite forallb_forall in K. specialize (K s H). destruct s as [|c r]; [discriminate|]. apply andb_true_iff in K. destruct K as [A B].
  exists c, r. split; [reflexivity|]. split; [left; now apply is_alpha_spec|]. apply (Forall_spec _ _ _ is_ident_spec). apply Forall_forall.
  rewrite forallb_forall in B. exact B.
Qed.

(** ** Strings *)
Lemma is_escape_spec : forall e, is_escape e = true <-> e = 34 \/ in_ "\nt" e.
Proof.
  intros e. unfold is_escape. rewrite !orb_true_iff, !N.eqb_eq. unfold in_. cbn.
  split; [intros [[[A|A]|A]|A]; auto|intros [A|[A|[A|[A|[]]]]]; auto].
Qed.
Lemma string_loop_run : forall b, string_body b -> forall r l, inp l = b ++ 34 :: r ->
  exists l', string_loop (inp l) false l = (false, l') /\ reads b l l' /\ inp l' = 34 :: r.
Proof.
  intros b B. induction B as [|c s A1 A2 B IH|e s A B IH]; intros r l H.
  - exists l. split; [now rewrite H|]. split; [apply reads_nil|exact H].
  - rewrite H. cbn [app string_loop]. apply N.eqb_neq in A1, A2. rewrite A1, A2. destruct (push_reads _ _ _ H) as [X Y].
    destruct (IH r (push l) Y) as (l' & P & Q & R). rewrite Y in P. exists l'. split; [exact P|]. split; [|exact R].
    change (c :: s) with ([c] ++ s). eapply reads_trans; eauto.
  - rewrite H. cbn [app string_loop]. change (chr "\" =? 34) with false. change (chr "\" =? chr "\") with true. cbn iota.
    destruct (push_reads _ _ _ H) as [X Y]. cbn [app] in Y. destruct (push_reads _ _ _ Y) as [X2 Y2].
    apply is_escape_spec in A. rewrite A. cbn [negb orb].
    destruct (IH r (push (push l)) Y2) as (l' & P & Q & R). rewrite Y2 in P. exists l'. split; [exact P|]. split; [|exact R].
    change (chr "\" :: e :: s) with ([chr "\"] ++ [e] ++ s). eapply reads_trans; [exact X|]. eapply reads_trans; eauto.
Qed.
Lemma push_end : forall l, inp l = [] -> inp (push l) = [] /\ buf (push l) = buf l ++ [255] /\ sline (push l) = sline l /\ scolumn (push l) = scolumn l.
Proof. intros l H. unfold push, step. rewrite H. cbn. auto. Qed.
Lemma string_loop_any : forall n s, (length s <= n)%nat -> forall inv l, inp l = s ->
  exists inv' l', string_loop s inv l = (inv', l') /\
   ((exists b, reads b l l' /\ (inp l' = [] \/ starts (eq 34) (inp l')) /\ (inv' = false -> inv = false /\ string_body b))
    \/ (inv' = true /\ inp l' = [] /\ sline l' = sline l /\ scolumn l' = scolumn l /\ exists b, s = b ++ chars "\" /\ buf l' = buf l ++ s ++ [255])).
Proof.
  induction n as [|n IH]; intros s Ln inv l H.
  { destruct s; [|cbn in Ln; lia]. exists inv, l. cbn. split; [reflexivity|]. left. exists []. split; [apply reads_nil|]. split; [auto|].
    intros ->. split; [reflexivity|constructor]. }
  destruct s as [|c s].
  { exists inv, l. cbn. split; [reflexivity|]. left. exists []. split; [apply reads_nil|]. split; [auto|]. intros ->. split; [reflexivity|constructor]. }
  cbn [string_loop]. destruct (c =? 34) eqn:E1.
  { apply N.eqb_eq in E1. subst c. exists inv, l. split; [reflexivity|]. left. exists []. split; [apply reads_nil|].
    split; [right; rewrite H; eexists; eexists; split; reflexivity|]. intros ->. split; [reflexivity|constructor]. }
  destruct (push_reads _ _ _ H) as [X Y]. cbn [length] in Ln.
  destruct (c =? chr "\") eqn:E2.
  - apply N.eqb_eq in E2. subst c. destruct s as [|e s].
    + destruct (push_end _ Y) as (P1 & P2 & P3 & P4). exists true, (push (push l)). split; [reflexivity|]. right.
      destruct X as [X1 X2 X3 X4 X5]. split; [reflexivity|]. split; [exact P1|]. split; [congruence|]. split; [congruence|]. exists []. split; [reflexivity|].
      rewrite P2, X2, <- app_assoc. reflexivity.
    + destruct (push_reads _ _ _ Y) as [X2 Y2]. cbn [length] in Ln.
      destruct (IH s ltac:(lia) (inv || negb (is_escape e)) (push (push l)) Y2) as (inv' & l' & P & Q). rewrite P. exists inv', l'. split; [reflexivity|].
      destruct Q as [(b & Q1 & Q2 & Q3)|(Q1 & Q2 & Q3 & Q4 & b & Q5 & Q6)].
      * left. exists ([chr "\"] ++ [e] ++ b). split; [eapply reads_trans; [exact X|]; eapply reads_trans; eauto|]. split; [exact Q2|].
        intros Z. destruct (Q3 Z) as [Z1 Z2]. apply orb_false_iff in Z1. destruct Z1 as [-> Z1]. split; [reflexivity|]. cbn [app]. apply body_escape; auto.
        apply is_escape_spec. now apply negb_false_iff in Z1.
      * right. destruct X as [A1 A2 A3 A4 A5], X2 as [B1 B2 B3 B4 B5]. split; [exact Q1|]. split; [exact Q2|]. split; [congruence|]. split; [congruence|].
        exists (chr "\" :: e :: b). split; [now rewrite Q5|]. rewrite Q6, B2, A2, <- !app_assoc. reflexivity.
  - destruct (IH s ltac:(lia) inv (push l) Y) as (inv' & l' & P & Q). rewrite P. exists inv', l'. split; [reflexivity|].
    apply N.eqb_neq in E1, E2.
    destruct Q as [(b & Q1 & Q2 & Q3)|(Q1 & Q2 & Q3 & Q4 & b & Q5 & Q6)].
    + left. exists ([c] ++ b). split; [eapply reads_trans; eauto|]. split; [exact Q2|].
      intros Z. destruct (Q3 Z) as [Z1 Z2]. split; [exact Z1|]. cbn [app]. now constructor.
    + right. destruct X as [A1 A2 A3 A4 A5]. split; [exact Q1|]. split; [exact Q2|]. split; [congruence|]. split; [congruence|].
      exists (c :: b). split; [now rewrite Q5|]. rewrite Q6, A2, <- !app_assoc. reflexivity.
Qed.

(** What a token, its text and the state afterwards have in common with the input: [lex] is the consumed text. *)
Definition outcome (l : lexer) (T : tk) (lex : list N) (t : token) (l' : lexer) : Prop :=
  tline t = sline l /\ tcolumn t = scolumn l /\ ttype t = T /\ inp l = lex ++ inp l' /\ lex <> [] /\
  (inp l' <> [] -> pos l' = move (pos l) lex) /\
  (ttext t = cstr lex \/ (T = TK_ERROR /\ inp l' = [] /\ (exists b, lex = b ++ chars "\") /\ ttext t = cstr (lex ++ [255]))).
Lemma outcome_make : forall l l' T lex, buf l = [] -> lex <> [] -> reads lex l l' -> outcome l T lex (fst (make l' T)) (snd (make l' T)).
Proof.
  intros l l' T lex Hb Hn [A B C D E]. unfold outcome, make. cbn [fst snd tline tcolumn ttype ttext].
  split; [exact C|]. split; [exact D|]. split; [reflexivity|]. split; [exact A|]. split; [exact Hn|]. split; [auto|]. left. now rewrite B, Hb.
Qed.
Lemma read_string_sound : forall r l, inp l = 34 :: r -> buf l = [] ->
  exists T lex t l', read_string_literal l = (t, l') /\ outcome l T lex t l' /\ (T = TK_ERROR \/ lexeme T lex).
Proof.
  intros r l H Hb. unfold read_string_literal. destruct (push_reads _ _ _ H) as [X Y].
  destruct (string_loop_any (length r) r (le_n _) false (push l) Y) as (inv & l1 & P & Q). rewrite Y, P.
  destruct Q as [(b & Q1 & Q2 & Q3)|(-> & Q2 & Q3 & Q4 & b & Q5 & Q6)].
  - pose proof (reads_trans _ _ _ _ _ X Q1) as R1. destruct Q2 as [Q2|(c & q & Q2 & <-)].
    + rewrite at_false by (rewrite Q2; intros (? & ? & Z & _); discriminate). cbn [negb].
      exists TK_ERROR, ([34] ++ b), (fst (make l1 TK_ERROR)), l1. split; [reflexivity|]. split; [|left; reflexivity].
      apply (outcome_make l l1 TK_ERROR); auto. discriminate.
    + rewrite (at_cons _ _ _ _ Q2), N.eqb_refl. cbn [negb]. destruct (push_reads _ _ _ Q2) as [X2 Y2].
      pose proof (reads_trans _ _ _ _ _ R1 X2) as R2.
      exists (if inv then TK_ERROR else TK_STRING_LITERAL), (([34] ++ b) ++ [34]), (fst (make (push l1) (if inv then TK_ERROR else TK_STRING_LITERAL))), (push l1).
      split; [reflexivity|]. split; [apply (outcome_make l (push l1)); auto; discriminate|].
      destruct inv; [left; reflexivity|right]. destruct (Q3 eq_refl) as [_ Z]. cbn [app]. now constructor.
  - rewrite at_false by (rewrite Q2; intros (? & ? & Z & _); discriminate). cbn [negb].
    exists TK_ERROR, (34 :: r), (fst (make l1 TK_ERROR)), l1. split; [reflexivity|]. split; [|left; reflexivity].
    destruct X as [A1 A2 A3 A4 A5]. unfold outcome, make. cbn [fst snd tline tcolumn ttype ttext].
    split; [congruence|]. split; [congruence|]. split; [reflexivity|]. split; [rewrite Q2, H; now rewrite app_nil_r|]. split; [discriminate|].
    split; [intros Z; congruence|]. right. split; [reflexivity|]. split; [exact Q2|]. split; [exists (34 :: b); now rewrite Q5|].
    now rewrite Q6, A2, Hb.
Qed.

(** ** Dates *)
Lemma digits_any : forall n inv l, exists s l', digits n inv l = (inv || negb (Nat.eqb (length s) n), l') /\ reads s l l' /\ digits_upto n s.
Proof.
  induction n as [|n IH]; intros inv l.
  - exists [], l. cbn. rewrite orb_false_r. split; [reflexivity|]. split; [apply reads_nil|]. split; [constructor|cbn; lia].
  - cbn [digits]. destruct (at_ is_dec l) eqn:E.
    + destruct (at_true _ _ E) as (c & r & A & B). destruct (push_reads _ _ _ A) as [X Y].
      destruct (IH inv (push l)) as (s & l' & P & Q & R1 & R2). exists (c :: s), l'. split; [exact P|]. split.
      * change (c :: s) with ([c] ++ s). eapply reads_trans; eauto.
      * split; [constructor; auto; now apply is_dec_spec|cbn; lia].
    + assert (Z : forall k b, digits k b l = (b || negb (Nat.eqb 0 k), l)).
      { induction k as [|k IHk]; intros b; cbn [digits]; [now rewrite orb_false_r|]. rewrite E, IHk. cbn. now rewrite orb_true_r. }
      exists [], l. rewrite Z. cbn. rewrite orb_true_r. split; [reflexivity|]. split; [apply reads_nil|]. split; [constructor|cbn; lia].
Qed.
Lemma digits_run : forall n s r inv l, digits_n n s -> inp l = s ++ r -> exists l', digits n inv l = (inv, l') /\ reads s l l' /\ inp l' = r.
Proof.
  induction n as [|n IH]; intros s r inv l [F L] H.
  - destruct s; [|discriminate]. exists l. split; [reflexivity|]. split; [apply reads_nil|exact H].
  - destruct s as [|c s]; [discriminate|]. inversion F; subst. injection L as L. cbn [digits app] in *. rewrite (at_cons _ _ _ _ H).
    replace (is_dec c) with true by (symmetry; now apply is_dec_spec). destruct (push_reads _ _ _ H) as [X Y].
    destruct (IH s r inv (push l) (conj H3 L) Y) as (l' & P & Q & R). exists l'. split; [exact P|]. split; [|exact R].
    change (c :: s) with ([c] ++ s). eapply reads_trans; eauto.
Qed.
Lemma accept_any : forall c l, exists s l', accept c l = (negb (isnil s), l') /\ reads s l l' /\ (s = [] \/ s = [c]).
Proof.
  intros c l. unfold accept. destruct (at_ (N.eqb c) l) eqn:E.
  - destruct (at_true _ _ E) as (x & r & A & B). apply N.eqb_eq in B. subst x. destruct (push_reads _ _ _ A) as [X Y].
    exists [c], (push l). auto.
  - exists [], l. split; [reflexivity|]. split; [apply reads_nil|auto].
Qed.
Lemma accept_run : forall c r l, inp l = c :: r -> exists l', accept c l = (true, l') /\ reads [c] l l' /\ inp l' = r.
Proof. intros c r l H. unfold accept. rewrite (at_cons _ _ _ _ H), N.eqb_refl. destruct (push_reads _ _ _ H). eauto. Qed.
Lemma accept_no : forall c l, ~ starts (eq c) (inp l) -> accept c l = (false, l).
Proof.
  intros c l H. unfold accept. rewrite at_false; [reflexivity|]. intros (x & r & A & B). apply H. exists x, r. split; [exact A|]. now apply N.eqb_eq.
Qed.
Lemma and_accept_any : forall c inv l, exists s l', and_accept c inv l = (inv && negb (isnil s), l') /\ reads s l l' /\ (s = [] \/ s = [c]).
Proof. intros c inv l. unfold and_accept. destruct (accept_any c l) as (s & l' & -> & A & B). eauto. Qed.
Lemma and_accept_run : forall c r inv l, inp l = c :: r -> exists l', and_accept c inv l = (inv, l') /\ reads [c] l l' /\ inp l' = r.
Proof. intros c r inv l H. unfold and_accept. destruct (accept_run c r l H) as (l' & -> & A). rewrite andb_true_r. eauto. Qed.
Lemma len_eqb : forall (s : list N) n, Nat.eqb (length s) n = true -> length s = n.
Proof. intros s n. apply Nat.eqb_eq. Qed.
Lemma upto_n : forall n s, digits_upto n s -> length s = n -> digits_n n s.
Proof. intros n s [A B] C. split; auto. Qed.
Lemma isnil_false : forall (s : list N), negb (isnil s) = false <-> s = [].
Proof. destruct s; cbn; split; congruence. Qed.

(** [l] is after the [d]; [l0] before it. *)
Lemma read_date_sound : forall r l0 l, reads (chars "d") l0 l -> buf l0 = [] -> inp l = chr "'" :: r ->
  exists T lex t l', read_date_or_datetime l = (t, l') /\ outcome l0 T lex t l' /\ (T = TK_ERROR \/ accepted T lex).
Proof.
  intros r l0 l R0 Hb H. unfold read_date_or_datetime. destruct (push_reads _ _ _ H) as [X Y]. pose proof (reads_trans _ _ _ _ _ R0 X) as R1. clear X Y H.
  destruct (accept_any (chr "-") (push l)) as (sg & l1 & Q1 & A1 & B1). rewrite Q1. clear Q1. cbv beta iota.
  destruct (digits_any 4 false l1) as (y & l2 & Q2 & A2 & B2). rewrite Q2. clear Q2. cbv beta iota. rewrite orb_false_l.
  destruct (and_accept_any (chr "-") (negb (Nat.eqb (length y) 4)) l2) as (s1 & l3 & Q3 & A3 & B3). rewrite Q3. clear Q3. cbv beta iota.
  set (i3 := negb (Nat.eqb (length y) 4) && negb (isnil s1)).
  destruct (digits_any 2 i3 l3) as (mo & l4 & Q4 & A4 & B4). rewrite Q4. clear Q4. cbv beta iota.
  set (i4 := i3 || negb (Nat.eqb (length mo) 2)).
  destruct (and_accept_any (chr "-") i4 l4) as (s2 & l5 & Q5 & A5 & B5). rewrite Q5. clear Q5. cbv beta iota.
  set (i5 := i4 && negb (isnil s2)).
  destruct (digits_any 2 i5 l5) as (d & l6 & Q6 & A6 & B6). rewrite Q6. clear Q6. cbv beta iota.
  set (i6 := i5 || negb (Nat.eqb (length d) 2)).
  destruct (accept_any (chr " ") l6) as (sp & l7 & Q7 & A7 & B7). rewrite Q7. clear Q7. cbv beta iota.
  pose proof (reads_trans _ _ _ _ _ R1 (reads_trans _ _ _ _ _ A1 (reads_trans _ _ _ _ _ A2 (reads_trans _ _ _ _ _ A3 (reads_trans _ _ _ _ _ A4
     (reads_trans _ _ _ _ _ A5 (reads_trans _ _ _ _ _ A6 A7))))))) as R7.
  assert (End : forall inv l8 lex8 T, reads lex8 l0 l8 -> lex8 <> [] -> (inv = false -> accepted T (lex8 ++ chars "'")) ->
     exists T' lex t l', (if negb (at_ (fun c => c =? chr "'") l8) then make l8 TK_ERROR
        else make (push l8) (if inv : bool then TK_ERROR else T)) = (t, l') /\ outcome l0 T' lex t l' /\ (T' = TK_ERROR \/ accepted T' lex)).
  { intros inv l8 lex8 T R N8 Ac. destruct (at_ (fun c => c =? chr "'") l8) eqn:E; cbn [negb].
    - destruct (at_true _ _ E) as (c & q & Z1 & Z2). apply N.eqb_eq in Z2. subst c. destruct (push_reads _ _ _ Z1) as [X Y].
      pose proof (reads_trans _ _ _ _ _ R X) as R'.
      exists (if inv then TK_ERROR else T), (lex8 ++ chars "'"), (fst (make (push l8) (if inv then TK_ERROR else T))), (push l8).
      split; [reflexivity|]. split; [apply (outcome_make l0 (push l8)); auto; intros Z; apply app_eq_nil in Z; destruct Z; discriminate|].
      destruct inv; [left; reflexivity|right; apply Ac; reflexivity].
    - exists TK_ERROR, lex8, (fst (make l8 TK_ERROR)), l8. split; [reflexivity|]. split; [apply (outcome_make l0 l8); auto|left; reflexivity]. }
  assert (Sg : sign sg) by exact B1.
  destruct B7 as [->| ->].
  - cbn [isnil negb]. apply (End i6 l7 _ TK_DATE R7); [discriminate|]. intros I6. unfold i6 in I6. apply orb_false_iff in I6. destruct I6 as [I5 I6].
    apply negb_false_iff, len_eqb in I6.
    replace (_ ++ chars "'") with (chars "d'" ++ (sg ++ y ++ s1 ++ mo ++ s2 ++ d) ++ chars "'")
      by (rewrite app_nil_r; change (chars "d'") with (chars "d" ++ [chr "'"]); now rewrite <- !app_assoc).
    apply acc_date. unfold i5 in I5. apply andb_false_iff in I5. constructor; auto.
    + now apply upto_n.
    + intros N2. destruct I5 as [I5|I5]; [|apply isnil_false in I5; congruence]. unfold i4 in I5. apply orb_false_iff in I5. destruct I5 as [_ I5].
      now apply negb_false_iff, len_eqb in I5.
    + intros N2 N1. destruct I5 as [I5|I5]; [|apply isnil_false in I5; congruence]. unfold i4 in I5. apply orb_false_iff in I5. destruct I5 as [I5 _].
      unfold i3 in I5. apply andb_false_iff in I5. destruct I5 as [I5|I5]; [now apply negb_false_iff, len_eqb in I5|apply isnil_false in I5; congruence].
  - cbn [isnil negb].
    destruct (digits_any 2 i6 l7) as (h & l8 & Q8 & A8 & B8). rewrite Q8. clear Q8. cbv beta iota.
    set (i8 := i6 || negb (Nat.eqb (length h) 2)).
    destruct (and_accept_any (chr ":") i8 l8) as (s3 & l9 & Q9 & A9 & B9). rewrite Q9. clear Q9. cbv beta iota.
    set (i9 := i8 && negb (isnil s3)).
    destruct (digits_any 2 i9 l9) as (mi & l10 & Q10 & A10 & B10). rewrite Q10. clear Q10. cbv beta iota.
    set (i10 := i9 || negb (Nat.eqb (length mi) 2)).
    destruct (and_accept_any (chr ":") i10 l10) as (s4 & l11 & Q11 & A11 & B11). rewrite Q11. clear Q11. cbv beta iota.
    set (i11 := i10 && negb (isnil s4)).
    destruct (digits_any 2 i11 l11) as (s & l12 & Q12 & A12 & B12). rewrite Q12. clear Q12. cbv beta iota.
    pose proof (reads_trans _ _ _ _ _ R7 (reads_trans _ _ _ _ _ A8 (reads_trans _ _ _ _ _ A9 (reads_trans _ _ _ _ _ A10 (reads_trans _ _ _ _ _ A11 A12))))) as R12.
    apply (End _ l12 _ TK_DATE_TIME R12); [discriminate|]. intros I12. apply orb_false_iff in I12. destruct I12 as [I11 I12].
    apply negb_false_iff, len_eqb in I12.
    match goal with |- accepted _ ?x => replace x with (chars "d'" ++ (sg ++ y ++ s1 ++ mo ++ s2 ++ d ++ chars " " ++ h ++ s3 ++ mi ++ s4 ++ s) ++ chars "'")
      by (change (chars "d'") with (chars "d" ++ [chr "'"]); change (chars " ") with [chr " "]; now rewrite <- !app_assoc) end.
    apply acc_datetime. unfold i11 in I11. apply andb_false_iff in I11.
    assert (K10 : s4 <> [] -> i9 = false /\ length mi = 2%nat).
    { intros N4. destruct I11 as [I11|I11]; [|apply isnil_false in I11; congruence]. unfold i10 in I11. apply orb_false_iff in I11. destruct I11 as [I9 I10].
      split; [exact I9|]. now apply negb_false_iff, len_eqb in I10. }
    assert (K8 : s4 <> [] -> s3 <> [] -> i6 = false /\ length h = 2%nat).
    { intros N4 N3. destruct (K10 N4) as [I9 _]. unfold i9 in I9. apply andb_false_iff in I9. destruct I9 as [I8|I8]; [|apply isnil_false in I8; congruence].
      unfold i8 in I8. apply orb_false_iff in I8. destruct I8 as [I6 I8]. split; [exact I6|]. now apply negb_false_iff, len_eqb in I8. }
    assert (K6 : s4 <> [] -> s3 <> [] -> i5 = false /\ length d = 2%nat).
    { intros N4 N3. destruct (K8 N4 N3) as [I6 _]. unfold i6 in I6. apply orb_false_iff in I6. destruct I6 as [I5 I6]. split; [exact I5|].
      now apply negb_false_iff, len_eqb in I6. }
    assert (K4 : s4 <> [] -> s3 <> [] -> s2 <> [] -> i3 = false /\ length mo = 2%nat).
    { intros N4 N3 N2. destruct (K6 N4 N3) as [I5 _]. unfold i5 in I5. apply andb_false_iff in I5. destruct I5 as [I4|I4]; [|apply isnil_false in I4; congruence].
      unfold i4 in I4. apply orb_false_iff in I4. destruct I4 as [I3 I4]. split; [exact I3|]. now apply negb_false_iff, len_eqb in I4. }
    constructor; auto.
    + now apply upto_n.
    + intros N4. apply K10; auto.
    + intros N4 N3. apply K8; auto.
    + intros N4 N3. apply K6; auto.
    + intros N4 N3 N2. apply K4; auto.
    + intros N4 N3 N2 N1. destruct (K4 N4 N3 N2) as [I3 _]. unfold i3 in I3. apply andb_false_iff in I3.
      destruct I3 as [I3|I3]; [now apply negb_false_iff, len_eqb in I3|apply isnil_false in I3; congruence].
Qed.
Lemma sign_run : forall sg y r l, sign sg -> digits_n 4 y -> inp l = sg ++ y ++ r -> exists b l', accept (chr "-") l = (b, l') /\ reads sg l l' /\ inp l' = y ++ r.
Proof.
  intros sg y r l [->| ->] [F L] H.
  - cbn [app] in H. exists false, l. split; [|split; [apply reads_nil|exact H]]. apply accept_no. rewrite H. destruct y as [|c y]; [discriminate|].
    intros (x & q & Z1 & Z2). injection Z1 as <- _. inversion F as [|? ? F1 F2]; subst. apply is_dec_spec in F1. discriminate F1.
  - destruct (accept_run (chr "-") (y ++ r) l H) as (l' & A & B & C). exists true, l'. auto.
Qed.
Lemma read_date_run : forall dt tm rest l0 l, date dt -> (tm = [] \/ exists t, tm = chars " " ++ t /\ time t) -> reads (chars "d") l0 l -> buf l0 = [] ->
  inp l = chars "'" ++ dt ++ tm ++ chars "'" ++ rest ->
  exists l', read_date_or_datetime l = make l' (if isnil tm then TK_DATE else TK_DATE_TIME) /\ reads (chars "d'" ++ dt ++ tm ++ chars "'") l0 l' /\ inp l' = rest.
Proof.
  intros dt tm rest l0 l Hd Ht R0 Hb H. destruct Hd as [sg y m d Sg Hy Hm Hd]. unfold read_date_or_datetime.
  destruct (push_reads _ _ _ H) as [X Y]. pose proof (reads_trans _ _ _ _ _ R0 X) as R1. clear X H.
  rewrite <- !app_assoc in Y.
  destruct (sign_run sg y _ _ Sg Hy Y) as (b & l1 & Q1 & A1 & I1). rewrite Q1. cbv beta iota. clear Q1 Y.
  destruct (digits_run 4 y _ false l1 Hy I1) as (l2 & Q2 & A2 & I2). rewrite Q2. cbv beta iota. clear Q2 I1.
  destruct (and_accept_run (chr "-") _ false l2 I2) as (l3 & Q3 & A3 & I3). rewrite Q3. cbv beta iota. clear Q3 I2.
  destruct (digits_run 2 m _ false l3 Hm I3) as (l4 & Q4 & A4 & I4). rewrite Q4. cbv beta iota. clear Q4 I3.
  destruct (and_accept_run (chr "-") _ false l4 I4) as (l5 & Q5 & A5 & I5). rewrite Q5. cbv beta iota. clear Q5 I4.
  destruct (digits_run 2 d _ false l5 Hd I5) as (l6 & Q6 & A6 & I6). rewrite Q6. cbv beta iota. clear Q6 I5.
  pose proof (reads_trans _ _ _ _ _ R1 (reads_trans _ _ _ _ _ A1 (reads_trans _ _ _ _ _ A2 (reads_trans _ _ _ _ _ A3 (reads_trans _ _ _ _ _ A4
     (reads_trans _ _ _ _ _ A5 A6)))))) as R6.
  destruct Ht as [->|(t & -> & Ht)].
  - cbn [app] in I6. rewrite accept_no.
    2:{ rewrite I6. intros (x & q & Z1 & Z2). injection Z1 as <- _. discriminate Z2. }
    cbv beta iota. rewrite (at_cons _ _ _ _ I6), N.eqb_refl. cbn [negb]. destruct (push_reads _ _ _ I6) as [X7 Y7].
    exists (push l6). split; [reflexivity|]. split; [|exact Y7].
    match goal with |- reads ?x _ _ => replace x with ((chars "d" ++ [chr "'"]) ++ (sg ++ y ++ [chr "-"] ++ m ++ [chr "-"] ++ d) ++ [chr "'"]) by reflexivity end.
    rewrite app_assoc. eapply reads_trans; eauto.
  - destruct Ht as [h mi s Hh Hmi Hs]. rewrite <- !app_assoc in I6.
    destruct (accept_run (chr " ") _ l6 I6) as (l7 & Q7 & A7 & I7). rewrite Q7. cbv beta iota. clear Q7 I6.
    destruct (digits_run 2 h _ false l7 Hh I7) as (l8 & Q8 & A8 & I8). rewrite Q8. cbv beta iota. clear Q8 I7.
    destruct (and_accept_run (chr ":") _ false l8 I8) as (l9 & Q9 & A9 & I9). rewrite Q9. cbv beta iota. clear Q9 I8.
    destruct (digits_run 2 mi _ false l9 Hmi I9) as (l10 & Q10 & A10 & I10). rewrite Q10. cbv beta iota. clear Q10 I9.
    destruct (and_accept_run (chr ":") _ false l10 I10) as (l11 & Q11 & A11 & I11). rewrite Q11. cbv beta iota. clear Q11 I10.
    destruct (digits_run 2 s _ false l11 Hs I11) as (l12 & Q12 & A12 & I12). rewrite Q12. cbv beta iota. clear Q12 I11.
    rewrite (at_cons _ _ _ _ I12), N.eqb_refl. cbn [negb]. destruct (push_reads _ _ _ I12) as [X7 Y7].
    exists (push l12). split; [reflexivity|]. split; [|exact Y7].
    pose proof (reads_trans _ _ _ _ _ R6 (reads_trans _ _ _ _ _ A7 (reads_trans _ _ _ _ _ A8 (reads_trans _ _ _ _ _ A9 (reads_trans _ _ _ _ _ A10
      (reads_trans _ _ _ _ _ A11 (reads_trans _ _ _ _ _ A12 X7))))))) as R.
    match type of R with reads ?x _ _ => match goal with |- reads ?y _ _ => replace y with x; [exact R|] end end.
    change (chars "d'") with (chars "d" ++ [chr "'"]). change (chars "-") with [chr "-"]. change (chars " ") with [chr " "]. change (chars ":") with [chr ":"].
    change (chars "'") with [chr "'"]. now rewrite <- !app_assoc.
Qed.

(** ** One token *)
Lemma undo_step : forall c r l, inp l = c :: r -> c <> 10 -> undo c (step l) = l.
Proof.
  intros c r l H N10. rewrite (step_fact _ _ _ H). unfold undo, move1, pos. apply N.eqb_neq in N10. rewrite N10. cbn [fst snd inp line column sline scolumn buf].
  destruct l as [i ln co sl sc b]. cbn in *. rewrite H. f_equal. lia.
Qed.
Lemma push_buf_step : forall c r l, inp l = c :: r -> push_buf c (step l) = push l.
Proof.
  intros c r l H. unfold push, push_buf. rewrite H. rewrite (step_fact _ _ _ H).
  match goal with |- context [step ?x] => assert (E : inp x = c :: r) by reflexivity; rewrite (step_fact _ _ _ E) end. reflexivity.
Qed.
Lemma outcome_one : forall s T c r l, inp l = c :: r -> [c] = chars s -> cstr (chars s) = chars s ->
  exists t l', one s T l = (t, l') /\ outcome l T (chars s) t l' /\ inp l' = r.
Proof.
  intros s T c r l H E Es. destruct (step_steps _ _ _ H) as [[S1 S2 S3 S4] Y]. unfold one, make_text.
  eexists; eexists. split; [reflexivity|]. split; [|exact Y]. unfold outcome. cbn [tline tcolumn ttype ttext]. rewrite <- E.
  split; [exact S2|]. split; [exact S3|]. split; [reflexivity|]. split; [exact S1|]. split; [discriminate|]. split; [auto|]. left. rewrite E. now rewrite Es.
Qed.
Lemma outcome_one' : forall s T c r l, inp l = c :: r -> [c] = chars s -> cstr (chars s) = chars s ->
  exists t l', make_text (step l) (chars s) T = (t, l') /\ outcome l T (chars s) t l' /\ inp l' = r.
Proof. intros. apply (outcome_one s T c r l); auto. Qed.
Lemma outcome_two : forall s T c d r l, inp l = c :: d :: r -> [c; d] = chars s -> cstr (chars s) = chars s ->
  exists t l', one s T (step l) = (t, l') /\ outcome l T (chars s) t l' /\ inp l' = r.
Proof.
  intros s T c d r l H E Es. destruct (step_steps _ _ _ H) as [S Y]. destruct (step_steps _ _ _ Y) as [S' Y'].
  pose proof (steps_trans _ _ _ _ _ S S') as [S1 S2 S3 S4]. unfold one, make_text.
  eexists; eexists. split; [reflexivity|]. split; [|exact Y']. unfold outcome. cbn [tline tcolumn ttype ttext]. rewrite <- E.
  split; [exact S2|]. split; [exact S3|]. split; [reflexivity|]. split; [exact S1|]. split; [discriminate|]. split; [auto|]. left. rewrite E. now rewrite Es.
Qed.
Lemma word_type_lexeme : forall s, word s -> lexeme (word_type s) s.
Proof. intros s H. unfold word_type. destruct (in_dec (list_eq_dec N.eq_dec) s keywords); constructor; auto. Qed.
Lemma read_word_sound : forall c r l, inp l = c :: r -> buf l = [] -> letter c \/ in_ "_" c ->
  exists T lex t l', read_keyword_or_identifier l = (t, l') /\ outcome l T lex t l' /\ (T = TK_ERROR \/ accepted T lex).
Proof.
  intros c r l H Hb Hc. destruct (span_exists is_ident r) as (s & q & -> & F & E).
  apply (Forall_spec _ _ _ is_ident_spec) in F. rewrite (starts_spec _ _ _ is_ident_spec) in E.
  destruct (read_word_run (c :: s) q l) as (l' & A & B & C); auto.
  { constructor; [unfold wordchar; tauto|exact F]. }
  exists (word_type (c :: s)), (c :: s), (fst (make l' (word_type (c :: s)))), l'. rewrite A. split; [reflexivity|].
  split; [apply (outcome_make l l'); auto; discriminate|]. right. constructor. apply word_type_lexeme. exists c, s. auto.
Qed.
Lemma otherwise_sound : forall c r l, inp l = c :: r -> buf l = [] ->
  exists T lex t l', otherwise l = (t, l') /\ outcome l T lex t l' /\ (T = TK_ERROR \/ accepted T lex).
Proof.
  intros c r l H Hb. unfold otherwise. rewrite (at_cons _ _ _ _ H). destruct ((c =? chr "_") || is_alpha c) eqn:E.
  - eapply read_word_sound; eauto. apply orb_true_iff in E. destruct E as [E|E]; [right; apply eqb_in1 in E; exact E|left; now apply is_alpha_spec].
  - destruct (push_reads _ _ _ H) as [X Y]. exists TK_ERROR, [c], (fst (make (push l) TK_ERROR)), (push l). split; [reflexivity|].
    split; [apply (outcome_make l (push l)); auto; discriminate|left; reflexivity].
Qed.
Lemma instruction_run : forall s rest l, inp l = chr "\" :: s ++ rest -> buf l = [] -> ~ In (chr ";") s -> rest = [] \/ starts (eq (chr ";")) rest ->
  exists l', read_instruction l = make l' TK_INSTRUCTION /\ reads (chr "\" :: s) l l' /\ inp l' = rest.
Proof.
  intros s rest l H Hb Hs Hr. unfold read_instruction. destruct (push_reads _ _ _ H) as [X Y].
  destruct (push_while_run (fun c => negb (c =? chr ";")) s rest (push l) Y) as [A B].
  - apply Forall_forall. intros x I. apply negb_true_iff, N.eqb_neq. intros ->. auto.
  - intros (x & q & Z1 & Z2). destruct Hr as [->|(x' & q' & Z3 & <-)]; [discriminate|]. rewrite Z3 in Z1. injection Z1 as <- _. discriminate Z2.
  - eexists. split; [reflexivity|]. split; [|exact B]. change (chr "\" :: s) with ([chr "\"] ++ s). eapply reads_trans; eauto.
Qed.
Definition can_start (c : N) (r : list N) : Prop := ~ whitespace c /\ (c = chr "-" -> ~ starts (eq (chr "-")) r).
Lemma punct : forall s T, In (s, T) punctuators -> accepted T s.
Proof. intros s T H. constructor. now apply lex_punctuator. Qed.
Ltac pun := right; apply punct; unfold punctuators; cbn [map fst snd In]; auto 30.
Ltac one_case := match goal with H : inp ?l = ?c :: ?r, E : (?c =? chr ?a) = true |- context [one ?s ?T ?l] =>
    apply N.eqb_eq in E; destruct (outcome_one s T c r l H) as (t & l' & X1 & X2 & X3); [now rewrite E|reflexivity|];
    exists T, (chars s), t, l'; split; [exact X1|split; [exact X2|pun]] end.
Lemma dispatch_sound : forall c r l, inp l = c :: r -> buf l = [] ->
  exists T lex t l', dispatch l = (t, l') /\ outcome l T lex t l' /\ (T = TK_ERROR \/ accepted T lex).
Proof.
  intros c r l H Hb. unfold dispatch. rewrite H.
  destruct (is_dec c) eqn:E1.
  { destruct (read_number_sound l) as (T & lex & l' & A & B & C & D); [left; rewrite H; exists c, r; auto|].
    exists T, lex, (fst (make l' T)), l'. rewrite A. split; [reflexivity|]. split; [apply (outcome_make l l'); auto|].
    destruct D as [D|[D|D]]; [left; exact D|right; constructor; now constructor|right; now apply acc_digitless]. }
  destruct (c =? 34) eqn:E2.
  { apply N.eqb_eq in E2. subst c. destruct (read_string_sound r l H Hb) as (T & lex & t & l' & A & B & C). exists T, lex, t, l'. split; [exact A|]. split; [exact B|].
    destruct C; [auto|right; now constructor]. }
  destruct (c =? chr "d") eqn:E3.
  { apply N.eqb_eq in E3. subst c. destruct (step_steps _ _ _ H) as [S Y].
    destruct (at_ (fun c => c =? chr "'") (step l)) eqn:E4.
    - destruct (at_true _ _ E4) as (x & q & Z1 & Z2). apply N.eqb_eq in Z2. subst x.
      rewrite (push_buf_step _ _ _ H). destruct (push_reads _ _ _ H) as [P Q].
      apply (read_date_sound q l (push l)); auto. rewrite Q, <- Y. exact Z1.
    - rewrite (undo_step _ _ _ H) by discriminate. eapply read_word_sound; eauto. left. apply is_alpha_spec. reflexivity. }
  destruct (c =? chr "(") eqn:E4; [one_case|].
  destruct (c =? chr ")") eqn:E5; [one_case|].
  destruct (c =? chr "~") eqn:E6; [one_case|].
  destruct (c =? chr "+") eqn:E7; [one_case|].
  destruct (c =? chr "-") eqn:E8; [one_case|].
  destruct (c =? chr "*") eqn:E9; [one_case|].
  destruct (c =? chr "/") eqn:E10; [one_case|].
  destruct (c =? chr "%") eqn:E11; [one_case|].
  destruct (c =? chr "=") eqn:E12; [one_case|].
  destruct (c =? chr "!") eqn:E13.
  { apply N.eqb_eq in E13. subst c. destruct (step_steps _ _ _ H) as [S Y]. destruct (at_ (fun c => c =? chr "=") (step l)) eqn:E.
    - destruct (at_true _ _ E) as (x & q & Z1 & Z2). apply N.eqb_eq in Z2. subst x. rewrite Y in Z1. rewrite Z1 in H.
      destruct (outcome_two "!=" TK_BANG_EQUAL _ _ _ l H eq_refl eq_refl) as (t & l' & X1 & X2 & X3). exists TK_BANG_EQUAL, (chars "!="), t, l'.
      split; [exact X1|]. split; [exact X2|pun].
    - rewrite (undo_step _ _ _ H) by discriminate. eapply otherwise_sound; eauto. }
  destruct (c =? chr "<") eqn:E14.
  { apply N.eqb_eq in E14. subst c. destruct (step_steps _ _ _ H) as [S Y]. destruct (at_ (fun c => c =? chr "=") (step l)) eqn:E.
    - destruct (at_true _ _ E) as (x & q & Z1 & Z2). apply N.eqb_eq in Z2. subst x. rewrite Y in Z1. rewrite Z1 in H.
      destruct (outcome_two "<=" TK_LESS_EQUAL _ _ _ l H eq_refl eq_refl) as (t & l' & X1 & X2 & X3). exists TK_LESS_EQUAL, (chars "<="), t, l'.
      split; [exact X1|]. split; [exact X2|pun].
    - destruct (outcome_one' "<" TK_LESS _ _ l H eq_refl eq_refl) as (t & l' & X1 & X2 & X3). exists TK_LESS, (chars "<"), t, l'. split; [exact X1|]. split; [exact X2|pun]. }
  destruct (c =? chr ">") eqn:E15.
  { apply N.eqb_eq in E15. subst c. destruct (step_steps _ _ _ H) as [S Y]. destruct (at_ (fun c => c =? chr "=") (step l)) eqn:E.
    - destruct (at_true _ _ E) as (x & q & Z1 & Z2). apply N.eqb_eq in Z2. subst x. rewrite Y in Z1. rewrite Z1 in H.
      destruct (outcome_two ">=" TK_GREATER_EQUAL _ _ _ l H eq_refl eq_refl) as (t & l' & X1 & X2 & X3). exists TK_GREATER_EQUAL, (chars ">="), t, l'.
      split; [exact X1|]. split; [exact X2|pun].
    - destruct (outcome_one' ">" TK_GREATER _ _ l H eq_refl eq_refl) as (t & l' & X1 & X2 & X3). exists TK_GREATER, (chars ">"), t, l'. split; [exact X1|]. split; [exact X2|pun]. }
  destruct (c =? chr ",") eqn:E16; [one_case|].
  destruct (c =? chr ";") eqn:E17; [one_case|].
  destruct (c =? chr ".") eqn:E18.
  { apply N.eqb_eq in E18. subst c. destruct (step_steps _ _ _ H) as [S Y]. destruct (at_ (fun c => c =? chr ".") (step l)) eqn:E.
    - destruct (at_true _ _ E) as (x & q & Z1 & Z2). apply N.eqb_eq in Z2. subst x. rewrite Y in Z1. rewrite Z1 in H.
      destruct (outcome_two ".." TK_DOTDOT _ _ _ l H eq_refl eq_refl) as (t & l' & X1 & X2 & X3). exists TK_DOTDOT, (chars ".."), t, l'.
      split; [exact X1|]. split; [exact X2|pun].
    - destruct (at_ is_dec (step l)) eqn:E'.
      + destruct (at_true _ _ E') as (x & q & Z1 & Z2). rewrite Y in Z1. rewrite Z1 in H. rewrite (undo_step _ _ _ H) by discriminate.
        destruct (read_number_sound l) as (T & lex & l' & A & B & C & D); [right; exists x, q; auto|].
        exists T, lex, (fst (make l' T)), l'. rewrite A. split; [reflexivity|]. split; [apply (outcome_make l l'); auto|].
        destruct D as [D|[D|D]]; [left; exact D|right; constructor; now constructor|right; now apply acc_digitless].
      + destruct (outcome_one' "." TK_DOT _ _ l H eq_refl eq_refl) as (t & l' & X1 & X2 & X3). exists TK_DOT, (chars "."), t, l'. split; [exact X1|]. split; [exact X2|pun]. }
  destruct (c =? chr "\") eqn:E19.
  { apply N.eqb_eq in E19. subst c. destruct (span_exists (fun c => negb (c =? chr ";")) r) as (s & q & -> & F & E).
    destruct (instruction_run s q l H Hb) as (l' & A & B & C).
    - intros I. rewrite Forall_forall in F. specialize (F _ I). discriminate F.
    - destruct q as [|x q]; [left; reflexivity|right]. exists x, q. split; [reflexivity|]. destruct (x =? chr ";") eqn:Ex; [now apply N.eqb_eq in Ex|].
      exfalso. apply E. exists x, q. rewrite Ex. auto.
    - exists TK_INSTRUCTION, (chr "\" :: s), (fst (make l' TK_INSTRUCTION)), l'. rewrite A. split; [reflexivity|].
      split; [apply (outcome_make l l'); auto; discriminate|]. right. constructor. apply lex_instruction. intros I. rewrite Forall_forall in F. specialize (F _ I). discriminate F. }
  eapply otherwise_sound; eauto.
Qed.

Lemma outcome_type : forall l T lex t l', outcome l T lex t l' -> ttype t = T.
Proof. intros l T lex t l' (_ & _ & H & _). exact H. Qed.
Lemma number_start : forall T lex, number T lex -> exists c s, lex = c :: s /\ (is_dec c = true \/ (c = chr "." /\ starts (fun c => is_dec c = true) s)).
Proof.
  intros T lex H. destruct H as [s Fs|c s Hc Fs|x s Hx Fs Ns|a b e Fa Fb He Hbe Hd|x a b e Hx Fa Fb He Hbe Hd].
  - exists 48, s. split; [reflexivity|left; reflexivity].
  - exists c, s. split; [reflexivity|]. left. apply is_dec_spec. right. exact Hc.
  - exists 48, (x :: s). split; [reflexivity|left; reflexivity].
  - destruct a as [|c a].
    + destruct Fb as [|b Fb]; [inversion Hd|]. exists (chr "."), (b ++ e). split; [reflexivity|]. right. split; [reflexivity|].
      cbn [app] in Hd. inversion Hd as [? ? X|? ? X]; subst; [apply is_dec_spec in X; discriminate X|].
      destruct b as [|y b]; [inversion X|]. exists y, (b ++ e). split; [reflexivity|]. inversion Fb; subst. now apply is_dec_spec.
    + exists c, (a ++ b ++ e). split; [reflexivity|]. left. inversion Fa; subst. now apply is_dec_spec.
  - exists 48, (x :: a ++ b ++ e). split; [reflexivity|left; reflexivity].
Qed.
Lemma letter_cases : forall c, letter c \/ in_ "_" c -> is_dec c = false /\ (c =? 34) = false /\
  forall a, In a (chars "()~+-*/%=!<>,;.\") -> (c =? a) = false.
Proof.
  intros c H.
  assert (K : forallb (fun c => negb (is_dec c) && negb (c =? 34) && forallb (fun a => negb (c =? a)) (chars "()~+-*/%=!<>,;.\"))
     (chars "abcdefghijklmnopqrstuvwxyzABCDEFGHIJKLMNOPQRSTUVWXYZ_") = true) by reflexivity.
  rewrite forallb_forall in K. specialize (K c).
  assert (I : In c (chars "abcdefghijklmnopqrstuvwxyzABCDEFGHIJKLMNOPQRSTUVWXYZ_")).
  { replace (chars "abcdefghijklmnopqrstuvwxyzABCDEFGHIJKLMNOPQRSTUVWXYZ_") with
      (chars "abcdefghijklmnopqrstuvwxyzABCDEFGHIJKLMNOPQRSTUVWXYZ" ++ chars "_") by reflexivity. apply in_app_iff. exact H. }
  specialize (K I). rewrite !andb_true_iff in K. destruct K as [[K1 K2] K3]. apply negb_true_iff in K1, K2. split; [exact K1|]. split; [exact K2|].
  intros a Ia. rewrite forallb_forall in K3. specialize (K3 a Ia). now apply negb_true_iff in K3.
Qed.
Lemma dispatch_word : forall s rest l, word s -> ~ starts (fun c => wordchar c \/ in_ "'" c) rest -> inp l = s ++ rest -> buf l = [] ->
  exists t l', dispatch l = (t, l') /\ outcome l (word_type s) s t l' /\ inp l' = rest.
Proof.
  intros s rest l W E0 H Hb.
  assert (E : ~ starts wordchar rest) by (intros (x & q & Z1 & Z2); apply E0; exists x, q; auto).
  destruct (read_word_run s rest l H Hb (word_chars s W) E) as (l' & A & B & C).
  pose proof W as W'. destruct W as (c & r & -> & Wc & Wr).
  exists (fst (make l' (word_type (c :: r)))), l'. split; [|split; [apply (outcome_make l l'); auto; discriminate|exact C]].
  unfold dispatch. rewrite H. cbn [app]. destruct (letter_cases c Wc) as (K1 & K2 & K3). rewrite K1, K2.
  rewrite (K3 (chr "(")), (K3 (chr ")")), (K3 (chr "~")), (K3 (chr "+")), (K3 (chr "-")), (K3 (chr "*")), (K3 (chr "/")), (K3 (chr "%")), (K3 (chr "=")),
    (K3 (chr "!")), (K3 (chr "<")), (K3 (chr ">")), (K3 (chr ",")), (K3 (chr ";")), (K3 (chr ".")), (K3 (chr "\")) by (unfold chars, chr; cbn; auto 30).
  destruct (c =? chr "d") eqn:Ed.
  - apply N.eqb_eq in Ed. subst c. cbn [app] in H. destruct (step_steps _ _ _ H) as [S Y].
    rewrite at_false.
    2:{ rewrite Y. intros (x & q & Z1 & Z2). apply N.eqb_eq in Z2. subst x. destruct r as [|y r]; cbn [app] in Z1.
        - apply E0. exists (chr "'"), q. split; [exact Z1|]. right. left. reflexivity.
        - injection Z1 as -> _. inversion Wr as [|? ? Wy _]; subst. apply is_ident_spec in Wy. discriminate Wy. }
    rewrite (undo_step _ _ _ H) by discriminate. rewrite A. reflexivity.
  - unfold otherwise. rewrite (at_cons _ _ _ _ H).
    replace ((c =? chr "_") || is_alpha c) with true; [rewrite A; reflexivity|]. symmetry. apply orb_true_iff.
    destruct Wc as [Wc|[<-|[]]]; [right; now apply is_alpha_spec|left; reflexivity].
Qed.
Lemma number_kind : forall T s rest, number T s -> ends_before T rest -> after_number rest.
Proof. intros T s rest H. destruct H; auto. Qed.
Lemma dispatch_number : forall T s rest l, number T s -> after_number rest -> inp l = s ++ rest -> buf l = [] ->
  exists t l', dispatch l = (t, l') /\ outcome l T s t l' /\ inp l' = rest.
Proof.
  intros T s rest l Nu Ar H Hb. destruct (read_number_complete T s rest l Nu Ar H) as (l' & A & B & C).
  destruct (number_start T s Nu) as (c & q & -> & St).
  exists (fst (make l' T)), l'. split; [|split; [apply (outcome_make l l'); auto; discriminate|exact C]].
  unfold dispatch. rewrite H. cbn [app] in *. destruct St as [St|[-> (d & q' & -> & Sd)]]; [rewrite St, A; reflexivity|].
  destruct (step_steps _ _ _ H) as [S Y]. cbn [app] in Y.
  change (is_dec (chr ".")) with false. cbn iota.
  change (chr "." =? 34) with false. cbn iota.
  repeat match goal with |- context [chr "." =? chr ?a] => first [change (chr "." =? chr a) with false | change (chr "." =? chr a) with true]; cbn iota end.
  rewrite (at_cons _ _ _ _ Y).
  destruct (d =? chr ".") eqn:Ed; [apply N.eqb_eq in Ed; subst d; discriminate Sd|].
  rewrite (at_cons _ _ _ _ Y), Sd. rewrite (undo_step _ _ _ H) by discriminate. rewrite A. reflexivity.
Qed.
Lemma dispatch_punctuator : forall s T rest l, In (s, T) punctuators -> ends_before T rest -> inp l = s ++ rest -> buf l = [] ->
  exists t l', dispatch l = (t, l') /\ outcome l T s t l' /\ inp l' = rest.
Proof.
  intros s T rest l I E H Hb.
  assert (P : forall (x : token * lexer), (exists t l', dispatch l = (t, l') /\ outcome l T s t l' /\ inp l' = rest) ->
     exists t l', dispatch l = (t, l') /\ outcome l T s t l' /\ inp l' = rest) by auto.
  unfold punctuators in I. cbn [map fst snd In] in I.
  assert (NS : forall a, ~ starts (eq (chr a)) rest -> ~ starts (fun c => (c =? chr a) = true) rest).
  { intros a X (y & q & Z1 & Z2). apply X. exists y, q. split; [exact Z1|]. symmetry. now apply N.eqb_eq. }
  Ltac d1 s T := match goal with H : inp ?l = _ |- _ => destruct (outcome_one s T _ _ l H eq_refl eq_refl) as (t & l' & X1 & X2 & X3);
     exists t, l'; split; [|split; [exact X2|exact X3]]; unfold dispatch; rewrite H; exact X1 end.
  Ltac d2 s T := match goal with H : inp ?l = _ |- _ => destruct (outcome_two s T _ _ _ l H eq_refl eq_refl) as (t & l' & X1 & X2 & X3);
     exists t, l'; split; [|split; [exact X2|exact X3]]; unfold dispatch; rewrite H;
     destruct (step_steps _ _ _ H) as [S Y];
     match goal with |- context [is_dec ?c] => change (is_dec c) with false; change (c =? 34) with false; cbn iota end;
     repeat match goal with |- context [chr ?b =? chr ?a] => first [change (chr b =? chr a) with false | change (chr b =? chr a) with true]; cbn iota end;
     rewrite (at_cons _ _ _ _ Y); exact X1 end.
  repeat (destruct I as [I|I]; [injection I as <- <-|]); [.. | destruct I].
  - d1 "("%string TK_LPAR.
  - d1 ")"%string TK_RPAR.
  - d1 "~"%string TK_TILDE.
  - d1 "+"%string TK_PLUS.
  - d1 "-"%string TK_MINUS.
  - d1 "*"%string TK_ASTERISK.
  - d1 "/"%string TK_SLASH.
  - d1 "%"%string TK_PERCENT.
  - change (inp l = chr "." :: chr "." :: rest) in H. d2 ".."%string TK_DOTDOT.
  - d1 "="%string TK_EQUAL.
  - change (inp l = chr "!" :: chr "=" :: rest) in H. d2 "!="%string TK_BANG_EQUAL.
  - destruct (outcome_one' "<" TK_LESS _ _ l H eq_refl eq_refl) as (t & l' & X1 & X2 & X3). exists t, l'. split; [|split; [exact X2|exact X3]].
    destruct (step_steps _ _ _ H) as [S Y]. unfold dispatch. rewrite H. change (chars "<") with [chr "<"]. cbn [app].
    change (is_dec (chr "<")) with false. change (chr "<" =? 34) with false. cbn iota.
    repeat match goal with |- context [chr "<" =? chr ?a] => first [change (chr "<" =? chr a) with false | change (chr "<" =? chr a) with true]; cbn iota end.
    rewrite at_false by (rewrite Y; apply NS, E). exact X1.
  - destruct (outcome_one' ">" TK_GREATER _ _ l H eq_refl eq_refl) as (t & l' & X1 & X2 & X3). exists t, l'. split; [|split; [exact X2|exact X3]].
    destruct (step_steps _ _ _ H) as [S Y]. unfold dispatch. rewrite H. change (chars ">") with [chr ">"]. cbn [app].
    change (is_dec (chr ">")) with false. change (chr ">" =? 34) with false. cbn iota.
    repeat match goal with |- context [chr ">" =? chr ?a] => first [change (chr ">" =? chr a) with false | change (chr ">" =? chr a) with true]; cbn iota end.
    rewrite at_false by (rewrite Y; apply NS, E). exact X1.
  - change (inp l = chr "<" :: chr "=" :: rest) in H. d2 "<="%string TK_LESS_EQUAL.
  - change (inp l = chr ">" :: chr "=" :: rest) in H. d2 ">="%string TK_GREATER_EQUAL.
  - d1 ","%string TK_COMMA.
  - destruct (outcome_one' "." TK_DOT _ _ l H eq_refl eq_refl) as (t & l' & X1 & X2 & X3). exists t, l'. split; [|split; [exact X2|exact X3]].
    destruct (step_steps _ _ _ H) as [S Y]. unfold dispatch. rewrite H. change (chars ".") with [chr "."]. cbn [app].
    change (is_dec (chr ".")) with false. change (chr "." =? 34) with false. cbn iota.
    repeat match goal with |- context [chr "." =? chr ?a] => first [change (chr "." =? chr a) with false | change (chr "." =? chr a) with true]; cbn iota end.
    cbn [ends_before] in E.
    rewrite at_false.
    2:{ rewrite Y. intros (x & q & Z1 & Z2). apply E. exists x, q. split; [exact Z1|]. right. apply eqb_in1 in Z2. exact Z2. }
    rewrite at_false.
    2:{ rewrite Y. intros (x & q & Z1 & Z2). apply E. exists x, q. split; [exact Z1|]. left. now apply is_dec_spec. }
    exact X1.
  - d1 ";"%string TK_SEMICOL.
Qed.
Lemma dispatch_complete : forall T lex rest l, lexeme T lex -> ends_before T rest -> inp l = lex ++ rest -> buf l = [] ->
  exists t l', dispatch l = (t, l') /\ outcome l T lex t l' /\ inp l' = rest.
Proof.
  intros T lex rest l L E H Hb. destruct L as [s W Nk|s K|T s Nu|b B|s D|d t D Ti|s Ns|s T I].
  - destruct (dispatch_word s rest l W E H Hb) as (t & l' & A & B & C). exists t, l'. split; [exact A|]. split; [|exact C].
    unfold word_type in B. destruct (in_dec (list_eq_dec N.eq_dec) s keywords); [contradiction|exact B].
  - destruct (dispatch_word s rest l (keywords_words s K) E H Hb) as (t & l' & A & B & C). exists t, l'. split; [exact A|]. split; [|exact C].
    unfold word_type in B. destruct (in_dec (list_eq_dec N.eq_dec) s keywords); [exact B|contradiction].
  - apply (dispatch_number T s rest l); auto. eapply number_kind; eauto.
  - cbn [app] in H. unfold dispatch. rewrite H. change (is_dec 34) with false. change (34 =? 34) with true. cbn iota.
    unfold read_string_literal. destruct (push_reads _ _ _ H) as [X Y]. rewrite <- app_assoc in Y.
    destruct (string_loop_run b B rest (push l) Y) as (l1 & P & Q & R). rewrite P. rewrite (at_cons _ _ _ _ R), N.eqb_refl. cbn [negb].
    destruct (push_reads _ _ _ R) as [X2 Y2].
    exists (fst (make (push l1) TK_STRING_LITERAL)), (push l1). split; [reflexivity|]. split; [|exact Y2].
    apply (outcome_make l (push l1)); auto; [discriminate|]. change (34 :: b ++ [34]) with ([34] ++ b ++ [34]). eapply reads_trans; [exact X|]. eapply reads_trans; eauto.
  - change (chars "d'") with (chars "d" ++ chars "'") in H. rewrite <- !app_assoc in H. destruct (push_reads (chr "d") _ _ H) as [X Y].
    destruct (read_date_run s [] rest l (push l) D (or_introl eq_refl) X Hb) as (l' & P & Q & R); [exact Y|].
    cbn [isnil] in P. exists (fst (make l' TK_DATE)), l'. split; [|split; [|exact R]].
    + destruct (step_steps (chr "d") _ _ H) as [S Y']. unfold dispatch. rewrite H.
      change (chars "d" ++ ?q) with (chr "d" :: q). cbn iota. change (is_dec (chr "d")) with false. change (chr "d" =? 34) with false. rewrite N.eqb_refl. cbn iota.
      rewrite (at_cons _ (chr "'") _ _ Y'), N.eqb_refl. rewrite (push_buf_step (chr "d") _ _ H). rewrite P. reflexivity.
    + apply (outcome_make l l'); auto. discriminate.
  - change (chars "d'") with (chars "d" ++ chars "'") in H. rewrite <- !app_assoc in H. destruct (push_reads (chr "d") _ _ H) as [X Y].
    destruct (read_date_run d (chars " " ++ t) rest l (push l) D (or_intror (ex_intro _ t (conj eq_refl Ti))) X Hb) as (l' & P & Q & R).
    { rewrite <- (app_assoc (chars " ")). exact Y. }
    cbn [isnil app chars map list_ascii_of_string] in P. exists (fst (make l' TK_DATE_TIME)), l'. split; [|split; [|exact R]].
    + destruct (step_steps (chr "d") _ _ H) as [S Y']. unfold dispatch. rewrite H.
      change (chars "d" ++ ?q) with (chr "d" :: q). cbn iota. change (is_dec (chr "d")) with false. change (chr "d" =? 34) with false. rewrite N.eqb_refl. cbn iota.
      rewrite (at_cons _ (chr "'") _ _ Y'), N.eqb_refl. rewrite (push_buf_step (chr "d") _ _ H). rewrite P. reflexivity.
    + apply (outcome_make l l' _ _ Hb); [discriminate|]. rewrite <- (app_assoc (chars " ")) in Q. exact Q.
  - cbn [app] in H. destruct (instruction_run s rest l H Hb Ns E) as (l' & A & B & C). exists (fst (make l' TK_INSTRUCTION)), l'.
    split; [|split; [apply (outcome_make l l'); auto; discriminate|exact C]]. unfold dispatch. rewrite H.
    change (is_dec (chr "\")) with false. change (chr "\" =? 34) with false. cbn iota.
    repeat match goal with |- context [chr "\" =? chr ?a] => first [change (chr "\" =? chr a) with false | change (chr "\" =? chr a) with true]; cbn iota end.
    rewrite A. reflexivity.
  - now apply dispatch_punctuator.
Qed.

(** ** White space and comments *)
Lemma comment_any : forall n s l, (length s <= n)%nat -> inp l = s ->
  exists b, steps b l (comment s l) /\ ~ In 10 b /\ (inp (comment s l) = [] \/ starts (eq 10) (inp (comment s l))) .
Proof.
  induction n as [|n IH]; intros s l Ln H.
  { destruct s; [|cbn in Ln; lia]. exists []. cbn. split; [apply reads_steps, reads_nil|]. auto. }
  destruct s as [|c s]; cbn [comment].
  { exists []. split; [apply reads_steps, reads_nil|]. auto. }
  destruct (c =? 10) eqn:E.
  - apply N.eqb_eq in E. subst c. exists []. split; [apply reads_steps, reads_nil|]. split; [auto|]. right. exists 10, s. auto.
  - destruct (step_steps _ _ _ H) as [S Y]. cbn in Ln. destruct (IH s (step l) ltac:(lia) Y) as (b & A & B & C).
    exists ([c] ++ b). split; [eapply steps_trans; eauto|]. split; [|exact C]. intros [X|X]; [subst; discriminate E|auto].
Qed.
Lemma comment_run : forall b r l, inp l = b ++ 10 :: r -> ~ In 10 b -> steps b l (comment (inp l) l) /\ inp (comment (inp l) l) = 10 :: r.
Proof.
  induction b as [|c b IH]; intros r l H N10.
  - rewrite H. cbn. split; [apply reads_steps, reads_nil|exact H].
  - rewrite H. cbn [app comment]. destruct (c =? 10) eqn:E; [apply N.eqb_eq in E; exfalso; apply N10; left; exact E|].
    destruct (step_steps _ _ _ H) as [S Y]. destruct (IH r (step l) Y) as [A B]; [intros X; apply N10; right; exact X|].
    cbn [app] in Y. rewrite Y in A, B. split; [|exact B]. change (c :: b) with ([c] ++ b). eapply steps_trans; eauto.
Qed.
Lemma comment_to_end : forall b l, inp l = b -> ~ In 10 b -> inp (comment b l) = [].
Proof.
  induction b as [|c b IH]; intros l H N10; cbn [comment]; [exact H|].
  destruct (c =? 10) eqn:E; [apply N.eqb_eq in E; exfalso; apply N10; left; exact E|].
  destruct (step_steps _ _ _ H) as [S Y]. apply IH; auto. intros X; apply N10; right; exact X.
Qed.
Lemma blank_app : forall a b, blank a -> blank b -> blank (a ++ b).
Proof.
  intros a b A B. induction A as [|c s W A IH|k s N10 A IH]; [exact B|now constructor|].
  replace ((chars "--" ++ k ++ 10 :: s) ++ b) with (chars "--" ++ k ++ 10 :: (s ++ b)) by (rewrite <- !app_assoc; reflexivity). now apply blank_comment.
Qed.
Lemma blank_app_end : forall a b, blank a -> blank_end b -> blank_end (a ++ b).
Proof.
  intros a b A [s B|s k B N10]; [constructor; now apply blank_app|]. rewrite app_assoc. apply blank_end_comment; auto. now apply blank_app.
Qed.
Lemma blank_newline : forall s, blank (10 :: s) -> blank s.
Proof. intros s H. inversion H; subst; auto. Qed.
Lemma blank_end_newline : forall s, blank_end (10 :: s) -> blank_end s.
Proof.
  intros s H. inversion H as [? B|p b B N10 E]; subst.
  - constructor. now apply blank_newline.
  - destruct p as [|c p]; [discriminate E|]. injection E as -> <-. apply blank_end_comment; auto. now apply blank_newline.
Qed.
Lemma skip_sound : forall f l, (length (inp l) < f)%nat ->
  exists e l' ws, skip f l = Some (e, l') /\ steps ws l l' /\
    if (e : bool) then inp l' = [] /\ blank_end ws else blank ws /\ exists c r, inp l' = c :: r /\ can_start c r.
Proof.
  induction f as [|f IH]; intros l Ln; [lia|]. cbn [skip]. destruct (inp l) as [|c r] eqn:H.
  { exists true, l, []. split; [reflexivity|]. split; [apply reads_steps, reads_nil|]. split; [exact H|]. constructor. constructor. }
  cbn [length] in Ln. destruct (step_steps _ _ _ H) as [S Y]. destruct (is_space c) eqn:Es.
  - destruct (IH (step l)) as (e & l' & ws & A & B & C); [rewrite Y; lia|]. exists e, l', ([c] ++ ws). split; [exact A|].
    apply is_space_spec in Es. split; [eapply steps_trans; eauto|]. destruct e.
    + destruct C as [C1 C2]. split; [exact C1|]. apply blank_app_end; [|exact C2]. constructor; auto; constructor.
    + destruct C as [C1 C2]. split; [now constructor|exact C2].
  - destruct (c =? chr "-") eqn:Ed.
    + apply N.eqb_eq in Ed. subst c. destruct (at_ (fun c => c =? chr "-") (step l)) eqn:E2.
      * destruct (at_true _ _ E2) as (x & q & Z1 & Z2). apply N.eqb_eq in Z2. subst x. rewrite Y in Z1. rewrite Z1 in *.
        destruct (step_steps _ _ _ Y) as [S2 Y2]. set (l2 := step (step l)) in *.
        destruct (comment_any (length q) q l2 (le_n _) Y2) as (b & S3 & N10 & Hc). rewrite Y2.
        pose proof (steps_trans _ _ _ _ _ S (steps_trans _ _ _ _ _ S2 S3)) as S4.
        destruct (IH (comment q l2)) as (e & l' & ws & A & B & C).
        { pose proof (s_inp _ _ _ S3) as X. rewrite Y2 in X. apply (f_equal (@length N)) in X. rewrite app_length in X. cbn [length] in Ln. lia. }
        exists e, l', ((chr "-" :: chr "-" :: b) ++ ws). split; [exact A|]. split; [eapply steps_trans; [exact S4|exact B]|].
        pose proof (s_inp _ _ _ B) as Bi.
        destruct Hc as [Hc|(n & q' & Hc & <-)].
        { rewrite Hc in Bi. symmetry in Bi. apply app_eq_nil in Bi. destruct Bi as [-> Bi]. destruct e.
          - split; [exact Bi|]. rewrite app_nil_r. change (chr "-" :: chr "-" :: b) with ([] ++ chars "--" ++ b). apply blank_end_comment; [constructor|exact N10].
          - destruct C as [_ (x & y & C & _)]. congruence. }
        { assert (Hw : ws = [] -> False).
          { intros ->. cbn [app] in Bi. rewrite Hc in Bi. destruct e; [destruct C as [C _]; congruence|]. destruct C as [_ (x & y & C & C2)].
            rewrite <- Bi in C. injection C as <- <-. destruct C2 as [C2 _]. apply C2. unfold whitespace. cbn. auto. }
          destruct ws as [|w ws]; [exfalso; auto|]. rewrite Hc in Bi. injection Bi as <- Bi.
          assert (R : (chr "-" :: chr "-" :: b) ++ 10 :: ws = (chars "--" ++ b ++ 10 :: []) ++ ws) by (cbn; now rewrite <- app_assoc).
          assert (R' : blank (chars "--" ++ b ++ [10])) by (apply blank_comment; [exact N10|constructor]).
          destruct e.
          - destruct C as [C1 C2]. split; [exact C1|]. rewrite R. apply blank_app_end; [exact R'|now apply blank_end_newline].
          - destruct C as [C1 C2]. split; [|exact C2]. rewrite R. apply blank_app; [exact R'|now apply blank_newline]. }
      * exists false, l, []. rewrite (undo_step _ _ _ H) by discriminate. split; [reflexivity|]. split; [apply reads_steps, reads_nil|].
        split; [constructor|]. exists (chr "-"), r. split; [exact H|]. split; [intros W; apply is_space_spec in W; congruence|].
        intros _ (x & q & Z1 & <-). apply at_false_inv in E2. apply E2. exists (chr "-"), q. split; [congruence|reflexivity].
    + exists false, l, []. split; [reflexivity|]. split; [apply reads_steps, reads_nil|]. split; [constructor|]. exists c, r. split; [exact H|].
      split; [intros W; apply is_space_spec in W; congruence|]. intros ->. discriminate Ed.
Qed.
Lemma skip_run : forall ws, blank ws -> forall f l r, inp l = ws ++ r -> (length (inp l) < f)%nat ->
  exists f' l1, skip f l = skip f' l1 /\ steps ws l l1 /\ inp l1 = r /\ (length r < f')%nat.
Proof.
  intros ws B. induction B as [|c s W B IH|b s N10 B IH]; intros f l r H Ln.
  - exists f, l. cbn [app] in H. rewrite H in Ln. split; [reflexivity|]. split; [apply reads_steps, reads_nil|auto].
  - destruct f as [|f]; [lia|]. cbn [app] in H. destruct (step_steps _ _ _ H) as [S Y].
    destruct (IH f (step l) r Y) as (f' & l1 & P & Q & R); [rewrite Y; rewrite H in Ln; cbn [length] in Ln; lia|].
    exists f', l1. split; [|split; [change (c :: s) with ([c] ++ s); eapply steps_trans; eauto|exact R]].
    cbn [skip]. rewrite H. apply is_space_spec in W. now rewrite W.
  - destruct f as [|f]; [lia|]. rewrite <- app_assoc in H. change (inp l = chr "-" :: chr "-" :: (b ++ 10 :: s) ++ r) in H. rewrite <- app_assoc in H. cbn [app] in H.
    destruct (step_steps _ _ _ H) as [S Y]. destruct (step_steps _ _ _ Y) as [S2 Y2].
    destruct (comment_run b (s ++ r) (step (step l)) Y2 N10) as [S3 Y3]. set (l3 := comment (inp (step (step l))) (step (step l))) in *.
    rewrite H in Ln. cbn [length] in Ln. rewrite app_length in Ln. cbn [length] in Ln. rewrite app_length in Ln.
    destruct f as [|f]; [lia|]. destruct (step_steps _ _ _ Y3) as [S4 Y4].
    destruct (IH f (step l3) r Y4) as (f' & l1 & P & Q & R); [rewrite Y4, app_length; lia|].
    exists f', l1. split; [|split; [|exact R]].
    + cbn [skip]. rewrite H. change (is_space (chr "-")) with false. rewrite N.eqb_refl. cbn iota. rewrite (at_cons _ _ _ _ Y), N.eqb_refl.
      fold l3. rewrite Y3. change (is_space 10) with true. cbn iota. exact P.
    + change (chars "--" ++ b ++ 10 :: s) with ([chr "-"] ++ [chr "-"] ++ b ++ [10] ++ s).
      eapply steps_trans; [exact S|]. eapply steps_trans; [exact S2|]. eapply steps_trans; [exact S3|]. eapply steps_trans; [exact S4|exact Q].
Qed.
Lemma skip_stop : forall f l c r, inp l = c :: r -> can_start c r -> (length (inp l) < f)%nat -> skip f l = Some (false, l).
Proof.
  intros f l c r H [C1 C2] Ln. destruct f as [|f]; [lia|]. cbn [skip]. rewrite H.
  destruct (is_space c) eqn:E; [apply is_space_spec in E; contradiction|].
  destruct (c =? chr "-") eqn:Ed; [|reflexivity]. apply N.eqb_eq in Ed. subst c. destruct (step_steps _ _ _ H) as [S Y].
  rewrite at_false; [now rewrite (undo_step _ _ _ H) by discriminate|]. rewrite Y. intros (x & q & Z1 & Z2). apply N.eqb_eq in Z2. subst x.
  apply (C2 eq_refl). exists (chr "-"), q. auto.
Qed.
Lemma skip_end : forall f l, blank_end (inp l) -> (length (inp l) < f)%nat -> exists l', skip f l = Some (true, l').
Proof.
  intros f l H Ln. remember (inp l) as i eqn:Ei. destruct H as [s B|s b B N10].
  - destruct (skip_run s B f l []) as (f' & l1 & P & Q & R & T); [now rewrite app_nil_r|now rewrite <- Ei|].
    rewrite P. destruct f' as [|f']; [cbn in T; lia|]. cbn [skip]. rewrite R. eauto.
  - destruct (skip_run s B f l (chars "--" ++ b)) as (f' & l1 & P & Q & R & T); [now rewrite <- Ei|now rewrite <- Ei|].
    rewrite P. destruct f' as [|f']; [cbn in T; lia|]. change (inp l1 = chr "-" :: chr "-" :: b) in R.
    destruct (step_steps _ _ _ R) as [S Y]. destruct (step_steps _ _ _ Y) as [S2 Y2].
    cbn [skip]. rewrite R. change (is_space (chr "-")) with false. rewrite N.eqb_refl. cbn iota. rewrite (at_cons _ _ _ _ Y), N.eqb_refl. rewrite Y2.
    pose proof (comment_to_end b _ Y2 N10) as E. destruct f' as [|f']; [cbn in T; lia|]. cbn [skip]. rewrite E. eauto.
Qed.

(** ** Positions *)
Lemma newlines_app : forall a b, newlines (a ++ b) = newlines a + newlines b.
Proof. induction a as [|c a IH]; intros b; cbn; [reflexivity|]. rewrite IH. lia. Qed.
Lemma existsb_10 : forall s, existsb (N.eqb 10) s = true <-> In 10 s.
Proof. intros s. rewrite existsb_exists. split; [intros (x & A & B); apply N.eqb_eq in B; now subst|intros H; exists 10; auto]. Qed.
Lemma last_line_snoc : forall s c, last_line (s ++ [c]) = if c =? 10 then [] else last_line s ++ [c].
Proof.
  intros s c. induction s as [|x s IH].
  - cbn [app last_line existsb]. rewrite (N.eqb_sym 10 c), orb_false_r. destruct (c =? 10); reflexivity.
  - cbn [app last_line]. rewrite IH. clear IH.
    change (x :: s ++ [c]) with ((x :: s) ++ [c]). rewrite existsb_app. cbn [existsb app]. rewrite orb_false_r, (N.eqb_sym 10 c).
    destruct (c =? 10) eqn:E; [now rewrite orb_true_r|]. rewrite orb_false_r. now destruct ((10 =? x) || existsb (N.eqb 10) s).
Qed.
Lemma move_spec : forall s pre, move (line_at pre, column_at pre) s = (line_at (pre ++ s), column_at (pre ++ s)).
Proof.
  induction s as [|c s IH]; intros pre; [now rewrite app_nil_r|].
  change (move (line_at pre, column_at pre) (c :: s)) with (move (move1 (line_at pre, column_at pre) c) s).
  replace (pre ++ c :: s) with ((pre ++ [c]) ++ s) by now rewrite <- app_assoc. rewrite <- IH. f_equal.
  unfold move1, line_at, column_at. cbn [fst snd]. rewrite newlines_app, last_line_snoc. cbn [newlines]. destruct (c =? 10).
  - cbn [length]. f_equal; lia.
  - rewrite app_length. cbn [length]. f_equal; lia.
Qed.

(** ** All tokens *)
Definition token_text (T : tk) (lex rest text : list N) : Prop :=
  text = cstr lex \/ (T = TK_ERROR /\ rest = [] /\ (exists b, lex = b ++ chars "\") /\ text = cstr (lex ++ [255])).
Inductive lexed : list N -> list N -> list token -> Prop :=
  | lexed_end pre rest : blank_end rest -> lexed pre rest []
  | lexed_token pre ws lex rest t ts :
      blank ws -> lex <> [] ->
      ttype t = TK_ERROR \/ accepted (ttype t) lex ->
      tline t = line_at (pre ++ ws) -> tcolumn t = column_at (pre ++ ws) ->
      token_text (ttype t) lex rest (ttext t) ->
      lexed (pre ++ ws ++ lex) rest ts ->
      lexed pre (ws ++ lex ++ rest) (t :: ts).

Definition positioned (pre : list N) (l : lexer) : Prop := inp l <> [] -> pos l = (line_at pre, column_at pre).
Lemma lexeme_not : forall T s, lexeme T s -> T <> TK_EOF /\ T <> TK_ERROR.
Proof.
  intros T s H. destruct H as [| |T s H| | | | |s T H]; try (split; discriminate).
  - destruct H; split; discriminate.
  - unfold punctuators in H. cbn [map fst snd In] in H. repeat (destruct H as [H|H]; [injection H as _ <-; split; discriminate|]). destruct H.
Qed.
Lemma accepted_not : forall T s, accepted T s -> T <> TK_EOF /\ T <> TK_ERROR.
Proof. intros T s H. destruct H as [T s H|T s H| |]; try (split; discriminate); [now apply lexeme_not in H|destruct H; split; discriminate]. Qed.
Lemma next_sound : forall pre l, positioned pre l -> exists t l', next l = Some (t, l') /\
  ((ttype t = TK_EOF /\ blank_end (inp l)) \/
   (ttype t <> TK_EOF /\ exists ws lex, inp l = ws ++ lex ++ inp l' /\ blank ws /\ lex <> [] /\ (ttype t = TK_ERROR \/ accepted (ttype t) lex) /\
      tline t = line_at (pre ++ ws) /\ tcolumn t = column_at (pre ++ ws) /\ token_text (ttype t) lex (inp l') (ttext t) /\ positioned (pre ++ ws ++ lex) l')).
Proof.
  intros pre l P. unfold next. destruct (skip_sound (S (length (inp l))) l ltac:(lia)) as (e & l1 & ws & A & [S1 S2 S3 S4] & C). rewrite A. destruct e.
  - destruct C as [C1 C2]. eexists; eexists. split; [reflexivity|]. left. split; [reflexivity|]. rewrite S1, C1, app_nil_r. exact C2.
  - destruct C as [C1 (c & r & H & C2)].
    assert (Pl : pos l1 = (line_at (pre ++ ws), column_at (pre ++ ws))).
    { rewrite S4, P; [apply move_spec|]. rewrite S1, H. destruct ws; discriminate. }
    destruct (dispatch_sound c r (set_start l1) H eq_refl) as (T & lex & t & l' & D1 & D2 & D3). exists t, l'. rewrite D1. split; [reflexivity|]. right.
    destruct D2 as (O1 & O2 & O3 & O4 & O5 & O6 & O7). rewrite O3 in *.
    split; [destruct D3 as [->|D3]; [discriminate|now apply accepted_not in D3]|].
    exists ws, lex. cbn [set_start inp] in O4. unfold pos in Pl. injection Pl as Pl1 Pl2.
    split; [rewrite S1, O4; reflexivity|]. split; [exact C1|]. split; [exact O5|]. split; [exact D3|]. split; [rewrite O1; exact Pl1|]. split; [rewrite O2; exact Pl2|].
    split; [exact O7|]. intros Ne. rewrite (O6 Ne). unfold set_start, pos. cbn [line column]. rewrite Pl1, Pl2, app_assoc. apply move_spec.
Qed.
Lemma all_tokens_sound : forall f pre l, positioned pre l -> (length (inp l) < f)%nat -> exists ts, all_tokens f l = Some ts /\ lexed pre (inp l) ts.
Proof.
  induction f as [|f IH]; intros pre l P Ln; [lia|]. cbn [all_tokens]. destruct (next_sound pre l P) as (t & l' & A & B). rewrite A.
  destruct B as [[B1 B2]|(B0 & ws & lex & B1 & B2 & B3 & B4 & B5 & B6 & B7 & B8)].
  - rewrite B1. exists []. split; [reflexivity|]. now constructor.
  - destruct (IH (pre ++ ws ++ lex) l' B8) as (ts & C1 & C2).
    { rewrite B1, !app_length in Ln. destruct lex; [congruence|]. cbn [length] in Ln. lia. }
    exists (t :: ts). split; [destruct (ttype t); try congruence; now rewrite C1|]. rewrite B1. now constructor.
Qed.
Lemma next_initial : forall text, next (initial text) = next (mkLexer text 1 1 0 0 []).
Proof. intros text. reflexivity. Qed.

(** C37: lexing always terminates; the text is the consumed texts of the tokens with white space and comments between them and at the
    end; every token is at the line and column of its first character; its text is what was consumed; and a token that is not an error
    is one of the accepted ones. *)
Theorem C37_lossless : forall text, exists ts, tokens text = Some ts /\ lexed [] text ts.
Proof.
  intros text. unfold tokens. replace (length text + 2)%nat with (S (S (length text))) by lia.
  destruct (all_tokens_sound (S (S (length text))) [] (mkLexer text 1 1 0 0 [])) as (ts & A & B); [intros _; reflexivity|cbn; lia|].
  exists ts. split; [|exact B]. rewrite <- A. cbn [all_tokens]. now rewrite next_initial.
Qed.

(** The concatenation, when no byte is NUL and the text does not end with a backslash. *)
Fixpoint interleave (ws : list (list N)) (ts : list token) : list N :=
  match ws, ts with w :: ws, t :: ts => w ++ ttext t ++ interleave ws ts | w :: _, [] => w | [], _ => [] end.
Lemma lexed_interleave : forall pre text ts, lexed pre text ts -> ~ In 0 text -> (forall b, text <> b ++ chars "\") ->
  exists ws, length ws = S (length ts) /\ Forall blank_end ws /\ Forall blank (removelast ws) /\ text = interleave ws ts.
Proof.
  intros pre text ts H. induction H as [pre rest B|pre ws lex rest t ts B Ne Ac L C Tx H IH]; intros N0 Nb.
  - exists [rest]. split; [reflexivity|]. split; [auto|]. split; [constructor|reflexivity].
  - destruct IH as (w & W1 & W2 & W3 & W4).
    { intros X. apply N0. rewrite !in_app_iff. auto. }
    { intros b ->. apply (Nb (ws ++ lex ++ b)). now rewrite <- !app_assoc. }
    exists (ws :: w). split; [cbn; now rewrite W1|]. split; [constructor; [now constructor|exact W2]|]. split.
    + destruct w as [|x w]; [discriminate|]. constructor; auto.
    + cbn [interleave]. rewrite <- W4. f_equal. f_equal. destruct Tx as [->|(_ & -> & (b & Z) & _)].
      * symmetry. apply cstr_no_nul. intros X. apply N0. rewrite !in_app_iff. auto.
      * exfalso. apply (Nb (ws ++ b)). rewrite Z, app_nil_r, <- app_assoc. reflexivity.
Qed.
Theorem C37_concatenation : forall text, ~ In 0 text -> (forall b, text <> b ++ chars "\") ->
  exists ts ws, tokens text = Some ts /\ length ws = S (length ts) /\ Forall blank_end ws /\ Forall blank (removelast ws) /\ text = interleave ws ts.
Proof.
  intros text N0 Nb. destruct (C37_lossless text) as (ts & A & B). destruct (lexed_interleave _ _ _ B N0 Nb) as (ws & C). exists ts, ws. auto.
Qed.

(** C37: the converse: a text made of documented tokens, each followed by a character that is not part of it, is read as exactly these. *)
Inductive written : list (tk * list N) -> list N -> Prop :=
  | written_end rest : blank_end rest -> written [] rest
  | written_token ws T lex rest items : blank ws -> lexeme T lex -> ~ In 0 lex -> ends_before T rest -> written items rest ->
      written ((T, lex) :: items) (ws ++ lex ++ rest).
Lemma lexeme_can_start : forall T lex rest, lexeme T lex -> ends_before T rest -> exists c r, lex ++ rest = c :: r /\ can_start c r.
Proof.
  intros T lex rest L E.
  assert (W : forall c, is_space c = false -> c <> chr "-" -> forall r, can_start c r).
  { intros c A B r. split; [intros X; apply is_space_spec in X; congruence|intros X; contradiction]. }
  assert (Ww : forall s, word s -> exists c r, s ++ rest = c :: r /\ can_start c r).
  { intros s (c & r & -> & Wc & _). exists c, (r ++ rest). split; [reflexivity|]. destruct (letter_cases c Wc) as (K1 & K2 & K3).
    apply W; [|intros ->; specialize (K3 (chr "-")); discriminate K3; cbn; auto 30].
    destruct (is_space c) eqn:X; [|reflexivity]. exfalso. apply is_space_spec in X. unfold whitespace in X. cbn in X.
    assert (Y : is_ident c = true) by (apply is_ident_spec; unfold wordchar; tauto).
    destruct X as [<-|[<-|[<-|[<-|[<-|[<-|[]]]]]]]; discriminate Y. }
  destruct L as [s Wd Nk|s K|T s Nu|b B|s D|d t D Ti|s Ns|s T I].
  - auto.
  - apply Ww. now apply keywords_words.
  - destruct (number_start T s Nu) as (c & q & -> & St). exists c, (q ++ rest). split; [reflexivity|]. destruct St as [St|[-> _]].
    + apply W; [|intros ->; discriminate St]. destruct (is_space c) eqn:X; [|reflexivity]. exfalso. apply is_space_spec in X. unfold whitespace in X. cbn in X.
      destruct X as [<-|[<-|[<-|[<-|[<-|[<-|[]]]]]]]; discriminate St.
    + apply W; [reflexivity|discriminate].
  - exists 34, ((b ++ [34]) ++ rest). split; [reflexivity|]. apply W; [reflexivity|discriminate].
  - eexists; eexists. split; [reflexivity|]. apply W; [reflexivity|discriminate].
  - eexists; eexists. split; [reflexivity|]. apply W; [reflexivity|discriminate].
  - exists (chr "\"), (s ++ rest). split; [reflexivity|]. apply W; [reflexivity|discriminate].
  - unfold punctuators in I. cbn [map fst snd In] in I.
    repeat (destruct I as [I|I]; [injection I as <- <-; eexists; eexists; split; [reflexivity|]; first [apply W; [reflexivity|discriminate] | idtac]|]); [|destruct I].
    split; [intros X; apply is_space_spec in X; discriminate X|]. intros _. exact E.
Qed.
Lemma next_written : forall ws T lex rest l, blank ws -> lexeme T lex -> ~ In 0 lex -> ends_before T rest -> inp l = ws ++ lex ++ rest ->
  exists t l', next l = Some (t, l') /\ ttype t = T /\ ttext t = lex /\ inp l' = rest.
Proof.
  intros ws T lex rest l B L N0 E H. unfold next.
  destruct (skip_run ws B (S (length (inp l))) l (lex ++ rest) H ltac:(lia)) as (f' & l1 & P & Q & R & Ln). rewrite P.
  destruct (lexeme_can_start T lex rest L E) as (c & r & X & Y).
  rewrite (skip_stop f' l1 c r); [|congruence|exact Y|now rewrite R].
  destruct (dispatch_complete T lex rest (set_start l1) L E R eq_refl) as (t & l' & D1 & D2 & D3). exists t, l'. rewrite D1.
  destruct D2 as (O1 & O2 & O3 & O4 & O5 & O6 & O7). split; [reflexivity|]. split; [exact O3|]. split; [|exact D3].
  destruct O7 as [->|(Z & _)]; [now apply cstr_no_nul|]. exfalso. now apply lexeme_not in L.
Qed.
Theorem C37_round_trip : forall items text, written items text -> exists ts, tokens text = Some ts /\ map (fun t => (ttype t, ttext t)) ts = items.
Proof.
  intros items text W.
  assert (G : forall f l, inp l = text -> (length text < f)%nat -> exists ts, all_tokens f l = Some ts /\ map (fun t => (ttype t, ttext t)) ts = items).
  { induction W as [rest B|ws T lex rest items B L N0 E W IH]; intros f l H Ln.
    - destruct f as [|f]; [lia|]. cbn [all_tokens]. unfold next. rewrite <- H in B. destruct (skip_end (S (length (inp l))) l B ltac:(lia)) as (l' & S).
      rewrite S. cbn. exists []. auto.
    - destruct f as [|f]; [lia|]. cbn [all_tokens]. destruct (next_written ws T lex rest l B L N0 E H) as (t & l' & A1 & A2 & A3 & A4). rewrite A1.
      destruct (IH f l' A4) as (ts & C1 & C2).
      { rewrite !app_length in Ln. destruct lex; [|cbn [length] in Ln; lia].
        exfalso. destruct (lexeme_can_start T [] [] L) as (c & r & X & _); [destruct T; cbn; auto; try (intros (? & ? & Y & _); discriminate)|discriminate]. }
      exists (t :: ts). pose proof (lexeme_not _ _ L) as [N1 N2]. rewrite A2. destruct T; try congruence; rewrite C1; cbn; now rewrite C2, A2, A3. }
  unfold tokens. replace (length text + 2)%nat with (S (S (length text))) by lia.
  destruct (G (S (S (length text))) (mkLexer text 1 1 0 0 []) eq_refl ltac:(lia)) as (ts & A & B). exists ts. split; [|exact B].
  rewrite <- A. cbn [all_tokens]. now rewrite next_initial.
Qed.
Theorem C37_unambiguous : forall T T' lex, lexeme T lex -> lexeme T' lex -> T = T'.
Proof.
  intros T T' lex A B.
  assert (E : forall T, ends_before T []) by (intros X; destruct X; cbn; auto; intros (? & ? & Y & _); discriminate).
  destruct (dispatch_complete T lex [] (mkLexer lex 0 0 0 0 []) A (E T)) as (t & l1 & A1 & A2 & _); [now rewrite app_nil_r|reflexivity|].
  destruct (dispatch_complete T' lex [] (mkLexer lex 0 0 0 0 []) B (E T')) as (t' & l2 & B1 & B2 & _); [now rewrite app_nil_r|reflexivity|].
  rewrite A1 in B1. injection B1 as <- <-. apply outcome_type in A2, B2. congruence.
Qed.

(** An accepted date with both separators is as documented. *)
Lemma dash_not_digit : ~ decdigit (chr "-").
Proof. intros H. apply is_dec_spec in H. discriminate. Qed.
Lemma digits_dash : forall a b s, Forall decdigit s -> s = a ++ chr "-" :: b -> False.
Proof. intros a b s H ->. apply Forall_app in H. destruct H as [_ H]. inversion H. now apply dash_not_digit. Qed.
Lemma split_dash : forall a b a' b', Forall decdigit a -> Forall decdigit a' -> a ++ chr "-" :: b = a' ++ chr "-" :: b' -> a = a' /\ b = b'.
Proof.
  induction a as [|c a IH]; intros b a' b' H H' E.
  - destruct a' as [|x a']; [injection E as ->; auto|]. injection E as <- _. inversion H'. exfalso. now apply dash_not_digit.
  - destruct a' as [|x a']; cbn [app] in E.
    + injection E as -> _. inversion H. exfalso. now apply dash_not_digit.
    + injection E as -> E. inversion H; inversion H'; subst. destruct (IH b a' b') as [-> ->]; auto.
Qed.
Lemma sloppy_parts : forall y m d y' s1 m' s2 d', Forall decdigit y -> Forall decdigit m -> Forall decdigit d ->
  Forall decdigit y' -> Forall decdigit m' -> Forall decdigit d' -> opt "-" s1 -> opt "-" s2 ->
  y ++ chr "-" :: m ++ chr "-" :: d = y' ++ s1 ++ m' ++ s2 ++ d' -> y = y' /\ m = m' /\ d = d' /\ s1 <> [] /\ s2 <> [].
Proof.
  intros y m d y' s1 m' s2 d' Hy Hm Hd Hy' Hm' Hd' [->| ->] [->| ->] E.
  - cbn [app] in E. exfalso. eapply (digits_dash _ _ (y' ++ m' ++ d')); [|symmetry; exact E]. rewrite !Forall_app. auto.
  - cbn [app] in E. change (chars "-" ++ d') with (chr "-" :: d') in E. rewrite app_assoc in E. apply split_dash in E; auto; [|rewrite Forall_app; auto].
    destruct E as [_ E]. exfalso. eapply digits_dash; [|symmetry; exact E]. auto.
  - change (chars "-" ++ ?x) with (chr "-" :: x) in E. cbn [app] in E. apply split_dash in E; auto. destruct E as [_ E]. exfalso.
    eapply (digits_dash _ _ (m' ++ d')); [|symmetry; exact E]. rewrite Forall_app; auto.
  - change (chars "-" ++ ?x) with (chr "-" :: x) in E. apply split_dash in E; auto. destruct E as [-> E].
    change (chars "-" ++ ?x) with (chr "-" :: x) in E. apply split_dash in E; auto. destruct E as [-> ->].
    split; [reflexivity|]. split; [reflexivity|]. split; [reflexivity|]. split; discriminate.
Qed.
Lemma date_sloppy : forall s, date s -> sloppy_date s.
Proof.
  intros s [sg y m d Sg [Y1 Y2] [M1 M2] D]. constructor; auto; try (right; reflexivity); split; auto; lia.
Qed.
Theorem C37_dates_with_separators : forall sg y m d, sign sg -> Forall decdigit y -> Forall decdigit m -> Forall decdigit d -> y <> [] ->
  accepted TK_DATE (chars "d'" ++ (sg ++ y ++ chars "-" ++ m ++ chars "-" ++ d) ++ chars "'") ->
  length y = 4%nat /\ length m = 2%nat /\ length d = 2%nat.
Proof.
  intros sg y m d Sg Hy Hm Hd Ny A.
  assert (A' : sloppy_date (sg ++ y ++ chars "-" ++ m ++ chars "-" ++ d)).
  { remember TK_DATE as T eqn:ET. remember (chars "d'" ++ (sg ++ y ++ chars "-" ++ m ++ chars "-" ++ d) ++ chars "'") as x eqn:Ex.
    destruct A as [T s L|T s L|s L|s L]; try discriminate.
    - destruct L as [| |T s H| |s H| | |s T H]; try discriminate; subst.
      + inversion H.
      + apply app_inv_head in Ex. apply app_inv_tail in Ex. subst. now apply date_sloppy.
      + unfold punctuators in H. cbn [map fst snd In] in H. repeat (destruct H as [H|H]; [discriminate H|]). destruct H.
    - destruct L; discriminate.
    - apply app_inv_head in Ex. apply app_inv_tail in Ex. now subst. }
  remember (sg ++ y ++ chars "-" ++ m ++ chars "-" ++ d) as x eqn:Ex. destruct A' as [sg' y' s1 m' s2 d' Sg' [Y1 Y2] [M1 M2] [D1 D2] O1 O2 C1 C2].
  change (chars "-" ++ ?x) with (chr "-" :: x) in Ex. change (chars "-" ++ ?x) with (chr "-" :: x) in Ex.
  assert (K : y ++ chr "-" :: m ++ chr "-" :: d = y' ++ s1 ++ m' ++ s2 ++ d' -> length y = 4%nat /\ length m = 2%nat /\ length d = 2%nat).
  { intros E. destruct (sloppy_parts y m d y' s1 m' s2 d') as (-> & -> & -> & N1 & N2); auto. }
  destruct Sg as [->| ->], Sg' as [->| ->]; cbn [app] in Ex.
  - apply K. now symmetry.
  - destruct y as [|c y]; [congruence|]. cbn [app chars map list_ascii_of_string] in Ex. injection Ex as Ex _. inversion Hy; subst. exfalso. now apply dash_not_digit.
  - destruct y' as [|c y'].
    2:{ cbn [app chars map list_ascii_of_string] in Ex. injection Ex as -> _. inversion Y1. exfalso. now apply dash_not_digit. }
    cbn [app] in Ex. exfalso. destruct O1 as [->| ->].
    + cbn [app] in Ex. destruct m' as [|c m']; [|cbn in Ex; injection Ex as -> _; inversion M1; now apply dash_not_digit].
      cbn [app] in Ex. destruct O2 as [->| ->].
      * cbn [app] in Ex. eapply (digits_dash [] _ d' D1). exact Ex.
      * injection Ex as Ex. eapply (digits_dash y _ d' D1). exact Ex.
    + injection Ex as Ex. destruct O2 as [->| ->].
      * eapply (digits_dash y _ (m' ++ d')); [rewrite Forall_app; auto|exact Ex].
      * change (chars "-" ++ ?x) with (chr "-" :: x) in Ex. apply split_dash in Ex; auto. destruct Ex as [_ ->]. eapply digits_dash; [exact D1|reflexivity].
  - injection Ex as Ex. apply K. now symmetry.
Qed.

(** ** Examples and counterexamples *)
Definition kinds (s : string) : option (list (tk * list N)) := option_map (map (fun t => (ttype t, ttext t))) (tokens (chars s)).
Lemma C37_example :
  kinds "SELECT a.b, 0x1F, 1.5e-3 FROM t -- all
  WHERE d >= d'2020-01-31' AND s = ""x\n"";"
  = Some [(TK_KEYWORD (chars "SELECT"), chars "SELECT"); (TK_IDENTIFIER, chars "a"); (TK_DOT, chars "."); (TK_IDENTIFIER, chars "b"); (TK_COMMA, chars ",");
          (TK_HEX_INT, chars "0x1F"); (TK_COMMA, chars ","); (TK_DEC_FLOAT, chars "1.5e-3"); (TK_KEYWORD (chars "FROM"), chars "FROM"); (TK_IDENTIFIER, chars "t");
          (TK_KEYWORD (chars "WHERE"), chars "WHERE"); (TK_IDENTIFIER, chars "d"); (TK_GREATER_EQUAL, chars ">="); (TK_DATE, chars "d'2020-01-31'");
          (TK_KEYWORD (chars "AND"), chars "AND"); (TK_IDENTIFIER, chars "s"); (TK_EQUAL, chars "="); (TK_STRING_LITERAL, chars """x\n"""); (TK_SEMICOL, chars ";")].
Proof. vm_compute. reflexivity. Qed.
Lemma C37_example_positions : option_map (map (fun t => (tline t, tcolumn t))) (tokens (chars "a -- x
 b")) = Some [(1, 1); (2, 2)].
Proof. vm_compute. reflexivity. Qed.
Lemma C37_example_written : written [(TK_IDENTIFIER, chars "a"); (TK_PLUS, chars "+"); (TK_DEC_INT, chars "12")] (chars " a+12 ").
Proof.
  apply (written_token (chars " ") TK_IDENTIFIER (chars "a") (chars "+12 ")).
  - constructor; [unfold whitespace; cbn; auto 10|constructor].
  - apply lex_word; [exists (chr "a"), []; split; [reflexivity|]; split; [left; apply is_alpha_spec; reflexivity|constructor]|].
    intros H. apply (in_dec (list_eq_dec N.eq_dec)) in H || (revert H; unfold keywords; cbn; intuition discriminate).
  - cbn. intuition discriminate.
  - cbn. intros (c & r & X & Y). injection X as <- _. destruct Y as [Y|Y]; [apply is_ident_spec in Y; discriminate|]. destruct Y as [Y|[]]. discriminate.
  - apply (written_token [] TK_PLUS (chars "+") (chars "12 ")); [constructor| | | |].
    + apply lex_punctuator. unfold punctuators. cbn. auto 10.
    + cbn. intuition discriminate.
    + exact I.
    + apply (written_token [] TK_DEC_INT (chars "12") (chars " ")); [constructor| | | |].
      * apply lex_number. apply (number_dec (chr "1") (chars "2")); [left; reflexivity|]. constructor; [apply is_dec_spec; reflexivity|constructor].
      * cbn. intuition discriminate.
      * intros (c & r & X & Y). injection X as <- _. destruct Y as [Y|[Y|Y]]; [apply is_dec_spec in Y|apply is_alpha_spec in Y|destruct Y as [Y|[]]]; discriminate.
      * constructor. constructor. constructor; [unfold whitespace; cbn; auto 10|constructor].
Qed.
(** Malformed input that is not reported: a date without separators, a hexadecimal number without digits. *)
Lemma sloppy_not_date : forall s, In s [chars "20200101"; chars "2-0101"] -> ~ date s.
Proof.
  intros s H D. assert (L : (10 <= length s)%nat).
  { destruct D as [sg y m d Sg [_ Y] [_ M] [_ D]]. rewrite !app_length, Y, M, D. cbn. lia. }
  destruct H as [<-|[<-|[]]]; cbn in L; lia.
Qed.
Theorem C37_refuted_date_without_separators : exists s, In s [chars "20200101"; chars "2-0101"] /\ ~ date s /\
  option_map (map ttype) (tokens (chars "d'" ++ s ++ chars "'")) = Some [TK_DATE].
Proof.
  exists (chars "20200101"). split; [left; reflexivity|]. split; [apply sloppy_not_date; left; reflexivity|]. vm_compute. reflexivity.
Qed.
Theorem C37_refuted_date_short_year : ~ date (chars "2-0101") /\ option_map (map ttype) (tokens (chars "d'" ++ chars "2-0101" ++ chars "'")) = Some [TK_DATE].
Proof. split; [apply sloppy_not_date; right; left; reflexivity|]. vm_compute. reflexivity. Qed.
Lemma hexfloat_length : forall T s, number T s -> T = TK_HEX_FLOAT -> exists a b e x, s = 48 :: x :: a ++ b ++ e /\ Exists hexdigit (a ++ b) /\ Forall hexdigit a /\ fraction hexdigit b.
Proof. intros T s H E. destruct H; try discriminate. exists a, b, e, x. auto. Qed.
Theorem C37_refuted_number_without_digits : ~ number TK_HEX_FLOAT (chars "0xp1") /\ option_map (map ttype) (tokens (chars "0xp1")) = Some [TK_HEX_FLOAT].
Proof.
  split; [|vm_compute; reflexivity]. intros H. destruct (hexfloat_length _ _ H eq_refl) as (a & b & e & x & E & X & A & B).
  injection E as _ E. destruct a as [|c a].
  - cbn [app] in *. destruct B as [|b B]; [inversion X|]. discriminate E.
  - injection E as <- _. inversion A as [|? ? Y _]; subst. apply is_hex_spec in Y. discriminate Y.
Qed.
(** A NUL byte truncates the token's text; an unterminated string that ends with a backslash gets an additional character. *)
Theorem C37_refuted_nul : option_map (map ttext) (tokens [34; 97; 0; 98; 34]) = Some [[34; 97]].
Proof. vm_compute. reflexivity. Qed.
Theorem C37_refuted_backslash_at_end : option_map (map ttext) (tokens [34; 97; chr "\"]) = Some [[34; 97; chr "\"; 255]].
Proof. vm_compute. reflexivity. Qed.
