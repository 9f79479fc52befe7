(** * What the printer writes is read back as the same statement *)
From Coq Require Import ZArith NArith String Ascii List Bool Lia.
From Verif Require Import Lexer LexerProps Parser ParserSpec ParserProofs ParserStmt.
Import ListNotations.
Local Open Scope Z_scope.

(** ** Printable syntax trees *)
(** A token whose text is one of the lexer's for its type. *)
Definition good (t : tok) : Prop := lexeme (fst t) (snd t) /\ ~ In 0%N (snd t).
Definition ident (t : tok) : Prop := fst t = TK_IDENTIFIER /\ good t.
Definition opt_ident (o : option tok) : Prop := match o with Some t => ident t | None => True end.
Definition signs : list tk := [TK_PLUS; TK_MINUS; TK_TILDE; kw "NOT"].
(** The boolean: nested queries may occur in expressions (printing with [expand_nested_queries]). *)
Inductive p_expr : bool -> Expr -> Prop :=
  | p_attr x a : ident a -> p_expr x (Designator None a)
  | p_table_attr x t a : ident t -> ident a -> p_expr x (Designator (Some t) a)
  | p_constant x t : good t -> In (fst t) constants -> p_expr x (Constant t)
  | p_call x fn args : p_expr x fn -> p_exprs x args -> p_expr x (FnApplication fn args)
  | p_unary x op e : good op -> In (fst op) signs -> p_expr x e -> p_expr x (Unary op e)
  | p_binary x op e1 e2 : good op -> In (fst op) (map snd binary_operators) -> p_expr x e1 -> p_expr x e2 -> p_expr x (Binary op e1 e2)
  | p_query q : p_select true q -> p_expr true (Query q)
with p_exprs : bool -> list Expr -> Prop :=
  | p_nil x : p_exprs x []
  | p_cons x e l : p_expr x e -> p_exprs x l -> p_exprs x (e :: l)
with p_select : bool -> Select -> Prop :=
  | p_mkselect x all items from where_ group_by having order_by limit :
      (all = None /\ items <> [] \/ exists s, all = Some (TK_ASTERISK, s) /\ s = chars "*") -> p_items x items -> p_from_ x from -> p_where where_ -> p_group_ x group_by ->
      p_where having -> p_order_ x order_by -> (forall n o, limit = Some (n, o) -> good n /\ In (fst n) integers /\ (forall m, o = Some m -> good m /\ In (fst m) integers)) ->
      p_select x (mkSelect all items from where_ group_by having order_by limit)
with p_items : bool -> list (Expr * option tok) -> Prop :=
  | pi_nil x : p_items x []
  | pi_cons x e a l : p_expr x e -> opt_ident a -> p_items x l -> p_items x ((e, a) :: l)
with p_from_ : bool -> option (list (Source * option tok)) -> Prop :=
  | pf_none x : p_from_ x None
  | pf_some x l : l <> [] -> p_sources x l -> p_from_ x (Some l)
with p_sources : bool -> list (Source * option tok) -> Prop :=
  | ps_nil x : p_sources x []
  | ps_cons x s a l : p_source x s a -> p_sources x l -> p_sources x ((s, a) :: l)
with p_source : bool -> Source -> option tok -> Prop :=
  | ps_table x t a : ident t -> opt_ident a -> p_source x (Table t) a
  | ps_sub x q a : p_select x q -> ident a -> p_source x (Sub q) (Some a)
with p_where : option Expr -> Prop :=
  | pw_none : p_where None
  | pw_some e : p_expr false e -> p_where (Some e)
with p_group_ : bool -> option (list (Expr * option tok)) -> Prop :=
  | pg_none x : p_group_ x None
  | pg_some x l : l <> [] -> p_items x l -> p_group_ x (Some l)
with p_order_ : bool -> option (list (Expr * bool)) -> Prop :=
  | po_none x : p_order_ x None
  | po_some x l : l <> [] -> p_orders x l -> p_order_ x (Some l)
with p_orders : bool -> list (Expr * bool) -> Prop :=
  | pos_nil x : p_orders x []
  | pos_cons x e d l : p_expr x e -> p_orders x l -> p_orders x ((e, d) :: l).
Scheme p_expr_mut := Minimality for p_expr Sort Prop
with p_exprs_mut := Minimality for p_exprs Sort Prop
with p_select_mut := Minimality for p_select Sort Prop
with p_items_mut := Minimality for p_items Sort Prop
with p_from_mut := Minimality for p_from_ Sort Prop
with p_sources_mut := Minimality for p_sources Sort Prop
with p_source_mut := Minimality for p_source Sort Prop
with p_where_mut := Minimality for p_where Sort Prop
with p_group_mut := Minimality for p_group_ Sort Prop
with p_order_mut := Minimality for p_order_ Sort Prop
with p_orders_mut := Minimality for p_orders Sort Prop.
Combined Scheme printable_ind from p_expr_mut, p_exprs_mut, p_select_mut, p_items_mut, p_from_mut, p_sources_mut, p_source_mut, p_where_mut, p_group_mut,
  p_order_mut, p_orders_mut.

(** Does the expression begin with the constant NULL? *)
Fixpoint begins_with_null (e : Expr) : Prop :=
  match e with Constant t => fst t = kw "NULL" | FnApplication fn _ => begins_with_null fn | _ => False end.
(** Sizes: positive (a zero is read as an octal number) and small. *)
Definition p_size (n : N) : Prop := (0 < n < 2 ^ 64)%N.
Definition p_type (t : DataType) : Prop := match t with CHAR n | VARCHAR n | INT n => p_size n | DECIMAL p s => p_size p /\ p_size s | _ => True end.
Definition p_constraint (c : Constraint) : Prop := match c with Check e => p_expr false e | References t a => ident t /\ ident a | _ => True end.
Definition p_key (x : bool) (e : Expr) : Prop :=
  p_expr x e /\ match e with Designator None _ | Unary _ _ | Binary _ _ _ => True | _ => False end.
Definition p_value (v : Value) : Prop := match v with VExpr e => p_expr false e /\ ~ begins_with_null e | _ => True end.
Definition p_opt_string (o : option tok) : Prop := match o with Some t => fst t = TK_STRING_LITERAL /\ good t | None => True end.
Definition all_of {A} (P : A -> Prop) (l : list A) : Prop := l <> [] /\ Forall P l.
Inductive p_stmt (x : bool) : Stmt -> Prop :=
  | pr_empty : p_stmt x EmptyStmt
  | pr_create_database n : ident n -> p_stmt x (CreateDatabase n)
  | pr_drop_database n i : ident n -> p_stmt x (DropDatabase n i)
  | pr_use n : ident n -> p_stmt x (UseDatabase n)
  | pr_create_table n l : ident n -> all_of (fun a => ident (fst (fst a)) /\ p_type (snd (fst a)) /\ Forall p_constraint (snd a)) l -> p_stmt x (CreateTable n l)
  | pr_drop_table l i : all_of ident l -> p_stmt x (DropTable l i)
  | pr_create_index u i n t m l : (n = None /\ i = false \/ exists n', n = Some n' /\ ident n') -> ident t ->
      (forall m', m = Some m' -> good m' /\ In (fst m') [TK_IDENTIFIER; kw "DEFAULT"]) -> all_of (p_key x) l -> p_stmt x (CreateIndex u i n t m l)
  | pr_drop_index l i : all_of ident l -> p_stmt x (DropIndex l i)
  | pr_select q : p_select x q -> p_stmt x (SelectS q)
  | pr_insert t l : ident t -> all_of (all_of p_value) l -> p_stmt x (Insert t l)
  | pr_update t l w : ident t -> all_of (fun a => ident (fst a) /\ p_expr false (snd a)) l -> p_where w -> p_stmt x (Update t l w)
  | pr_delete t w : ident t -> p_where w -> p_stmt x (Delete t w)
  | pr_import t p rows de ha sk : ident t -> fst p = TK_STRING_LITERAL /\ good p ->
      (forall n, rows = Some n -> good n /\ In (fst n) [TK_DEC_INT; TK_OCT_INT]) -> p_opt_string de ->
      p_stmt x (Import t p rows de None None ha sk).

(** ** The text *)
Definition separators : list N := chars " (),;" ++ [10%N].
Definition safe (rest : list N) : Prop := exists c r, rest = c :: r /\ In c separators.
(** [text] is read as the tokens [ts] if it is followed by a separator. *)
Definition W (ts : list tok) (text : list N) : Prop := forall its rest, safe rest -> written its rest -> written (ts ++ its) (text ++ rest).
Lemma safe_cons : forall c r, existsb (N.eqb c) separators = true -> safe (c :: r).
Proof. intros c r H. exists c, r. split; [reflexivity|]. apply existsb_exists in H. destruct H as (d & I & E). apply N.eqb_eq in E. now subst. Qed.
Lemma safe_app : forall s r, match s with [] => false | c :: _ => existsb (N.eqb c) separators end = true -> safe (s ++ r).
Proof. intros [|c s] r H; [discriminate|]. now apply safe_cons. Qed.
Lemma separator_not : forall (P : N -> Prop) rest, safe rest -> (forall c, In c separators -> ~ P c) -> ~ starts P rest.
Proof. intros P rest (c & r & -> & I) H (c' & r' & E & Pc). injection E as <- <-. exact (H c I Pc). Qed.
Ltac seps := let c := fresh "c" in let I := fresh "I" in let Q := fresh "Q" in intros c I Q; unfold separators in I; cbn in I;
  repeat match type of I with _ \/ _ => destruct I as [<-|I] | False => destruct I end; unfold wordchar, decdigit, letter, in_ in Q; cbn in Q; intuition discriminate.
Lemma safe_ends : forall T rest, T <> TK_INSTRUCTION -> safe rest -> ends_before T rest.
Proof.
  intros T rest N S. unfold ends_before. destruct T; try exact I; try (apply separator_not; [exact S|seps]). now destruct N.
Qed.
Lemma w_tok : forall T lex its rest, lexeme T lex -> ~ In 0%N lex -> ends_before T rest -> written its rest -> written ((T, lex) :: its) (lex ++ rest).
Proof. intros T lex its rest L Z E H. exact (written_token [] T lex rest its blank_nil L Z E H). Qed.
Lemma w_blank : forall ws its rest, blank ws -> written its rest -> written its (ws ++ rest).
Proof.
  intros ws its rest B H. destruct H as [rest E|ws' T lex rest' items B' L Z E H].
  - apply written_end. now apply blank_app_end.
  - rewrite app_assoc. apply written_token; try assumption. now apply blank_app.
Qed.
Lemma w_space : forall its rest, written its rest -> written its (chars " " ++ rest).
Proof. intros its rest. apply w_blank. apply blank_space; [cbn; tauto|constructor]. Qed.
Lemma w_newline : forall its rest, written its rest -> written its ([10%N] ++ rest).
Proof. intros its rest. apply w_blank. apply blank_space; [cbn; tauto|constructor]. Qed.
Lemma w_indent : forall its rest, written its rest -> written its (chars "    " ++ rest).
Proof. intros its rest. apply w_blank. repeat (apply blank_space; [cbn; tauto|]). constructor. Qed.
Lemma good_type : forall t, good t -> fst t <> TK_INSTRUCTION \/ fst t = TK_INSTRUCTION. Proof. intros [T s] _. destruct T; try (left; discriminate). now right. Qed.
Lemma W_good : forall t, good t -> fst t <> TK_INSTRUCTION -> W [t] (snd t).
Proof. intros [T s] [L Z] N its rest S H. cbn [app snd]. apply w_tok; [exact L|exact Z|now apply safe_ends|exact H]. Qed.
Lemma W_ident : forall t, ident t -> W [t] (snd t).
Proof. intros t [E G]. apply W_good; [exact G|]. rewrite E. discriminate. Qed.
Lemma W_kw : forall s, existsb (fun k => if list_eq_dec N.eq_dec k (chars s) then true else false) keywords = true -> W [(kw s, chars s)] (chars s).
Proof.
  intros s H its rest S K. apply existsb_exists in H. destruct H as (k & I & E). destruct (list_eq_dec N.eq_dec k (chars s)) as [->|]; [|discriminate].
  apply w_tok; [now apply lex_keyword| |apply safe_ends; [discriminate|exact S]|exact K].
  apply word_no_nul. apply word_chars. now apply keywords_words.
Qed.
(** Parentheses, commas, semicolons: anything may follow. *)
Lemma w_open : forall its rest, written its rest -> written ((TK_LPAR, chars "(") :: its) (chars "(" ++ rest).
Proof. intros its rest H. apply w_tok; [apply lex_punctuator; cbn; tauto|cbn; intuition discriminate|exact I|exact H]. Qed.
Lemma w_close : forall its rest, written its rest -> written ((TK_RPAR, chars ")") :: its) (chars ")" ++ rest).
Proof. intros its rest H. apply w_tok; [apply lex_punctuator; cbn; tauto|cbn; intuition discriminate|exact I|exact H]. Qed.
Lemma w_comma : forall its rest, written its rest -> written ((TK_COMMA, chars ",") :: its) (chars "," ++ rest).
Proof. intros its rest H. apply w_tok; [apply lex_punctuator; cbn; tauto|cbn; intuition discriminate|exact I|exact H]. Qed.
Lemma w_semicolon : forall its rest, written its rest -> written ((TK_SEMICOL, chars ";") :: its) (chars ";" ++ rest).
Proof. intros its rest H. apply w_tok; [apply lex_punctuator; cbn; tauto|cbn; intuition discriminate|exact I|exact H]. Qed.
Lemma w_asterisk : forall its rest, written its rest -> written ((TK_ASTERISK, chars "*") :: its) (chars "*" ++ rest).
Proof. intros its rest H. apply w_tok; [apply lex_punctuator; cbn; tauto|cbn; intuition discriminate|exact I|exact H]. Qed.
Lemma w_equal : forall its rest, written its rest -> written ((TK_EQUAL, chars "=") :: its) (chars "=" ++ rest).
Proof. intros its rest H. apply w_tok; [apply lex_punctuator; cbn; tauto|cbn; intuition discriminate|exact I|exact H]. Qed.

Lemma word_start : forall s, word s -> exists c r, s = c :: r /\ (letter c \/ in_ "_" c). Proof. intros s (c & r & E & H & _). eauto. Qed.
Lemma ident_word : forall t, ident t -> word (snd t).
Proof.
  intros [T s] [E [L _]]. cbn in *. subst T. inversion L as [s' Wd N| |T s' Nu| | | | |s' T I]; subst; [exact Wd|inversion Nu|].
  unfold punctuators in I. cbn in I. intuition discriminate.
Qed.
Lemma W_qualified : forall t a, ident t -> ident a -> W [t; (TK_DOT, chars "."); a] (snd t ++ chars "." ++ snd a).
Proof.
  intros [T s] a It Ia its rest S H. pose proof (ident_word _ Ia) as Wa. destruct It as [E [L Z]]. cbn [fst snd] in *. subst T. cbn [app].
  rewrite <- !app_assoc. apply w_tok; [exact L|exact Z| |].
  - intros (c & r & E & Q). cbn in E. injection E as <- _. revert Q. unfold wordchar, decdigit, letter, in_. cbn. intuition discriminate.
  - apply w_tok; [apply lex_punctuator; cbn; tauto|cbn; intuition discriminate| |apply (W_ident a Ia its rest S H)].
    destruct (word_start _ Wa) as (c & r & E & Q). rewrite E. cbn [app]. intros (c' & r' & E' & Q'). injection E' as <- _.
    revert Q Q'. unfold decdigit, letter, in_. cbn. intros Q Q'. intuition (subst; discriminate).
Qed.
(** The first character of an expression. *)
Definition first_ok (s : list N) : Prop := ~ starts (eq (chr "-")) s.
Lemma w_op : forall op its rest, good op -> In (fst op) [TK_PLUS; TK_MINUS; TK_TILDE] -> first_ok rest -> written its rest -> written (op :: its) (snd op ++ rest).
Proof.
  intros [T s] its rest [L Z] I F H. cbn [fst snd] in *. apply w_tok; [exact L|exact Z| |exact H]. cbn in I. destruct I as [<-|[<-|[<-|[]]]]; [exact I|exact F|exact I].
Qed.
