(** * Properties of the parser and the printer (C56) *)
From Coq Require Import ZArith NArith String Ascii List Bool Lia.
From Verif Require Import Lexer LexerProps Parser ParserSpec ParserProofs ParserStmt ParserSound ParserStmtSound ParserTerm ParserPrint ParserPrint2 ParserPrint3.
Import ListNotations.
Local Open Scope Z_scope.

Lemma text_tokens : forall items text, written items text -> token_list text = Some items.
Proof. intros items text H. unfold token_list. destruct (C37_round_trip items text H) as (ts & -> & E). cbn [option_map]. now rewrite E. Qed.

(** C56: a command of the documented grammar is read as the syntax tree the grammar gives it, up to its semicolon, whatever follows. *)
Theorem C56_documented_grammar : forall ts st rest, command true ts st -> parse_Stmt (ts ++ rest) = Ok st rest.
Proof. exact command_complete. Qed.
(** ... and so is every text whose tokens these are. *)
Theorem C56_documented_text : forall ts st rest text, command true ts st -> written (ts ++ rest) text -> parse_text text = Some (st, rest).
Proof. intros ts st rest text C Wt. unfold parse_text. rewrite (text_tokens _ _ Wt), (command_complete ts st rest C). reflexivity. Qed.
(** The documented grammar is unambiguous, and where a command ends does not depend on what follows. *)
Theorem C56_unambiguous : forall ts st rest ts' st' rest', command true ts st -> command true ts' st' -> ts ++ rest = ts' ++ rest' -> ts = ts' /\ st = st' /\ rest = rest'.
Proof.
  intros ts st rest ts' st' rest' C C' E. pose proof (command_complete ts st rest C) as H. rewrite E, (command_complete ts' st' rest' C') in H. injection H as <- <-.
  apply app_inv_tail in E. auto.
Qed.
(** What is accepted is a command of the larger grammar, and the statement executed is the one this grammar gives it. *)
Theorem C56_accepted_grammar : forall ts st rest, clean ts -> parse_Stmt ts = Ok st rest -> exists pre, ts = pre ++ rest /\ command false pre st.
Proof. exact command_sound. Qed.

Lemma digits_numeral : forall s, Forall decdigit s -> exists n, numeral s n.
Proof.
  intros s. induction s as [|c s IH] using rev_ind; intros F; [exists 0%N; constructor|]. apply Forall_app in F. destruct F as [F D]. inversion D as [|? ? Dc _]; subst.
  destruct (IH F) as (n & Hn). apply is_dec_spec in Dc. unfold is_dec in Dc.
  assert (R : exists d, (d < 10)%N /\ c = (48 + d)%N).
  { exists (c - 48)%N. change (chr "0") with 48%N in Dc. change (chr "9") with 57%N in Dc. apply andb_prop in Dc. rewrite !N.leb_le in Dc. lia. }
  destruct R as (d & L & ->). exists (10 * n + d)%N. now constructor.
Qed.
Lemma digits_no_nul : forall s, Forall decdigit s -> ~ In 0%N s.
Proof. intros s F Z. rewrite Forall_forall in F. apply F in Z. revert Z. unfold decdigit, in_. cbn. intuition discriminate. Qed.
Lemma tokens_clean : forall text ts, token_list text = Some ts -> (forall t, In t ts -> fst t <> TK_ERROR) -> clean ts.
Proof.
  intros text ts H N. unfold token_list in H. destruct (C37_lossless text) as (l & E & L). rewrite E in H. injection H as <-.
  clear E. induction L as [pre rest B|pre ws lex rest t l B Ne A _ _ Tt L IH]; [constructor|]. cbn [map]. constructor; [|apply IH; intros t' I; apply N; now right].
  assert (Nt : ttype t <> TK_ERROR) by (apply (N (ttype t, ttext t)); now left). cbn [fst snd]. split; [exact Nt|]. intros E.
  destruct A as [A|A]; [contradiction|]. rewrite E in *. destruct Tt as [Tt|(K & _)]; [|discriminate].
  inversion A as [T s Lx| | |]; subst; [|match goal with D : digitless _ _ |- _ => inversion D end].
  inversion Lx as [| |T s Nu| | | | |s T Ip]; subst; [|unfold punctuators in Ip; cbn in Ip; intuition discriminate].
  inversion Nu as [|c s I F| | |]; subst.
  assert (F' : Forall decdigit (c :: s)).
  { constructor; [|exact F]. revert I. unfold decdigit, in_. cbn. intuition. }
  rewrite Tt, (cstr_no_nul _ (digits_no_nul _ F')). now apply digits_numeral.
Qed.
Theorem C56_accepted_text : forall text ts st rest, token_list text = Some ts -> (forall t, In t ts -> fst t <> TK_ERROR) -> parse_text text = Some (st, rest) ->
  exists pre, ts = pre ++ rest /\ command false pre st.
Proof.
  intros text ts st rest E N H. unfold parse_text in H. rewrite E in H. destruct (parse_Stmt ts) as [s r| |] eqn:P; try discriminate. injection H as <- <-.
  apply command_sound; [exact (tokens_clean _ _ E N)|exact P].
Qed.
(** Every token sequence is accepted or rejected, also with error tokens; each statement read uses up at least one token. *)
Theorem C56_terminates : forall ts, parse_Stmt ts = Bad \/ exists st rest, parse_Stmt ts = Ok st rest /\ (length rest < length ts)%nat.
Proof. intros ts. pose proof (command_terminates ts) as H. destruct (parse_Stmt ts) as [st rest| |]; [right; eauto|now left|destruct H]. Qed.
(** A printed statement is read back as itself; for any names [al] of nested queries. *)
Theorem C56_print_round_trip : forall al x s, p_stmt x s -> parse_text (print_stmt al x s) = Some (s, []).
Proof.
  intros al x s P. destruct (statement_printed al x s P) as (ts & C & Wt). rewrite <- (app_nil_r ts) in Wt. exact (C56_documented_text ts s [] _ C Wt).
Qed.
(** Two printable statements with the same text are the same. *)
Theorem C56_print_injective : forall al x x' s s', p_stmt x s -> p_stmt x' s' -> print_stmt al x s = print_stmt al x' s' -> s = s'.
Proof.
  intros al x x' s s' P P' E. pose proof (C56_print_round_trip al x s P) as H. rewrite E, (C56_print_round_trip al x' s' P') in H. now injection H as <-.
Qed.

(** ** Examples *)
Definition ex_id (s : string) : tok := (TK_IDENTIFIER, chars s).
Definition ex_num (s : string) : tok := (TK_DEC_INT, chars s).
Definition ex_attr (t a : string) : Expr := Designator (Some (ex_id t)) (ex_id a).
Definition ex_query : Select :=
  mkSelect None [(ex_attr "R" "a", None); (FnApplication (Designator None (ex_id "COUNT")) [], Some (ex_id "n"))]
    (Some [(Table (ex_id "R"), None); (Sub (mkSelect (Some (TK_ASTERISK, chars "*")) [] (Some [(Table (ex_id "T"), None)]) None None None None None), Some (ex_id "S"))])
    (Some (Binary (kw "AND", chars "AND")
             (Binary (TK_LESS, chars "<") (ex_attr "R" "a") (Binary (TK_PLUS, chars "+") (Constant (ex_num "1")) (Binary (TK_ASTERISK, chars "*") (Constant (ex_num "2")) (Designator None (ex_id "b")))))
             (Unary (kw "NOT", chars "NOT") (Binary (TK_EQUAL, chars "=") (Unary (TK_MINUS, chars "-") (Designator None (ex_id "c"))) (Constant (TK_STRING_LITERAL, chars """x""")))))) 
    (Some [(ex_attr "R" "a", None)]) None (Some [(Designator None (ex_id "n"), false)]) (Some (ex_num "10", None)).
Lemma C56_example :
  parse_text (chars "SELECT R.a, COUNT(*) n FROM R, (SELECT * FROM T) AS S WHERE R.a < 1 + 2 * b AND NOT -c = ""x"" GROUP BY R.a ORDER BY n DESC LIMIT 10; SELECT")
  = Some (SelectS ex_query, [(kw "SELECT", chars "SELECT")]).
Proof. vm_compute. reflexivity. Qed.
Lemma C56_example_print : print_stmt (fun _ => []) true (SelectS ex_query) =
  chars "SELECT R.a, COUNT() AS n" ++ [10%N] ++ chars "FROM R, (SELECT *" ++ [10%N] ++ chars "FROM T) AS S" ++ [10%N]
  ++ chars "WHERE ((R.a < (1 + (2 * b))) AND (NOT ((-c) = ""x"")))" ++ [10%N] ++ chars "GROUP BY R.a" ++ [10%N] ++ chars "ORDER BY n DESC" ++ [10%N] ++ chars "LIMIT 10;".
Proof. vm_compute. reflexivity. Qed.

Lemma C56_good_id : forall s, In s ["R"; "a"; "COUNT"; "n"; "S"; "T"; "b"; "c"; "x"; "p"]%string -> ident (ex_id s).
Proof.
  intros s I. split; [reflexivity|].
  assert (G : forallb (fun s => match s with c :: r => is_alpha c && forallb is_ident (c :: r) | [] => false end && if in_dec (list_eq_dec N.eq_dec) s keywords then false else true)
    (map chars ["R"; "a"; "COUNT"; "n"; "S"; "T"; "b"; "c"; "x"; "p"]%string) = true) by (vm_compute; reflexivity).
  rewrite forallb_forall in G. specialize (G (chars s) (in_map chars _ _ I)). apply andb_prop in G. destruct G as [G1 G2].
  destruct (chars s) as [|c r] eqn:E; [discriminate|]. apply andb_prop in G1. destruct G1 as [Ga Gw]. unfold ex_id. rewrite E.
  assert (F : Forall wordchar (c :: r)) by (rewrite forallb_forall in Gw; apply Forall_forall; intros d Id; apply is_ident_spec; auto).
  split; cbn [fst snd]; [|now apply word_no_nul].
  apply lex_word; [exists c, r; split; [reflexivity|]; split; [left; now apply is_alpha_spec|now inversion F]|].
  destruct (in_dec _ _ keywords); [discriminate|assumption].
Qed.
Lemma C56_good_num : forall s, In s ["1"; "2"; "10"]%string -> good (ex_num s).
Proof.
  intros s I. assert (G : forallb (fun s => match s with c :: r => existsb (N.eqb c) (chars "123456789") && forallb is_dec (c :: r) | [] => false end) (map chars ["1"; "2"; "10"]%string) = true) by (vm_compute; reflexivity).
  rewrite forallb_forall in G. specialize (G (chars s) (in_map chars _ _ I)). destruct (chars s) as [|c r] eqn:E; [discriminate|]. apply andb_prop in G. destruct G as [Ga Gw]. unfold ex_num. rewrite E.
  assert (F : Forall decdigit (c :: r)) by (rewrite forallb_forall in Gw; apply Forall_forall; intros d Id; apply is_dec_spec; auto).
  split; cbn [fst snd]; [|now apply digits_no_nul]. apply lex_number. apply number_dec; [|now inversion F].
  apply existsb_exists in Ga. destruct Ga as (d & Id & Ed). apply N.eqb_eq in Ed. now subst.
Qed.
Lemma C56_good_sym : forall s T, In (s, T) punctuators -> good (T, s).
Proof. intros s T I. split; cbn [fst snd]; [now apply lex_punctuator|]. unfold punctuators in I. cbn in I. intuition (match goal with H : (_, _) = (_, _) |- _ => injection H as <- <- end; cbn in *; intuition discriminate). Qed.
Lemma C56_good_kw : forall k, In (chars k) keywords -> good (kw k, chars k).
Proof. intros k I. split; cbn [fst snd]; [now apply lex_keyword|]. apply word_no_nul, word_chars. now apply keywords_words. Qed.
Ltac ids := apply C56_good_id; cbn; tauto.
Ltac nums := apply C56_good_num; cbn; tauto.
Ltac syms := apply C56_good_sym; cbn; tauto.
Ltac kws := apply C56_good_kw; unfold keywords; cbn; tauto.
Lemma C56_example_printable : p_stmt true (SelectS ex_query).
Proof.
  assert (At : forall x a, In a ["R"; "a"; "COUNT"; "n"; "S"; "T"; "b"; "c"; "x"; "p"]%string -> p_expr x (Designator None (ex_id a))) by (intros x a I; apply p_attr; now apply C56_good_id).
  assert (Ra : forall x, p_expr x (ex_attr "R" "a")) by (intros x; apply p_table_attr; ids).
  assert (Nm : forall x s, In s ["1"; "2"; "10"]%string -> p_expr x (Constant (ex_num s))) by (intros x s I; apply p_constant; [now apply C56_good_num|cbn; tauto]).
  assert (Cs : forall x, p_expr x (Constant (TK_STRING_LITERAL, chars """x"""))).
  { intros x. apply p_constant; [|cbn; tauto]. split; cbn [fst snd]; [|cbn; intuition discriminate]. apply (lex_string (chars "x")). apply body_char; [discriminate|discriminate|constructor]. }
  apply pr_select. apply p_mkselect.
  - left. split; [reflexivity|discriminate].
  - apply pi_cons; [apply Ra|exact I|]. apply pi_cons; [apply p_call; [apply At; cbn; tauto|constructor]|ids|constructor].
  - apply pf_some; [discriminate|]. apply ps_cons; [apply ps_table; [ids|exact I]|]. apply ps_cons; [|constructor]. apply ps_sub; [|ids]. apply p_mkselect; try (now constructor).
    + right. eexists. split; reflexivity.
    + apply pf_some; [discriminate|]. apply ps_cons; [apply ps_table; [ids|exact I]|constructor].
  - apply pw_some. apply p_binary; [kws|cbn; tauto| |].
    + apply p_binary; [syms|cbn; tauto|apply Ra|]. apply p_binary; [syms|cbn; tauto|apply Nm; cbn; tauto|]. apply p_binary; [syms|cbn; tauto|apply Nm; cbn; tauto|apply At; cbn; tauto].
    + apply p_unary; [kws|cbn; tauto|]. apply p_binary; [syms|cbn; tauto| |apply Cs]. apply p_unary; [syms|cbn; tauto|apply At; cbn; tauto].
  - apply pg_some; [discriminate|]. apply pi_cons; [apply Ra|exact I|constructor].
  - constructor.
  - apply po_some; [discriminate|]. apply pos_cons; [apply At; cbn; tauto|constructor].
  - intros n o E. injection E as <- <-. split; [nums|]. split; [cbn; tauto|]. intros m E. discriminate E.
Qed.
(** The documented grammar at work: NOT binds weaker than a comparison, and the grouping is to the left. *)
Lemma C56_example_grammar : command true
  [(kw "SELECT", []); (kw "NOT", []); ex_id "a"; (TK_EQUAL, []); ex_id "b"; (TK_MINUS, []); ex_id "c"; (TK_MINUS, []); ex_id "x"; (TK_SEMICOL, [])]
  (SelectS (mkSelect None [(Unary (kw "NOT", []) (Binary (TK_EQUAL, []) (Designator None (ex_id "a"))
     (Binary (TK_MINUS, []) (Binary (TK_MINUS, []) (Designator None (ex_id "b")) (Designator None (ex_id "c"))) (Designator None (ex_id "x")))), None)] None None None None None None)).
Proof.
  apply (cmd_statement true [_; _; _; _; _; _; _; _; _]). apply s_select.
  refine (g_select true _ [_; _; _; _; _; _; _; _] None _ [] None [] None [] None [] None [] None [] None _ _ _ _ _ _ _); try constructor.
  refine (g_item1 true [_; _; _; _; _; _; _; _] _ [] None _ _); [|constructor].
  do 2 (apply g_higher; [lia|]). apply g_not. apply g_higher; [lia|].
  assert (A : forall l s, 1 <= l <= 8 -> expression true l [ex_id s] (Designator None (ex_id s))) by (intros l s L; apply any_level; [exact L|constructor]).
  apply (g_binary true 4 (TK_EQUAL, []) [_] _ [_; _; _; _; _]); [cbn; tauto|apply A; lia|]. do 1 (apply g_higher; [lia|]).
  apply (g_binary true 6 (TK_MINUS, []) [_; _; _] _ [_]); [cbn; tauto| |apply A; lia]. apply (g_binary true 6 (TK_MINUS, []) [_] _ [_]); [cbn; tauto|apply A; lia|apply A; lia].
Qed.

(** ** What does not hold *)
(** Operators of documented expressions. *)
Definition op_ok (e : Expr) : Prop := match e with Binary op _ _ => In (fst op) (map snd binary_operators) | _ => True end.
Definition items_ok (l : list (Expr * option tok)) : Prop := Forall (fun i => op_ok (fst i)) l.
Definition select_ok (q : Select) : Prop := match q with mkSelect _ items _ _ _ _ _ _ => items_ok items end.
Lemma documented_operators : forall ts st, command true ts st -> match st with SelectS q => select_ok q | _ => True end.
Proof.
  assert (G : (forall ts e, primary_expression true ts e -> op_ok e) /\ (forall ts a, arguments true ts a -> True) /\ (forall ts a, expressions true ts a -> True) /\
    (forall l ts e, expression true l ts e -> op_ok e) /\ (forall ts q, select_statement true ts q -> select_ok q) /\ (forall ts q l, select_list true ts q l -> items_ok l) /\
    (forall ts l, items true ts l -> items_ok l) /\
    (forall ts l, from_clause true ts l -> True) /\ (forall ts l, sources true ts l -> True) /\ (forall ts l a, source_ true ts l a -> True) /\ (forall K ts l, condition true K ts l -> True) /\
    (forall ts l, group_by_clause true ts l -> True) /\ (forall ts l, order_by_clause true ts l -> True) /\ (forall ts l, orders true ts l -> True)).
  { apply (grammar_ind true (fun _ e => op_ok e) (fun _ _ => True) (fun _ _ => True) (fun _ _ e => op_ok e) (fun _ q => select_ok q) (fun _ _ l => items_ok l) (fun _ l => items_ok l)
      (fun _ _ => True) (fun _ _ => True) (fun _ _ _ => True) (fun _ _ _ => True) (fun _ _ => True) (fun _ _ => True) (fun _ _ => True)); intros; try exact I; try discriminate; try assumption;
      try (now constructor).
    cbn [op_ok]. apply in_map_iff. eexists. split; [|eassumption]. reflexivity. }
  intros ts st C. destruct C as [s|ts st s S]; [exact I|]. destruct S as [| | | | | | |ts q H| | | |]; try exact I. exact (proj1 (proj2 (proj2 (proj2 (proj2 G)))) _ _ H).
Qed.
(** NOT and ~ are accepted between two operands; such a text is not in the documented grammar; the semantic analysis does not expect it. *)
Theorem C56_refuted_binary_not : forall op, In op ["NOT"; "~"]%string -> exists st,
  parse_text (chars "SELECT a " ++ chars op ++ chars " b;") = Some (st, []) /\
  forall ts st', token_list (chars "SELECT a " ++ chars op ++ chars " b;") = Some ts -> ~ command true ts st'.
Proof.
  assert (N : forall text st ts0, parse_text text = Some (st, []) -> token_list text = Some ts0 -> match st with SelectS q => ~ select_ok q | _ => False end ->
    forall ts st', token_list text = Some ts -> ~ command true ts st').
  { intros text st ts0 P T B ts st' T' C. rewrite T in T'. injection T' as <-. unfold parse_text in P. rewrite T in P. rewrite <- (app_nil_r ts0) in P.
    rewrite (command_complete ts0 st' [] C) in P. injection P as <-. pose proof (documented_operators _ _ C) as D. destruct st'; try contradiction. }
  intros op [<-|[<-|[]]]; eexists; (split; [vm_compute; reflexivity|]);
    (eapply N; [vm_compute; reflexivity|vm_compute; reflexivity|]; cbn; intros F; inversion F as [|i l X _]; cbn in X; intuition discriminate).
Qed.
(** The operand of NOT extends as far as possible, also after an operator that binds tighter. *)
Theorem C56_refuted_not_operand :
  parse_text (chars "SELECT a + NOT b = c;") <> None /\ parse_text (chars "SELECT a + NOT b = c;") = parse_text (chars "SELECT a + (NOT (b = c));").
Proof. split; vm_compute; [discriminate|reflexivity]. Qed.
(** A VALUES list may contain any expression, but not one that begins with NULL. *)
Theorem C56_refuted_insert_null :
  expression true 1 [(kw "NULL", chars "NULL"); (TK_EQUAL, chars "="); ex_num "1"] (Binary (TK_EQUAL, chars "=") (Constant (kw "NULL", chars "NULL")) (Constant (ex_num "1"))) /\
  token_list (chars "INSERT INTO R VALUES (NULL = 1);") = Some ([(kw "INSERT", chars "INSERT"); (kw "INTO", chars "INTO"); ex_id "R"; (kw "VALUES", chars "VALUES"); (TK_LPAR, chars "(")]
    ++ [(kw "NULL", chars "NULL"); (TK_EQUAL, chars "="); ex_num "1"] ++ [(TK_RPAR, chars ")"); (TK_SEMICOL, chars ";")]) /\
  parse_text (chars "INSERT INTO R VALUES (NULL = 1);") = None /\ parse_text (chars "INSERT INTO R VALUES ((NULL = 1));") <> None.
Proof.
  split; [|split; [vm_compute; reflexivity|split; [vm_compute; reflexivity|vm_compute; discriminate]]].
  do 3 (apply g_higher; [lia|]). apply (g_binary true 4 (TK_EQUAL, chars "=") [_] _ [_]); [cbn; tauto| |]; (apply any_level; [lia|]; constructor; cbn; tauto).
Qed.
(** Printing does not keep the statement: ESCAPE and QUOTE of an IMPORT, the scale of a DECIMAL without one, the parentheses of
    an index key, nested queries in WHERE and HAVING. *)
Definition loses (text : string) : Prop :=
  exists s, parse_text (chars text) = Some (s, []) /\ forall al, parse_text (print_stmt al true s) <> Some (s, []).
Theorem C56_refuted_print_import : loses "IMPORT INTO R DSV ""f"" DELIMITER "","" ESCAPE ""/"";" /\ loses "IMPORT INTO R DSV ""f"" QUOTE ""'"";".
Proof. split; (eexists; split; [vm_compute; reflexivity|]; intros al; vm_compute; discriminate). Qed.
Theorem C56_refuted_print_decimal : loses "CREATE TABLE R ( a DECIMAL(10) );" /\ parse_text (chars "CREATE TABLE R ( a DECIMAL(10, 0) );") = None.
Proof. split; [eexists; split; [vm_compute; reflexivity|]; intros al; vm_compute; discriminate|vm_compute; reflexivity]. Qed.
Theorem C56_refuted_print_index : loses "CREATE INDEX i ON R ((f(a)));".
Proof. eexists; split; [vm_compute; reflexivity|]; intros al; vm_compute; discriminate. Qed.
Theorem C56_refuted_print_nested : exists s, parse_text (chars "SELECT a FROM R WHERE b = (SELECT MAX(c) FROM S);") = Some (s, []) /\
  print_stmt (fun _ => chars "$q_0") true s = chars "SELECT a" ++ [10%N] ++ chars "FROM R" ++ [10%N] ++ chars "WHERE (b = $q_0.$q_0);" /\
  parse_text (print_stmt (fun _ => chars "$q_0") true s) <> Some (s, []).
Proof. eexists. split; [vm_compute; reflexivity|]. split; [vm_compute; reflexivity|vm_compute; discriminate]. Qed.
