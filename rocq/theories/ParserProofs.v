(** * The parser reads every sentence of the grammar, and terminates *)
From Coq Require Import ZArith NArith String Ascii List Bool Lia.
From Verif Require Import Lexer Parser ParserSpec.
Import ListNotations.
Local Open Scope Z_scope.

Lemma tk_eqb_refl : forall T, tk_eqb T T = true.
Proof. intros T. unfold tk_eqb. destruct (tk_eq_dec T T); congruence. Qed.
Lemma tk_eqb_eq : forall a b, tk_eqb a b = true <-> a = b.
Proof. intros a b. unfold tk_eqb. destruct (tk_eq_dec a b); split; congruence. Qed.
Lemma tk_eqb_neq : forall a b, tk_eqb a b = false <-> a <> b.
Proof. intros a b. unfold tk_eqb. destruct (tk_eq_dec a b); split; congruence. Qed.

Lemma type_cons : forall t ts, type_ (t :: ts) = fst t. Proof. reflexivity. Qed.
Lemma bind_bind : forall A B C (r : res A) (f : A -> list tok -> res B) (g : B -> list tok -> res C),
  bind (bind r f) g = bind r (fun a ts => bind (f a ts) g).
Proof. intros A B C [a ts| |] f g; reflexivity. Qed.

(** One step of each function. *)
Lemma parse_Expr_S : forall f p ts, parse_Expr (S f) p ts = let* lhs, ts := primary f ts in let* lhs, ts := postfix f lhs ts in binary f p lhs ts.
Proof. reflexivity. Qed.
Lemma primary_S : forall f ts, primary (S f) ts =
  match type_ ts with
  | TK_IDENTIFIER => parse_designator ts
  | TK_STRING_LITERAL | TK_DATE | TK_DATE_TIME | TK_OCT_INT | TK_DEC_INT | TK_HEX_INT | TK_DEC_FLOAT | TK_HEX_FLOAT =>
      Ok (Constant (token_ ts)) (consume ts)
  | TK_LPAR =>
      let ts := consume ts in
      let* e, ts := if is_ (kw "SELECT") ts then let* q, ts := parse_SelectStmt f ts in Ok (Query q) ts else parse_Expr f 0 ts in
      let* r, ts := expect TK_RPAR ts in Ok e ts
  | TK_PLUS | TK_MINUS | TK_TILDE => let* e, ts' := parse_Expr f 8 (consume ts) in Ok (Unary (token_ ts) e) ts'
  | TK_KEYWORD _ =>
      if is_ (kw "NULL") ts || is_ (kw "TRUE") ts || is_ (kw "FALSE") ts then Ok (Constant (token_ ts)) (consume ts)
      else if is_ (kw "NOT") ts then let* e, ts' := parse_Expr f 3 (consume ts) in Ok (Unary (token_ ts) e) ts'
      else Bad
  | _ => Bad
  end.
Proof. reflexivity. Qed.
Definition call_args (f : nat) (ts : list tok) : res (list Expr) :=
  if is_ TK_ASTERISK ts then Ok [] (consume ts) else if negb (is_ TK_RPAR ts) then sep_list (parse_Expr f 0) f ts else Ok [] ts.
Lemma postfix_S : forall f lhs ts, postfix (S f) lhs ts =
  if is_ TK_LPAR ts then
    let* args, ts := call_args f (consume ts) in let* r, ts := expect TK_RPAR ts in postfix f (FnApplication lhs args) ts
  else Ok lhs ts.
Proof. reflexivity. Qed.
Lemma binary_S : forall f p lhs ts, binary (S f) p lhs ts =
  if p >? get_precedence (type_ ts) then Ok lhs ts
  else let* rhs, ts' := parse_Expr f (get_precedence (type_ ts) + 1) (consume ts) in binary f p (Binary (token_ ts) lhs rhs) ts'.
Proof. reflexivity. Qed.
Definition sel_list (f : nat) (ts : list tok) : res (option tok * list (Expr * option tok)) :=
  if is_ TK_ASTERISK ts then
    match accept TK_COMMA (consume ts) with
    | Some ts' => let* l, ts := sep_list (alias_item (parse_Expr f 0)) f ts' in Ok (Some (token_ ts), l) ts
    | None => Ok (Some (token_ ts), []) (consume ts)
    end
  else let* l, ts := sep_list (alias_item (parse_Expr f 0)) f ts in Ok (None, l) ts.
Definition sel_list' (f : nat) (ts : list tok) : res (option tok * list (Expr * option tok)) :=
  if is_ TK_ASTERISK ts then
    let all := token_ ts in
    match accept TK_COMMA (consume ts) with
    | Some ts => let* l, ts := sep_list (alias_item (parse_Expr f 0)) f ts in Ok (Some all, l) ts
    | None => Ok (Some all, []) (consume ts)
    end
  else let* l, ts := sep_list (alias_item (parse_Expr f 0)) f ts in Ok (None, l) ts.
Definition p_from f := clause (kw "FROM") (fun ts => sep_list (source (parse_SelectStmt f)) f (consume ts)).
Definition p_cond K f := clause K (fun ts => parse_Expr f 0 (consume ts)).
Definition p_group f := clause (kw "GROUP") (fun ts => let* k, ts := expect (kw "BY") (consume ts) in sep_list (alias_item (parse_Expr f 0)) f ts).
Definition p_order f := clause (kw "ORDER") (fun ts => let* k, ts := expect (kw "BY") (consume ts) in sep_list (order_item (parse_Expr f 0)) f ts).
Definition p_limit := clause (kw "LIMIT") parse_LimitClause.
Lemma select_S : forall f ts, parse_SelectStmt (S f) ts =
  let* k, ts := expect (kw "SELECT") ts in
  let* sel, ts := sel_list' f ts in
  let* from, ts := p_from f ts in
  let* where_, ts := p_cond (kw "WHERE") f ts in
  let* group_by, ts := p_group f ts in
  let* having, ts := p_cond (kw "HAVING") f ts in
  let* order_by, ts := p_order f ts in
  let* limit, ts := p_limit ts in
  Ok (mkSelect (fst sel) (snd sel) from where_ group_by having order_by limit) ts.
Proof. reflexivity. Qed.

(** ** Tests on the next token *)
Definition noneof (L : list tk) (T : tk) : bool := negb (existsb (tk_eqb T) L).
Lemma noneof_neq : forall L T K, noneof L T = true -> In K L -> tk_eqb T K = false.
Proof.
  intros L T K H I. destruct (tk_eqb T K) eqn:E; [|reflexivity]. unfold noneof in H. apply negb_true_iff in H.
  assert (X : existsb (tk_eqb T) L = true) by (apply existsb_exists; exists K; auto). congruence.
Qed.
Ltac nn H := refine (noneof_neq _ _ _ H _); cbn; tauto.
Definition okb (l : Z) (T : tk) : bool := noneof [TK_LPAR; TK_DOT; kw "NOT"; TK_TILDE; TK_ERROR] T && (get_precedence T <=? l).
Definition ok (l : Z) (ts : list tok) : Prop := okb l (type_ ts) = true.
Lemma ok_neq : forall l ts K, ok l ts -> In K [TK_LPAR; TK_DOT; kw "NOT"; TK_TILDE; TK_ERROR] -> is_ K ts = false.
Proof. intros l ts K H I. unfold ok, okb in H. apply andb_prop in H as [H _]. exact (noneof_neq _ _ _ H I). Qed.
Lemma ok_prec : forall l ts, ok l ts -> get_precedence (type_ ts) <= l.
Proof. intros l ts H. unfold ok, okb in H. apply andb_prop in H as [_ H]. now apply Z.leb_le. Qed.
Lemma ok_le : forall l l' ts, ok l ts -> l <= l' -> ok l' ts.
Proof. intros l l' ts H L. unfold ok, okb in *. apply andb_prop in H as [H K]. rewrite H. apply Z.leb_le in K. apply Z.leb_le. lia. Qed.
Lemma kw_inj : forall a b, TK_KEYWORD a = TK_KEYWORD b -> a = b. Proof. intros a b H. congruence. Qed.
Lemma prec_3 : forall T, get_precedence T = 3 -> T = kw "NOT".
Proof.
  intros T. unfold get_precedence. destruct T; try discriminate.
  destruct (tk_eqb _ (kw "LIKE")); [discriminate|]. destruct (tk_eqb _ (kw "NOT")) eqn:E; [intros _; now apply tk_eqb_eq|].
  destruct (tk_eqb _ (kw "AND")); [discriminate|]. destruct (tk_eqb _ (kw "OR")); discriminate.
Qed.
Lemma prec_8 : forall T, get_precedence T = 8 -> T = TK_TILDE.
Proof.
  intros T. unfold get_precedence. destruct T; try discriminate; [|reflexivity].
  destruct (tk_eqb _ (kw "LIKE")); [discriminate|]. destruct (tk_eqb _ (kw "NOT")); [discriminate|].
  destruct (tk_eqb _ (kw "AND")); [discriminate|]. destruct (tk_eqb _ (kw "OR")); discriminate.
Qed.
Lemma ok_prec_ne : forall l ts, ok l ts -> get_precedence (type_ ts) <> 3 /\ get_precedence (type_ ts) <> 8.
Proof.
  intros l ts H. split; intros E.
  - apply prec_3 in E. pose proof (ok_neq _ _ (kw "NOT") H ltac:(cbn; tauto)) as X. unfold is_ in X. rewrite E, tk_eqb_refl in X. discriminate.
  - apply prec_8 in E. pose proof (ok_neq _ _ TK_TILDE H ltac:(cbn; tauto)) as X. unfold is_ in X. rewrite E, tk_eqb_refl in X. discriminate.
Qed.

Definition starters : list tk := [TK_IDENTIFIER; TK_LPAR; TK_PLUS; TK_MINUS; TK_TILDE; kw "NOT"] ++ constants.
Definition start (ts : list tok) : Prop := exists t ts', ts = t :: ts' /\ In (fst t) starters.
Lemma start_app : forall ts ts', start ts -> start (ts ++ ts').
Proof. intros ts ts' (t & r & -> & I). exists t, (r ++ ts'). auto. Qed.
Lemma start_test : forall (test : tk -> bool) ts rest, start ts -> forallb test starters = true -> test (type_ (ts ++ rest)) = true.
Proof. intros test ts rest (t & r & -> & I) F. cbn [app]. rewrite type_cons. exact (proj1 (forallb_forall test starters) F _ I). Qed.
Lemma start_neq : forall K ts rest, start ts -> noneof starters K = true -> is_ K (ts ++ rest) = false.
Proof.
  intros K ts rest (t & r & -> & I) F. unfold is_. cbn [app]. rewrite type_cons. destruct (tk_eqb (fst t) K) eqn:E; [|reflexivity].
  apply tk_eqb_eq in E. subst. pose proof (noneof_neq _ _ _ F I) as X. rewrite tk_eqb_refl in X. discriminate.
Qed.
Lemma start_length : forall ts, start ts -> (1 <= length ts)%nat.
Proof. intros ts (t & r & -> & _). cbn. lia. Qed.

Lemma op_facts : forall l T, In (l, T) binary_operators -> get_precedence T = l /\ 1 <= l <= 7 /\ okb l T = true.
Proof.
  intros l T I. unfold binary_operators in I. cbn [In] in I.
  repeat (destruct I as [E|I]; [injection E as <- <-; split; [reflexivity|split; [lia|reflexivity]]|]). destruct I.
Qed.

Lemma expect_hd : forall T s ts, expect T ((T, s) :: ts) = Ok (T, s) ts.
Proof. intros T s ts. unfold expect, accept, is_. rewrite type_cons. cbn [fst]. now rewrite tk_eqb_refl. Qed.
Lemma accept_hd : forall T s ts, accept T ((T, s) :: ts) = Some ts.
Proof. intros T s ts. unfold accept, is_. rewrite type_cons. cbn [fst]. now rewrite tk_eqb_refl. Qed.
Lemma accept_no : forall T ts, is_ T ts = false -> is_ TK_ERROR ts = false -> accept T ts = None.
Proof. intros T ts A B. unfold accept. now rewrite A, B. Qed.
Lemma is_hd : forall T s ts, is_ T ((T, s) :: ts) = true.
Proof. intros T s ts. unfold is_. rewrite type_cons. apply tk_eqb_refl. Qed.
Lemma clause_no : forall A K (p : list tok -> res A) ts, is_ K ts = false -> clause K p ts = Ok None ts.
Proof. intros A K p ts H. unfold clause. now rewrite H. Qed.
Lemma clause_yes : forall A K (p : list tok -> res A) s ts a rest, p ((K, s) :: ts) = Ok a rest -> clause K p ((K, s) :: ts) = Ok (Some a) rest.
Proof. intros A K p s ts a rest H. unfold clause. rewrite is_hd, H. reflexivity. Qed.

(** The end of the binary and the postfix loop. *)
Lemma binary_end : forall f p e rest, (1 <= f)%nat -> get_precedence (type_ rest) < p -> binary f p e rest = Ok e rest.
Proof. intros [|f] p e rest F H; [lia|]. rewrite binary_S. destruct (p >? get_precedence (type_ rest)) eqn:E; [reflexivity|]. rewrite Z.gtb_ltb in E. apply Z.ltb_ge in E. lia. Qed.
Lemma postfix_end : forall f e rest, (1 <= f)%nat -> is_ TK_LPAR rest = false -> postfix f e rest = Ok e rest.
Proof. intros [|f] e rest F H; [lia|]. now rewrite postfix_S, H. Qed.

(** What may follow the clauses of a SELECT statement. *)
Definition after (n : nat) : list tk := skipn n [kw "FROM"; kw "WHERE"; kw "GROUP"; kw "HAVING"; kw "ORDER"; kw "LIMIT"] ++ [TK_RPAR; TK_SEMICOL; TK_EOF].
Lemma after_test : forall n (test : tk -> bool) ts, In (type_ ts) (after n) -> forallb test (after n) = true -> test (type_ ts) = true.
Proof. intros n test ts I F. exact (proj1 (forallb_forall test (after n)) F _ I). Qed.
Lemma after_neq : forall n K ts, In (type_ ts) (after n) -> noneof (after n) K = true -> is_ K ts = false.
Proof.
  intros n K ts I F. unfold is_. destruct (tk_eqb (type_ ts) K) eqn:E; [|reflexivity].
  apply tk_eqb_eq in E. rewrite E in I. pose proof (noneof_neq _ _ _ F I) as X. rewrite tk_eqb_refl in X. discriminate.
Qed.
Lemma after_ok : forall n ts, In (type_ ts) (after n) -> (n <= 6)%nat -> ok 0 ts.
Proof. intros n ts I L. apply (after_test n (okb 0) ts I). do 7 (destruct n as [|n]; [reflexivity|]). lia. Qed.
Lemma after_step : forall n K ts rest, nth_error [kw "FROM"; kw "WHERE"; kw "GROUP"; kw "HAVING"; kw "ORDER"; kw "LIMIT"] n = Some K ->
  (ts = [] \/ exists s ts', ts = (K, s) :: ts') -> In (type_ rest) (after (S n)) -> In (type_ (ts ++ rest)) (after n).
Proof.
  intros n K ts rest E [->|(s & ts' & ->)] I.
  - cbn [app]. do 6 (destruct n as [|n]; [unfold after in *; cbn [skipn app In] in *; tauto|]). destruct n; discriminate.
  - cbn [app]. rewrite type_cons. cbn [fst]. do 6 (destruct n as [|n]; [injection E as <-; left; reflexivity|]). destruct n; discriminate.
Qed.

Definition okIb (T : tk) : bool := okb 0 T && noneof [TK_COMMA; kw "AS"; TK_IDENTIFIER] T.
Definition okOb (T : tk) : bool := okb 0 T && noneof [TK_COMMA; kw "ASC"; kw "DESC"] T.
Definition okI (ts : list tok) : Prop := okb 0 (type_ ts) && noneof [TK_COMMA; kw "AS"; TK_IDENTIFIER] (type_ ts) = true.
Definition okO (ts : list tok) : Prop := okb 0 (type_ ts) && noneof [TK_COMMA; kw "ASC"; kw "DESC"] (type_ ts) = true.

Lemma alias_parse : forall ta a rest, alias ta a -> noneof [kw "AS"; TK_IDENTIFIER; TK_ERROR] (type_ rest) = true -> opt_alias (ta ++ rest) = Ok a rest.
Proof.
  intros ta a rest A N. unfold opt_alias. destruct A as [|k s|s]; cbn [app].
  - rewrite accept_no; [|nn N|nn N].
    unfold is_. rewrite (noneof_neq _ _ TK_IDENTIFIER N ltac:(cbn; tauto)). reflexivity.
  - rewrite accept_hd. now rewrite expect_hd.
  - reflexivity.
Qed.
Lemma alias_start : forall ta a rest, alias ta a -> okb 0 (type_ rest) = true -> okb 0 (type_ (ta ++ rest)) = true.
Proof. intros ta a rest A N. destruct A; [exact N|reflexivity|reflexivity]. Qed.
Lemma direction_start : forall ta a rest, direction ta a -> okb 0 (type_ rest) = true -> okb 0 (type_ (ta ++ rest)) = true.
Proof. intros ta a rest A N. destruct A; [exact N|reflexivity|reflexivity]. Qed.
Lemma limit_parse : forall tl l rest, limit_clause tl l -> In (type_ rest) (after 6) -> p_limit (tl ++ rest) = Ok l rest.
Proof.
  intros tl l rest L I. unfold p_limit. destruct L as [|k n In1|k n k' o In1 In2]; cbn [app].
  - apply clause_no. now apply (after_neq 6).
  - apply clause_yes. unfold parse_LimitClause. rewrite expect_hd. cbn [bind]. unfold integer, type_. cbn [token_].
    assert (E : is_integer (fst n) = true) by (cbn in In1; destruct In1 as [<-|[<-|[<-|[]]]]; reflexivity). rewrite E. cbn [bind consume List.tl].
    rewrite accept_no; [reflexivity|now apply (after_neq 6)|now apply (after_neq 6)].
  - apply clause_yes. unfold parse_LimitClause. rewrite expect_hd. cbn [bind]. unfold integer, type_. cbn [token_].
    assert (E : is_integer (fst n) = true) by (cbn in In1; destruct In1 as [<-|[<-|[<-|[]]]]; reflexivity). rewrite E. cbn [bind consume List.tl].
    rewrite accept_hd. cbn [token_]. assert (E' : is_integer (fst o) = true) by (cbn in In2; destruct In2 as [<-|[<-|[<-|[]]]]; reflexivity). rewrite E'. reflexivity.
Qed.
Lemma limit_head : forall tl l, limit_clause tl l -> tl = [] \/ exists s ts', tl = (kw "LIMIT", s) :: ts'.
Proof. intros tl l [|k n I|k n k' o I J]; eauto. Qed.

Lemma sep_one : forall A (item : list tok -> res A) f ts a rest, (1 <= f)%nat -> item ts = Ok a rest -> is_ TK_COMMA rest = false -> is_ TK_ERROR rest = false ->
  sep_list item f ts = Ok [a] rest.
Proof. intros A item [|f] ts a rest F H C E; [lia|]. cbn [sep_list]. rewrite H. cbn [bind]. now rewrite accept_no. Qed.
Lemma sep_more : forall A (item : list tok -> res A) f ts a c rest l rest', (1 <= f)%nat -> item ts = Ok a ((TK_COMMA, c) :: rest) ->
  sep_list item (f - 1) rest = Ok l rest' -> sep_list item f ts = Ok (a :: l) rest'.
Proof. intros A item [|f] ts a c rest l rest' F H K; [lia|]. cbn [sep_list]. rewrite H. cbn [bind]. rewrite accept_hd. replace (S f - 1)%nat with f in K by lia. now rewrite K. Qed.

Local Ltac len := rewrite ?app_length in *; cbn [length] in *; rewrite ?app_length in *; cbn [length] in *; try lia.

Definition reads_expr (l : Z) (ts : list tok) (e : Expr) : Prop :=
  start ts /\ 1 <= l <= 8 /\ forall p rest, p <= l -> ok l rest ->
    exists k, (1 <= k <= 8 * length ts)%nat /\ forall f, (8 * length ts + 4 <= f)%nat -> parse_Expr f p (ts ++ rest) = binary (f - k) p e rest.
Lemma reads_done : forall l ts e p rest f, reads_expr l ts e -> p <= l -> ok l rest -> get_precedence (type_ rest) < p -> (8 * length ts + 4 <= f)%nat ->
  parse_Expr f p (ts ++ rest) = Ok e rest.
Proof.
  intros l ts e p rest f (_ & _ & R) P O D F. destruct (R p rest P O) as (k & K & Hk). rewrite Hk by exact F. apply binary_end; [lia|exact D].
Qed.
Lemma prec_low : forall T, okb 0 T = true -> get_precedence T < 0.
Proof.
  intros T H. unfold okb in H. apply andb_prop in H as [_ H]. apply Z.leb_le in H. unfold get_precedence in *. destruct T; try lia.
  destruct (tk_eqb _ (kw "LIKE")); [lia|]. destruct (tk_eqb _ (kw "NOT")); [lia|]. destruct (tk_eqb _ (kw "AND")); [lia|]. destruct (tk_eqb _ (kw "OR")); lia.
Qed.
Lemma reads_whole : forall ts e rest f, reads_expr 1 ts e -> ok 0 rest -> (8 * length ts + 4 <= f)%nat -> parse_Expr f 0 (ts ++ rest) = Ok e rest.
Proof. intros ts e rest f R O F. apply (reads_done 1); [exact R|lia|apply (ok_le 0); [exact O|lia]|apply prec_low, O|exact F]. Qed.

Lemma ok_hd : forall l T s ts, okb l T = true -> ok l ((T, s) :: ts).
Proof. intros l T s ts H. exact H. Qed.
Lemma app_cons : forall (a : list tok) t b c, (a ++ t :: b) ++ c = a ++ t :: b ++ c.
Proof. intros. now rewrite <- app_assoc. Qed.

Definition P_primary (ts : list tok) (e : Expr) : Prop :=
  start ts /\ forall rest, is_ TK_DOT rest = false -> exists k, (k <= 8 * length ts)%nat /\ forall f, (8 * length ts + 2 <= f)%nat ->
    bind (primary f (ts ++ rest)) (postfix f) = postfix (f - k) e rest.
Definition P_arguments (ta : list tok) (args : list Expr) : Prop :=
  forall r rest f, (8 * length ta + 8 <= f)%nat -> call_args f (ta ++ (TK_RPAR, r) :: rest) = Ok args ((TK_RPAR, r) :: rest).
Definition P_expressions (ts : list tok) (l : list Expr) : Prop :=
  start ts /\ forall rest F f, ok 0 rest -> is_ TK_COMMA rest = false -> (8 * length ts + 8 <= F)%nat -> (length ts <= f)%nat ->
    sep_list (parse_Expr F 0) f (ts ++ rest) = Ok l rest.
Definition P_select (ts : list tok) (q : Select) : Prop :=
  (exists s ts', ts = (kw "SELECT", s) :: ts') /\ forall rest f, In (type_ rest) (after 6) -> (8 * length ts + 4 <= f)%nat ->
    parse_SelectStmt f (ts ++ rest) = Ok q rest.
Definition P_select_list (ts : list tok) (all : option tok) (l : list (Expr * option tok)) : Prop :=
  forall rest f, In (type_ rest) (after 0) -> (8 * length ts + 8 <= f)%nat -> sel_list' f (ts ++ rest) = Ok (all, l) rest.
Definition P_items (ts : list tok) (l : list (Expr * option tok)) : Prop :=
  start ts /\ forall rest F f, okI rest -> (8 * length ts + 8 <= F)%nat -> (length ts <= f)%nat -> sep_list (alias_item (parse_Expr F 0)) f (ts ++ rest) = Ok l rest.
Definition clause_head (K : tk) (ts : list tok) : Prop := ts = [] \/ exists s ts', ts = (K, s) :: ts'.
Definition P_from (ts : list tok) (o : option (list (Source * option tok))) : Prop :=
  clause_head (kw "FROM") ts /\ forall rest f, In (type_ rest) (after 1) -> (8 * length ts + 8 <= f)%nat -> p_from f (ts ++ rest) = Ok o rest.
Definition P_sources (ts : list tok) (l : list (Source * option tok)) : Prop :=
  forall rest F f, noneof [TK_COMMA; kw "AS"; TK_IDENTIFIER; TK_ERROR] (type_ rest) = true -> (8 * length ts + 8 <= F)%nat -> (length ts <= f)%nat ->
    sep_list (source (parse_SelectStmt F)) f (ts ++ rest) = Ok l rest.
Definition P_source (ts : list tok) (s : Source) (a : option tok) : Prop :=
  (1 <= length ts)%nat /\ forall rest F, noneof [kw "AS"; TK_IDENTIFIER; TK_ERROR] (type_ rest) = true -> (8 * length ts + 8 <= F)%nat ->
    source (parse_SelectStmt F) (ts ++ rest) = Ok (s, a) rest.
Definition P_condition (K : tk) (ts : list tok) (o : option Expr) : Prop :=
  clause_head K ts /\ forall rest f, ok 0 rest -> is_ K rest = false -> (8 * length ts + 8 <= f)%nat -> p_cond K f (ts ++ rest) = Ok o rest.
Definition P_group (ts : list tok) (o : option (list (Expr * option tok))) : Prop :=
  clause_head (kw "GROUP") ts /\ forall rest f, In (type_ rest) (after 3) -> (8 * length ts + 8 <= f)%nat -> p_group f (ts ++ rest) = Ok o rest.
Definition P_order (ts : list tok) (o : option (list (Expr * bool))) : Prop :=
  clause_head (kw "ORDER") ts /\ forall rest f, In (type_ rest) (after 5) -> (8 * length ts + 8 <= f)%nat -> p_order f (ts ++ rest) = Ok o rest.
Definition P_orders (ts : list tok) (l : list (Expr * bool)) : Prop :=
  start ts /\ forall rest F f, okO rest -> (8 * length ts + 8 <= F)%nat -> (length ts <= f)%nat -> sep_list (order_item (parse_Expr F 0)) f (ts ++ rest) = Ok l rest.

Lemma okI_parts : forall rest, okI rest -> ok 0 rest /\ noneof [kw "AS"; TK_IDENTIFIER; TK_ERROR] (type_ rest) = true /\ is_ TK_COMMA rest = false /\ is_ TK_ERROR rest = false.
Proof.
  intros rest H. unfold okI in H. apply andb_prop in H as [H1 H2]. split; [exact H1|].
  assert (E : is_ TK_ERROR rest = false) by (apply (ok_neq 0); [exact H1|cbn; tauto]).
  split; [|split; [nn H2|exact E]].
  unfold noneof. cbn [existsb]. rewrite (noneof_neq _ _ (kw "AS") H2 ltac:(cbn; tauto)), (noneof_neq _ _ TK_IDENTIFIER H2 ltac:(cbn; tauto)).
  unfold is_ in E. rewrite E. reflexivity.
Qed.

Lemma order_item_parse : forall ts e td d rest F, reads_expr 1 ts e -> direction td d -> okb 0 (type_ rest) = true ->
  noneof [kw "ASC"; kw "DESC"] (type_ rest) = true -> (8 * length ts + 4 <= F)%nat -> order_item (parse_Expr F 0) (ts ++ td ++ rest) = Ok (e, d) rest.
Proof.
  intros ts e td d rest F R D O N L. unfold order_item.
  rewrite (reads_whole ts e (td ++ rest) F R); [|exact (direction_start td d rest D O)|exact L]. cbn [bind].
  assert (E : is_ TK_ERROR rest = false) by (apply (ok_neq 0); [exact O|cbn; tauto]).
  destruct D as [|k|k]; cbn [app].
  - rewrite accept_no; [|nn N|exact E]. rewrite accept_no; [reflexivity|nn N|exact E].
  - rewrite accept_no by reflexivity. now rewrite accept_hd.
  - now rewrite accept_hd.
Qed.
Lemma alias_item_parse : forall ts e ta a rest F, reads_expr 1 ts e -> alias ta a -> okb 0 (type_ rest) = true ->
  noneof [kw "AS"; TK_IDENTIFIER; TK_ERROR] (type_ rest) = true -> (8 * length ts + 4 <= F)%nat -> alias_item (parse_Expr F 0) (ts ++ ta ++ rest) = Ok (e, a) rest.
Proof.
  intros ts e td d rest F R D O N L. unfold alias_item.
  rewrite (reads_whole ts e (td ++ rest) F R); [|exact (alias_start td d rest D O)|exact L]. cbn [bind].
  rewrite (alias_parse td d rest D N). reflexivity.
Qed.

Lemma primary_keyword : forall f k s ts, In k [kw "NULL"; kw "TRUE"; kw "FALSE"] -> primary (S f) ((k, s) :: ts) = Ok (Constant (k, s)) ts.
Proof. intros f k s ts I. cbn [In] in I. destruct I as [<-|[<-|[<-|[]]]]; reflexivity. Qed.

Theorem parser_complete :
  (forall ts e, primary_expression true ts e -> P_primary ts e) /\
  (forall ts l, arguments true ts l -> P_arguments ts l) /\
  (forall ts l, expressions true ts l -> P_expressions ts l) /\
  (forall l ts e, expression true l ts e -> reads_expr l ts e) /\
  (forall ts q, select_statement true ts q -> P_select ts q) /\
  (forall ts all l, select_list true ts all l -> P_select_list ts all l) /\
  (forall ts l, items true ts l -> P_items ts l) /\
  (forall ts o, from_clause true ts o -> P_from ts o) /\
  (forall ts l, sources true ts l -> P_sources ts l) /\
  (forall ts s a, source_ true ts s a -> P_source ts s a) /\
  (forall K ts o, condition true K ts o -> P_condition K ts o) /\
  (forall ts o, group_by_clause true ts o -> P_group ts o) /\
  (forall ts o, order_by_clause true ts o -> P_order ts o) /\
  (forall ts l, orders true ts l -> P_orders ts l).
Proof.
  apply grammar_ind; try discriminate.
  - (* attribute *)
    intros s. split; [eexists; eexists; split; [reflexivity|cbn; tauto]|]. intros rest D. exists 0%nat. split; [lia|]. intros [|f] F; [cbn in F; lia|].
    rewrite primary_S. cbn [app type_ token_ fst]. unfold parse_designator. rewrite expect_hd. cbn [bind]. rewrite D. cbn [bind]. now rewrite Nat.sub_0_r.
  - (* table.attribute *)
    intros t d a. split; [eexists; eexists; split; [reflexivity|cbn; tauto]|]. intros rest D. exists 0%nat. split; [lia|]. intros [|f] F; [cbn in F; lia|].
    rewrite Nat.sub_0_r. reflexivity.
  - (* constant *)
    intros [T s] I. cbn [fst] in I. split; [exists (T, s), []; split; [reflexivity|apply in_or_app; right; exact I]|].
    intros rest D. exists 0%nat. split; [lia|]. intros [|f] F; [cbn in F; lia|]. rewrite Nat.sub_0_r.
    unfold constants in I. cbn [In] in I. cbn [app].
    destruct I as [<-|[<-|[<-|I]]]; [rewrite primary_keyword by (cbn; tauto); reflexivity..|].
    repeat (destruct I as [<-|I]; [reflexivity|]). destruct I.
  - (* parentheses *)
    intros l ts e r _ R. split; [eexists; eexists; split; [reflexivity|cbn; tauto]|]. intros rest D. exists 0%nat. split; [lia|].
    intros [|f] F; [cbn in F; lia|]. rewrite Nat.sub_0_r. rewrite primary_S. cbn [app type_ token_ fst consume List.tl].
    rewrite app_cons. cbn [app]. rewrite (start_neq (kw "SELECT") ts _ (proj1 R)) by reflexivity.
    rewrite (reads_whole ts e _ f R); [|reflexivity|len]. cbn [bind]. rewrite expect_hd. reflexivity.
  - (* query *)
    intros l ts q r _ [H R]. split; [eexists; eexists; split; [reflexivity|cbn; tauto]|]. intros rest D. exists 0%nat. split; [lia|].
    intros [|f] F; [cbn in F; lia|]. rewrite Nat.sub_0_r. rewrite primary_S. cbn [app type_ token_ fst consume List.tl].
    rewrite app_cons. cbn [app]. replace (is_ (kw "SELECT") (ts ++ (TK_RPAR, r) :: rest)) with true by (destruct H as (s & ts' & ->); cbn [app]; now rewrite is_hd).
    rewrite (R _ f); [|cbn; tauto|len]. cbn [bind]. rewrite expect_hd. reflexivity.
  - (* call *)
    intros ts e l ta args r _ [St R] _ A. split; [now apply start_app|]. intros rest D.
    destruct (R ((TK_LPAR, l) :: ta ++ (TK_RPAR, r) :: rest) eq_refl) as (k & K & Hk). exists (S k). split; [len|]. intros f F.
    replace ((ts ++ (TK_LPAR, l) :: ta ++ [(TK_RPAR, r)]) ++ rest) with (ts ++ (TK_LPAR, l) :: ta ++ (TK_RPAR, r) :: rest) by (rewrite <- app_assoc; cbn [app]; now rewrite app_cons).
    rewrite Hk by len. destruct (f - k)%nat as [|f'] eqn:E; [len|]. rewrite postfix_S, is_hd. cbn [consume List.tl]. rewrite A by len. cbn [bind]. rewrite expect_hd. cbn [bind].
    replace (f - S k)%nat with f' by lia. reflexivity.
  - (* no arguments *) intros r rest f F. unfold call_args. cbn [app]. rewrite is_hd. reflexivity.
  - (* asterisk *) intros s r rest f F. unfold call_args. cbn [app]. rewrite is_hd. reflexivity.
  - (* arguments *)
    intros ts l _ [St R] r rest f F. unfold call_args. rewrite (start_neq TK_ASTERISK ts _ St) by reflexivity. rewrite (start_neq TK_RPAR ts _ St) by reflexivity. cbn [negb].
    apply R; [reflexivity|reflexivity|exact F|lia].
  - (* one expression *)
    intros ts e _ R. split; [apply R|]. intros rest F f O C L1 L2. pose proof (start_length _ (proj1 R)).
    apply sep_one; [lia|apply reads_whole; [exact R|exact O|lia]|exact C|apply (ok_neq 0); [exact O|cbn; tauto]].
  - (* more *)
    intros ts e c ts' l _ R _ [St' R']. split; [apply start_app, R|]. intros rest F f O C L1 L2. rewrite app_cons.
    eapply sep_more; [len|apply reads_whole; [exact R|reflexivity|len]|]. apply R'; [exact O|exact C|len|len].
  - (* level 8: primary *)
    intros ts e _ [St R]. split; [exact St|]. split; [lia|]. intros p rest P O. exists 1%nat. pose proof (start_length _ St). split; [lia|]. intros [|f] F; [lia|].
    destruct (R rest (ok_neq _ _ TK_DOT O ltac:(cbn; tauto))) as (k & K & Hk). rewrite parse_Expr_S, <- bind_bind.
    change (fun (lhs : Expr) (ts0 : list tok) => postfix f lhs ts0) with (postfix f). rewrite Hk by lia.
    rewrite postfix_end; [|lia|apply (ok_neq 8); [exact O|cbn; tauto]]. cbn [bind]. now replace (S f - 1)%nat with f by lia.
  - (* sign *)
    intros op ts e I _ R. split; [exists op, ts; split; [reflexivity|cbn in *; tauto]|]. split; [lia|]. intros p rest P O. exists 1%nat. split; [cbn; lia|].
    intros [|[|f]] F; [cbn in F; lia|cbn in F; lia|]. rewrite parse_Expr_S. cbn [app].
    assert (E : primary (S f) (op :: ts ++ rest) = Ok (Unary op e) rest).
    { rewrite primary_S. unfold type_. cbn [token_ consume List.tl]. pose proof (ok_prec _ _ O). pose proof (ok_prec_ne _ _ O).
      rewrite (reads_done 8 ts e 8 rest f R); [|lia|exact O|lia|len]. cbn [bind]. cbn [In] in I. destruct I as [<-|[<-|[<-|[]]]]; reflexivity. }
    rewrite E. cbn [bind]. rewrite postfix_end; [|lia|apply (ok_neq 8); [exact O|cbn; tauto]]. cbn [bind]. now replace (S (S f) - 1)%nat with (S f) by lia.
  - (* binary *)
    intros l op ts1 e1 ts2 e2 I _ R1 _ R2. destruct (op_facts _ _ I) as (Pr & Lv & Ok_). destruct op as [T s]. cbn [fst] in *.
    split; [apply start_app, R1|]. split; [lia|]. intros p rest P O.
    destruct R1 as (St1 & _ & R1). destruct (R1 p ((T, s) :: ts2 ++ rest) P (ok_hd _ _ _ _ Ok_)) as (k & K & Hk). exists (S k). split; [len|]. intros f F.
    rewrite app_cons. rewrite Hk by len. destruct (f - k)%nat as [|f'] eqn:E; [len|]. rewrite binary_S. unfold type_ at 1 2. cbn [token_ fst consume List.tl]. rewrite Pr.
    destruct (p >? l) eqn:G; [rewrite Z.gtb_ltb in G; apply Z.ltb_lt in G; lia|].
    rewrite (reads_done (l + 1) ts2 e2 (l + 1) rest f' R2); [|lia|apply (ok_le l); [exact O|lia]|pose proof (ok_prec _ _ O); lia|len]. cbn [bind]. now replace (f - S k)%nat with f' by lia.
  - (* NOT *)
    intros k ts e _ R. split; [eexists; eexists; split; [reflexivity|cbn; tauto]|]. split; [lia|]. intros p rest P O. exists 1%nat. split; [cbn; lia|].
    intros [|[|f]] F; [cbn in F; lia|cbn in F; lia|]. rewrite parse_Expr_S. cbn [app].
    assert (E : primary (S f) ((kw "NOT", k) :: ts ++ rest) = Ok (Unary (kw "NOT", k) e) rest).
    { rewrite primary_S. unfold type_. cbn [token_ consume List.tl fst]. pose proof (ok_prec _ _ O). pose proof (ok_prec_ne _ _ O).
      rewrite (reads_done 3 ts e 3 rest f R); [|lia|exact O|lia|len]. reflexivity. }
    rewrite E. cbn [bind]. rewrite postfix_end; [|lia|apply (ok_neq 3); [exact O|cbn; tauto]]. cbn [bind]. now replace (S (S f) - 1)%nat with (S f) by lia.
  - (* higher level *)
    intros l ts e L _ (St & Lv & R). split; [exact St|]. split; [lia|]. intros p rest P O. apply R; [lia|apply (ok_le l); [exact O|lia]].
  - (* SELECT *)
    intros k ts0 all its tf from tw where_ tg group_by th having to order_by tl limit _ R0 _ [Hf Rf] _ [Hw Rw] _ [Hg Rg] _ [Hh Rh] _ [Ho Ro] L.
    split; [eauto|]. intros rest [|f] I F; [cbn in F; lia|]. rewrite select_S. cbn [app]. rewrite expect_hd. cbn [bind].
    pose proof (limit_head _ _ L) as Hl.
    pose proof (after_step 5 _ tl rest eq_refl Hl I) as I5.
    pose proof (after_step 4 _ to _ eq_refl Ho I5) as I4.
    pose proof (after_step 3 _ th _ eq_refl Hh I4) as I3.
    pose proof (after_step 2 _ tg _ eq_refl Hg I3) as I2.
    pose proof (after_step 1 _ tw _ eq_refl Hw I2) as I1.
    pose proof (after_step 0 _ tf _ eq_refl Hf I1) as I0.
    rewrite <- !app_assoc. rewrite R0 by (first [exact I0|len]). cbn [bind fst snd].
    rewrite Rf by (first [exact I1|len]). cbn [bind].
    rewrite Rw; [|exact (after_ok 2 _ I2 ltac:(lia))|now apply (after_neq 2)|len]. cbn [bind].
    rewrite Rg by (first [exact I3|len]). cbn [bind].
    rewrite Rh; [|exact (after_ok 4 _ I4 ltac:(lia))|now apply (after_neq 4)|len]. cbn [bind].
    rewrite Ro by (first [exact I5|len]). cbn [bind].
    rewrite (limit_parse tl limit rest L I). reflexivity.
  - (* SELECT * *)
    intros s rest f I F. unfold sel_list'. cbn [app]. rewrite is_hd. cbn [consume List.tl].
    rewrite accept_no; [reflexivity|now apply (after_neq 0)|now apply (after_neq 0)].
  - intros s c ts l _ [St R] rest f I F. unfold sel_list'. cbn [app]. rewrite is_hd. cbn [consume List.tl]. rewrite accept_hd.
    rewrite R; [reflexivity|exact (after_test 0 okIb rest I eq_refl)|len|len].
  - intros ts l _ [St R] rest f I F. unfold sel_list'. rewrite (start_neq TK_ASTERISK ts _ St) by reflexivity.
    rewrite R; [reflexivity|exact (after_test 0 okIb rest I eq_refl)|len|len].
  - (* items *)
    intros ts e ta a _ R A. split; [apply start_app, R|]. intros rest F f O L1 L2. destruct (okI_parts _ O) as (O1 & O2 & O3 & O4). rewrite <- app_assoc.
    pose proof (start_length _ (proj1 R)).
    apply sep_one; [len|apply alias_item_parse; [exact R|exact A|exact O1|exact O2|len]|exact O3|exact O4].
  - intros ts e ta a c ts' l _ R A _ [St' R']. split; [apply start_app, R|]. intros rest F f O L1 L2.
    rewrite <- app_assoc. rewrite app_cons. pose proof (start_length _ (proj1 R)).
    eapply sep_more; [len|apply alias_item_parse; [exact R|exact A|reflexivity|reflexivity|len]|]. apply R'; [exact O|len|len].
  - (* FROM *)
    split; [left; reflexivity|]. intros rest f I F. apply clause_no. now apply (after_neq 1).
  - intros k ts l _ R. split; [right; eauto|]. intros rest f I F. cbn [app]. apply clause_yes. cbn [consume List.tl].
    apply R; [exact (after_test 1 (noneof [TK_COMMA; kw "AS"; TK_IDENTIFIER; TK_ERROR]) rest I eq_refl)|len|len].
  - (* sources *)
    intros ts s a _ [N R] rest F f O L1 L2.
    apply sep_one; [lia|apply R; [|exact L1]|nn O|nn O].
    unfold noneof. cbn [existsb]. rewrite !(noneof_neq _ _ _ O) by (cbn; tauto). reflexivity.
  - intros ts s a c ts' l _ [N R] _ R' rest F f O L1 L2. rewrite app_cons.
    eapply sep_more; [len|apply R; [reflexivity|len]|]. apply R'; [exact O|len|len].
  - (* table *)
    intros s ta a A. split; [cbn; lia|]. intros rest F O L. unfold source. cbn [app]. rewrite accept_no by reflexivity. rewrite expect_hd. cbn [bind].
    rewrite (alias_parse ta a rest A); [reflexivity|exact O].
  - (* subquery *)
    intros l ts q r ta a _ [H R] A. split; [cbn; lia|]. intros rest F O L. unfold source. cbn [app]. rewrite accept_hd. rewrite app_cons.
    rewrite R; [|cbn; tauto|len]. cbn [bind]. rewrite expect_hd. cbn [bind]. inversion A; subst; cbn [app].
    + rewrite accept_hd. now rewrite expect_hd.
    + rewrite accept_no by reflexivity. now rewrite expect_hd.
  - (* WHERE, HAVING *)
    intros K. split; [left; reflexivity|]. intros rest f O N F. now apply clause_no.
  - intros K k ts e _ R. split; [right; eauto|]. intros rest f O N F. cbn [app]. apply clause_yes. cbn [consume List.tl].
    apply reads_whole; [exact R|exact O|len].
  - (* GROUP BY *)
    split; [left; reflexivity|]. intros rest f I F. apply clause_no. now apply (after_neq 3).
  - intros k k' ts l _ [St R]. split; [right; eauto|]. intros rest f I F. cbn [app]. apply clause_yes. cbn [consume List.tl]. rewrite expect_hd. cbn [bind].
    apply R; [exact (after_test 3 okIb rest I eq_refl)|len|len].
  - (* ORDER BY *)
    split; [left; reflexivity|]. intros rest f I F. apply clause_no. now apply (after_neq 5).
  - intros k k' ts l _ [St R]. split; [right; eauto|]. intros rest f I F. cbn [app]. apply clause_yes. cbn [consume List.tl]. rewrite expect_hd. cbn [bind].
    apply R; [exact (after_test 5 okOb rest I eq_refl)|len|len].
  - intros ts e td d _ R D. split; [apply start_app, R|]. intros rest F f O L1 L2. unfold okO in O. apply andb_prop in O as [O1 O2]. rewrite <- app_assoc.
    pose proof (start_length _ (proj1 R)).
    apply sep_one; [len|apply order_item_parse; [exact R|exact D|exact O1| |len]|nn O2|apply (ok_neq 0); [exact O1|cbn; tauto]].
    unfold noneof. cbn [existsb]. rewrite !(noneof_neq _ _ _ O2) by (cbn; tauto). reflexivity.
  - intros ts e td d c ts' l _ R D _ [St' R']. split; [apply start_app, R|]. intros rest F f O L1 L2.
    rewrite <- app_assoc. rewrite app_cons. pose proof (start_length _ (proj1 R)).
    eapply sep_more; [len|apply order_item_parse; [exact R|exact D|reflexivity|reflexivity|len]|]. apply R'; [exact O|len|len].
Qed.
