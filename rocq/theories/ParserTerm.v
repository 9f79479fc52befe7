(** * The parser terminates: the fuel of [parse_Stmt] is never used up *)
From Coq Require Import ZArith NArith String Ascii List Bool Lia.
From Verif Require Import Lexer Parser ParserSpec ParserProofs.
Import ListNotations.
Local Open Scope Z_scope.

(** Not out of fuel, and at least [d] of [n] tokens are read. *)
Definition fits {A} (d n : nat) (r : res A) : Prop := match r with Ok _ rest => (d + length rest <= n)%nat | Bad => True | Fuel => False end.
Lemma fits_bind : forall A B (r : res A) (k : A -> list tok -> res B) d n d' n', fits d n r ->
  (forall a ts, (d + length ts <= n)%nat -> fits d' n' (k a ts)) -> fits d' n' (bind r k).
Proof. intros A B [a ts| |] k d n d' n' F H; cbn in *; auto. Qed.
Lemma fits_le : forall A (r : res A) d n d' n', fits d n r -> (d' + n <= d + n')%nat -> fits d' n' r.
Proof. intros A [a ts| |] d n d' n' F H; cbn in *; auto. lia. Qed.
Lemma consume_length : forall ts, length (consume ts) = (length ts - 1)%nat.
Proof. intros [|t ts]; cbn; lia. Qed.
Lemma is_length : forall T ts, is_ T ts = true -> T <> TK_EOF -> (1 <= length ts)%nat.
Proof. intros T [|t ts] H N; [|cbn; lia]. unfold is_ in H. apply tk_eqb_eq in H. now destruct N. Qed.
Lemma accept_length : forall T ts r, T <> TK_EOF -> accept T ts = Some r -> (1 + length r <= length ts)%nat.
Proof.
  intros T ts r N H. unfold accept in H. destruct (is_ T ts || is_ TK_ERROR ts) eqn:E; [|discriminate]. injection H as <-. rewrite consume_length.
  apply orb_prop in E. destruct E as [E|E]; apply is_length in E; try discriminate; try assumption; lia.
Qed.
Lemma fits_expect : forall T ts, T <> TK_EOF -> fits 1 (length ts) (expect T ts).
Proof. intros T ts N. unfold expect. destruct (accept T ts) as [r|] eqn:E; [|exact I]. apply accept_length in E; [cbn; lia|exact N]. Qed.
Lemma fits_sep : forall A (item : list tok -> res A) f ts, (length ts < f)%nat ->
  (forall ts', (length ts' <= length ts)%nat -> fits 1 (length ts') (item ts')) -> fits 1 (length ts) (sep_list item f ts).
Proof.
  induction f as [|f IH]; intros ts L It; [lia|]. cbn [sep_list]. apply (fits_bind _ _ _ _ 1 (length ts)); [now apply It|]. intros a ts1 L1.
  destruct (accept TK_COMMA ts1) as [ts2|] eqn:E; [|cbn; lia]. apply accept_length in E; [|discriminate].
  apply (fits_bind _ _ _ _ 1 (length ts2)); [apply IH; [lia|intros ts' L'; apply It; lia]|]. intros l ts3 L3. cbn. lia.
Qed.
Lemma fits_clause : forall A T (p : list tok -> res A) ts, fits 0 (length ts) (p ts) -> fits 0 (length ts) (clause T p ts).
Proof. intros A T p ts H. unfold clause. destruct (is_ T ts); [|cbn; lia]. eapply fits_bind; [exact H|]. intros a t L. cbn in *. lia. Qed.
Lemma fits_designator : forall ts, fits 1 (length ts) (parse_designator ts).
Proof.
  intros ts. unfold parse_designator. eapply fits_bind; [apply fits_expect; discriminate|]. intros a t L. destruct (is_ TK_DOT t); [|cbn; lia].
  eapply fits_bind; [apply fits_expect; discriminate|]. intros b t' L'. rewrite consume_length in L'. cbn. lia.
Qed.
Lemma fits_alias : forall ts, fits 0 (length ts) (opt_alias ts).
Proof.
  intros ts. unfold opt_alias. destruct (accept (kw "AS") ts) as [t|] eqn:E.
  - apply accept_length in E; [|discriminate]. eapply fits_bind; [apply fits_expect; discriminate|]. intros a t' L. cbn. lia.
  - destruct (is_ TK_IDENTIFIER ts); cbn [fits]; rewrite ?consume_length; lia.
Qed.
Lemma fits_alias_item : forall E ts, fits 1 (length ts) (E ts) -> fits 1 (length ts) (alias_item E ts).
Proof. intros E ts H. unfold alias_item. eapply fits_bind; [exact H|]. intros e t L. eapply fits_bind; [apply fits_alias|]. intros a t' L'. cbn. lia. Qed.
Lemma fits_order_item : forall E ts, fits 1 (length ts) (E ts) -> fits 1 (length ts) (order_item E ts).
Proof.
  intros E ts H. unfold order_item. eapply fits_bind; [exact H|]. intros e t L. destruct (accept (kw "DESC") t) as [t1|] eqn:A.
  - apply accept_length in A; [cbn; lia|discriminate].
  - destruct (accept (kw "ASC") t) as [t1|] eqn:A'; [apply accept_length in A'; [cbn; lia|discriminate]|cbn; lia].
Qed.
Lemma fits_source : forall S ts, (forall t, (length t < length ts)%nat -> fits 1 (length t) (S t)) -> fits 1 (length ts) (source S ts).
Proof.
  intros S ts H. unfold source. destruct (accept TK_LPAR ts) as [t|] eqn:E.
  - apply accept_length in E; [|discriminate]. eapply fits_bind; [apply H; lia|]. intros q t1 L1. eapply fits_bind; [apply fits_expect; discriminate|]. intros r t2 L2. cbn zeta.
    eapply fits_bind; [apply fits_expect; discriminate|]. intros a t3 L3. destruct (accept (kw "AS") t2) as [t4|] eqn:A; [apply accept_length in A; [|discriminate]|]; cbn [fits]; lia.
  - eapply fits_bind; [apply fits_expect; discriminate|]. intros q t1 L1. eapply fits_bind; [apply fits_alias|]. intros a t2 L2. cbn [fits]. lia.
Qed.
Lemma fits_integer : forall ts, fits 0 (length ts) (integer ts).
Proof. intros ts. unfold integer. destruct (is_integer _); [|exact I]. cbn [fits]. rewrite consume_length. lia. Qed.
Lemma fits_limit : forall ts, fits 0 (length ts) (parse_LimitClause ts).
Proof.
  intros ts. unfold parse_LimitClause. eapply fits_bind; [apply fits_expect; discriminate|]. intros k t L. eapply fits_bind; [apply fits_integer|]. intros n t1 L1.
  destruct (accept (kw "OFFSET") t1) as [t2|] eqn:E; [|cbn; lia]. apply accept_length in E; [|discriminate]. eapply fits_bind; [apply fits_integer|]. intros o t3 L3. cbn [fits]. lia.
Qed.

Definition T_expr f := forall p ts, 0 <= p -> (8 * length ts + 6 <= f)%nat -> fits 1 (length ts) (parse_Expr f p ts).
Definition T_primary f := forall ts, (8 * length ts + 5 <= f)%nat -> fits 1 (length ts) (primary f ts).
Definition T_postfix f := forall lhs ts, (8 * length ts + 5 <= f)%nat -> fits 0 (length ts) (postfix f lhs ts).
Definition T_binary f := forall p lhs ts, 0 <= p -> (8 * length ts + 5 <= f)%nat -> fits 0 (length ts) (binary f p lhs ts).
Definition T_select f := forall ts, (8 * length ts + 6 <= f)%nat -> fits 1 (length ts) (parse_SelectStmt f ts).

Lemma fits_items : forall A (item : list tok -> res A) f ts, (length ts < f)%nat -> (forall ts', (length ts' <= length ts)%nat -> fits 1 (length ts') (item ts')) ->
  forall n, (length ts <= n)%nat -> fits 1 n (sep_list item f ts).
Proof. intros A item f ts L It n Ln. eapply fits_le; [apply fits_sep; assumption|lia]. Qed.

Theorem parser_terminates : forall f, T_expr f /\ T_primary f /\ T_postfix f /\ T_binary f /\ T_select f.
Proof.
  induction f as [|f (IE & IP & IF & IB & IS)]; [repeat split; red; intros; lia|].
  split; [|split; [|split; [|split]]].
  - intros p ts P F. rewrite parse_Expr_S. eapply fits_bind; [apply IP; lia|]. intros a t L. eapply fits_bind; [apply IF; lia|]. intros a' t' L'.
    eapply fits_le; [apply IB; [exact P|lia]|lia].
  - intros [|[T s] r] F; rewrite primary_S; [exact I|]. rewrite type_cons. cbn [fst token_ consume List.tl length] in *.
    assert (G : forall p, 0 <= p -> forall k, (forall e r', (1 + length r' <= length r)%nat -> @fits Expr 1 (S (length r)) (k e r')) -> fits 1 (S (length r)) (bind (parse_Expr f p r) k)).
    { intros p P k K. eapply fits_bind; [apply IE; [exact P|lia]|exact K]. }
    destruct T; try exact I; try (cbn [fits]; lia).
    + eapply fits_le; [apply fits_designator|cbn [length]; lia].
    + destruct (is_ _ _ || _ || _); [cbn [fits]; lia|]. destruct (is_ _ _); [|exact I]. apply G; [discriminate|]. intros e r' L. cbn [fits]. lia.
    + cbn zeta. destruct (is_ (kw "SELECT") r).
      * apply (fits_bind _ _ _ _ 1 (length r)); [eapply fits_bind; [apply IS; lia|]; intros q t L; cbn [fits]; lia|]. intros e t L.
        eapply fits_bind; [apply fits_expect; discriminate|]. intros b t' L'. cbn [fits]. lia.
      * apply G; [discriminate|]. intros e t L. eapply fits_bind; [apply fits_expect; discriminate|]. intros b t' L'. cbn [fits]. lia.
    + apply G; [discriminate|]. intros e r' L. cbn [fits]. lia.
    + apply G; [discriminate|]. intros e r' L. cbn [fits]. lia.
    + apply G; [discriminate|]. intros e r' L. cbn [fits]. lia.
  - intros lhs ts F. rewrite postfix_S. destruct (is_ TK_LPAR ts) eqn:K; [|cbn [fits]; lia]. apply is_length in K; [|discriminate]. cbn zeta. pose proof (consume_length ts) as Lc.
    apply (fits_bind _ _ _ _ 0 (length (consume ts))).
    { unfold call_args. destruct (is_ TK_ASTERISK _); [cbn [fits]; rewrite (consume_length (consume ts)); lia|]. destruct (negb _); [|cbn [fits]; lia].
      eapply fits_le; [apply fits_sep; [lia|]; intros t L; apply IE; lia|lia]. }
    intros a t L. eapply fits_bind; [apply fits_expect; discriminate|]. intros b t' L'. eapply fits_le; [apply IF; lia|lia].
  - intros p lhs ts P F. rewrite binary_S. destruct (p >? get_precedence (type_ ts)) eqn:G; [cbn [fits]; lia|]. rewrite Z.gtb_ltb in G. apply Z.ltb_ge in G.
    destruct ts as [|t r]; [exfalso; cbn in G; lia|]. cbn [consume List.tl length] in *. eapply fits_bind; [apply IE; [lia|lia]|]. intros e t' L. eapply fits_le; [apply IB; [exact P|lia]|lia].
  - intros ts F. rewrite select_S. eapply fits_bind; [apply fits_expect; discriminate|]. intros k ts1 L1.
    assert (It : forall t, (length t < length ts)%nat -> fits 1 (length t) (parse_Expr f 0 t)) by (intros t L; apply IE; lia).
    apply (fits_bind _ _ _ _ 0 (length ts1)).
    { unfold sel_list'. destruct (is_ TK_ASTERISK ts1).
      - cbn zeta. destruct (accept TK_COMMA (consume ts1)) as [t|] eqn:A; [|cbn [fits]; rewrite consume_length; lia]. apply accept_length in A; [|discriminate]. rewrite consume_length in A.
        eapply fits_bind; [apply fits_sep; [lia|]; intros t' L'; apply fits_alias_item, It; lia|]. intros l t' L'. cbn [fits]. lia.
      - eapply fits_bind; [apply fits_sep; [lia|]; intros t' L'; apply fits_alias_item, It; lia|]. intros l t' L'. cbn [fits]. lia. }
    intros sel ts2 L2. eapply fits_bind.
    { apply fits_clause. eapply fits_le; [apply fits_sep; rewrite consume_length; [lia|]; intros t' L'; apply fits_source; intros t L; apply IS; lia|rewrite consume_length; lia]. }
    intros from ts3 L3. eapply fits_bind; [apply fits_clause; eapply fits_le; [apply It; rewrite consume_length; lia|rewrite consume_length; lia]|].
    intros wh ts4 L4. eapply fits_bind.
    { apply fits_clause. eapply fits_bind; [apply fits_expect; discriminate|]. intros b t L. rewrite consume_length in L.
      eapply fits_le; [apply fits_sep; [lia|]; intros t' L'; apply fits_alias_item, It; lia|lia]. }
    intros gr ts5 L5. eapply fits_bind; [apply fits_clause; eapply fits_le; [apply It; rewrite consume_length; lia|rewrite consume_length; lia]|].
    intros ha ts6 L6. eapply fits_bind.
    { apply fits_clause. eapply fits_bind; [apply fits_expect; discriminate|]. intros b t L. rewrite consume_length in L.
      eapply fits_le; [apply fits_sep; [lia|]; intros t' L'; apply fits_order_item, It; lia|lia]. }
    intros ord ts7 L7. eapply fits_bind; [apply fits_clause, fits_limit|]. intros li ts8 L8. cbn [fits]. lia.
Qed.

Lemma fits_Expr : forall f ts, (8 * length ts + 6 <= f)%nat -> fits 1 (length ts) (parse_Expr f 0 ts).
Proof. intros f ts L. apply parser_terminates; [discriminate|exact L]. Qed.
(** Step over a token that is expected. *)
Ltac nx := eapply fits_bind; [apply fits_expect; discriminate|intros ? ? ?].
Lemma fits_if_exists : forall ts, fits 0 (length ts) (if_exists ts).
Proof. intros ts. unfold if_exists. destruct (accept _ ts) as [t|] eqn:A; [|cbn; lia]. apply accept_length in A; [|discriminate]. nx. cbn. lia. Qed.
Lemma fits_data_type : forall ts, fits 0 (length ts) (parse_data_type ts).
Proof.
  intros ts. unfold parse_data_type. cbn zeta. pose proof (consume_length ts) as L. remember (consume ts) as t eqn:Ht. clear Ht.
  assert (G : forall k, fits 0 (length ts) (let* l, ts := expect TK_LPAR t in let* n, ts := expect TK_DEC_INT ts in let* r, ts := expect TK_RPAR ts in size_of_type n ts k)).
  { intros k. nx. nx. nx. unfold size_of_type. destruct (strtoul _); cbn [fits]; [lia|exact I]. }
  repeat (match goal with |- fits _ _ (if ?b then _ else _) => destruct b end; [try (cbn [fits]; lia); try apply G|]); [|exact I].
  nx. nx. eapply (fits_bind _ _ _ _ 0 (length ts)).
  - destruct (accept TK_COMMA _) as [t'|] eqn:A; [|cbn [fits]; lia]. apply accept_length in A; [|discriminate]. nx. cbn [fits]. lia.
  - intros s t' L'. nx. destruct (strtoul _); [|exact I]. destruct s as [s|]; [destruct (strtoul (snd s)); [|exact I]|]; cbn [fits]; lia.
Qed.
Lemma fits_constraints : forall f ts, (8 * length ts + 7 <= f)%nat -> fits 0 (length ts) (constraints f ts).
Proof.
  induction f as [|f IH]; intros ts F; [lia|]. cbn [constraints]. pose proof (consume_length ts) as Lc.
  assert (G : forall r : res (option Constraint), match r with Ok (Some _) rest => (length rest < length ts)%nat | Ok None rest => (length rest <= length ts)%nat | Bad => True | Fuel => False end ->
    fits 0 (length ts) (let* c, ts := r in match c with Some c => let* l, ts := constraints f ts in Ok (c :: l) ts | None => Ok [] ts end)).
  { intros [[c|] t| |] H; cbn [bind]; [|cbn [fits]; lia|exact I|destruct H]. eapply fits_bind; [apply IH; lia|]. intros l t' L. cbn [fits]. lia. }
  assert (K : forall (r : res (option Constraint)), fits 0 (length ts - 1) r -> (1 <= length ts)%nat ->
    match r with Ok (Some _) rest => (length rest < length ts)%nat | Ok None rest => (length rest <= length ts)%nat | Bad => True | Fuel => False end).
  { intros [[c|] t| |] H L; cbn [fits] in H; try exact I; try exact H; lia. }
  assert (N : forall T, tk_eqb (type_ ts) T = true -> T <> TK_EOF -> (1 <= length ts)%nat) by (intros T; apply is_length).
  apply G.
  destruct (tk_eqb (type_ ts) (kw "PRIMARY")) eqn:E; [apply K; [nx; cbn [fits]; lia|apply (N _ E); discriminate]|clear E].
  destruct (tk_eqb (type_ ts) (kw "NOT")) eqn:E; [apply K; [nx; cbn [fits]; lia|apply (N _ E); discriminate]|clear E].
  destruct (tk_eqb (type_ ts) (kw "UNIQUE")) eqn:E; [assert (1 <= length ts)%nat by (apply (N _ E); discriminate); lia|clear E].
  destruct (tk_eqb (type_ ts) (kw "CHECK")) eqn:E; [apply K; [|apply (N _ E); discriminate]|clear E].
  { nx. eapply fits_bind; [apply fits_Expr; lia|]. intros e t L. nx. cbn [fits]. lia. }
  destruct (tk_eqb (type_ ts) (kw "REFERENCES")) eqn:E; [apply K; [|apply (N _ E); discriminate]|lia].
  nx. nx. nx. nx. cbn [fits]. lia.
Qed.
Lemma fits_attribute : forall f ts, (8 * length ts + 7 <= f)%nat -> fits 1 (length ts) (attribute f ts).
Proof. intros f ts F. unfold attribute. nx. eapply fits_bind; [apply fits_data_type|intros ty t L]. eapply fits_bind; [apply fits_constraints; lia|]. intros c t' L'. cbn [fits]. lia. Qed.
Lemma fits_key : forall f ts, (8 * length ts + 7 <= f)%nat -> fits 1 (length ts) (key_field f ts).
Proof.
  intros f [|[T s] r] F; unfold key_field; [exact I|]. rewrite type_cons. cbn [fst token_ consume List.tl]. destruct T; try exact I; [cbn; lia|]. apply fits_Expr. lia.
Qed.
Lemma fits_value : forall f ts, (8 * length ts + 7 <= f)%nat -> fits 1 (length ts) (value f ts).
Proof.
  intros f ts F. unfold value. destruct (is_ (kw "DEFAULT") ts) eqn:E; [apply is_length in E; [|discriminate]; cbn [fits]; rewrite consume_length; lia|clear E].
  destruct (is_ (kw "NULL") ts) eqn:E; [apply is_length in E; [|discriminate]; cbn [fits]; rewrite consume_length; lia|clear E].
  eapply fits_bind; [apply fits_Expr; lia|]. intros e t L. cbn [fits]. lia.
Qed.
Lemma fits_tuple : forall f ts, (8 * length ts + 7 <= f)%nat -> fits 1 (length ts) (tuple f ts).
Proof. intros f ts F. unfold tuple. nx. eapply fits_bind; [apply fits_sep; [lia|]; intros t L; apply fits_value; lia|]. intros v t L. nx. cbn [fits]. lia. Qed.
Lemma fits_where : forall f ts, (8 * length ts + 7 <= f)%nat -> fits 0 (length ts) (where_clause f ts).
Proof. intros f ts F. unfold where_clause. apply fits_clause. eapply fits_le; [apply fits_Expr; rewrite consume_length; lia|rewrite consume_length; lia]. Qed.
Lemma fits_assignment : forall f ts, (8 * length ts + 7 <= f)%nat -> fits 1 (length ts) (assignment f ts).
Proof. intros f ts F. unfold assignment. nx. nx. eapply fits_bind; [apply fits_Expr; lia|]. intros e t L. cbn [fits]. lia. Qed.
Lemma fits_string : forall T ts, T <> TK_EOF -> fits 0 (length ts) (opt_string T ts).
Proof. intros T ts N. unfold opt_string. destruct (accept T ts) as [t|] eqn:A; [|cbn [fits]; lia]. apply accept_length in A; [|exact N]. nx. cbn [fits]. lia. Qed.
Lemma fits_header : forall T ts, T <> TK_EOF -> fits 0 (length ts) (opt_header T ts).
Proof. intros T ts N. unfold opt_header. destruct (accept T ts) as [t|] eqn:A; [|cbn [fits]; lia]. apply accept_length in A; [|exact N]. nx. cbn [fits]. lia. Qed.
Lemma fits_import : forall ts, fits 0 (length ts) (parse_ImportStmt ts).
Proof.
  intros ts. unfold parse_ImportStmt. nx. nx. destruct (is_ _ _); [|exact I]. nx. rewrite consume_length in *.
  apply (fits_bind _ _ _ _ 0 (length ts)).
  { destruct (accept _ _) as [t|] eqn:A; [|cbn [fits]; lia]. apply accept_length in A; [|discriminate]. destruct (_ || _); [|exact I]. cbn [fits]. rewrite consume_length. lia. }
  intros ro t L. eapply fits_bind; [apply fits_string; discriminate|intros ? ? ?]. eapply fits_bind; [apply fits_string; discriminate|intros ? ? ?].
  eapply fits_bind; [apply fits_string; discriminate|intros ? ? ?]. eapply fits_bind; [apply fits_header; discriminate|intros ? ? ?].
  eapply fits_bind; [apply fits_header; discriminate|intros ? ? ?]. cbn [fits]. lia.
Qed.
Lemma fits_create_index : forall f ts, (8 * length ts + 7 <= f)%nat -> fits 0 (length ts) (parse_CreateIndexStmt f ts).
Proof.
  intros f ts F. unfold parse_CreateIndexStmt. cbn zeta.
  assert (L : (length (if is_ (kw "UNIQUE") ts then consume ts else ts) <= length ts)%nat) by (destruct (is_ _ ts); rewrite ?consume_length; lia).
  remember (if is_ (kw "UNIQUE") ts then consume ts else ts) as ts0 eqn:Ht. clear Ht. nx.
  apply (fits_bind _ _ _ _ 0 (length ts)).
  { destruct (accept _ _) as [t|] eqn:A; [apply accept_length in A; [|discriminate]; nx; nx; nx; cbn [fits]; lia|]. destruct (is_ TK_IDENTIFIER _); cbn [fits]; rewrite ?consume_length; lia. }
  intros n t1 L1. nx. nx. apply (fits_bind _ _ _ _ 0 (length ts)).
  { destruct (accept _ _) as [t|] eqn:A; [apply accept_length in A; [|discriminate]|cbn [fits]; lia]. destruct (_ || _); [|exact I]. cbn [fits]; rewrite ?consume_length; lia. }
  intros m t2 L2. nx. eapply fits_bind; [apply fits_sep; [lia|]; intros t L'; apply fits_key; lia|]. intros ks t3 L3. nx. cbn [fits]. lia.
Qed.
Lemma fits_identifiers : forall f ts, (length ts < f)%nat -> fits 1 (length ts) (sep_list (expect TK_IDENTIFIER) f ts).
Proof. intros f ts F. apply fits_sep; [exact F|]. intros t L. apply fits_expect. discriminate. Qed.
Theorem statement_terminates : forall f ts, (8 * length ts + 7 <= f)%nat -> fits 0 (length ts) (statement f ts).
Proof.
  intros f ts F. unfold statement. cbn zeta. pose proof (consume_length ts) as L1. pose proof (consume_length (consume ts)) as L2. remember (consume (consume ts)) as t2 eqn:E2. clear E2.
  destruct (tk_eqb (type_ ts) (kw "CREATE")).
  { destruct (tk_eqb _ (kw "DATABASE")); [nx; cbn [fits]; lia|]. destruct (tk_eqb _ (kw "TABLE")).
    { nx. nx. eapply fits_bind; [apply fits_sep; [lia|]; intros t L'; apply fits_attribute; lia|]. intros ks t3 L3. nx. cbn [fits]. lia. }
    destruct (_ || _); [|exact I]. eapply fits_le; [apply fits_create_index; lia|lia]. }
  destruct (tk_eqb (type_ ts) (kw "DROP")).
  { destruct (tk_eqb _ (kw "DATABASE")); [|destruct (tk_eqb _ (kw "TABLE")); [|destruct (tk_eqb _ (kw "INDEX")); [|exact I]]];
      (eapply fits_bind; [apply fits_if_exists|intros i t L]); [nx; cbn [fits]; lia| |];
      (eapply fits_bind; [apply fits_identifiers; lia|]; intros ns t' L'; cbn [fits]; lia). }
  destruct (tk_eqb (type_ ts) (kw "USE")); [nx; cbn [fits]; lia|].
  destruct (tk_eqb (type_ ts) (kw "SELECT")); [eapply fits_bind; [apply parser_terminates; lia|]; intros q t L; cbn [fits]; lia|].
  destruct (tk_eqb (type_ ts) (kw "INSERT")).
  { nx. nx. nx. eapply fits_bind; [apply fits_sep; [lia|]; intros t L'; apply fits_tuple; lia|]. intros ks t3 L3. cbn [fits]. lia. }
  destruct (tk_eqb (type_ ts) (kw "UPDATE")).
  { nx. nx. eapply fits_bind; [apply fits_sep; [lia|]; intros t L'; apply fits_assignment; lia|]. intros ks t3 L3. eapply fits_bind; [apply fits_where; lia|]. intros w t4 L4. cbn [fits]. lia. }
  destruct (tk_eqb (type_ ts) (kw "DELETE")).
  { nx. nx. eapply fits_bind; [apply fits_where; lia|]. intros w t4 L4. cbn [fits]. lia. }
  destruct (tk_eqb (type_ ts) (kw "IMPORT")); [eapply fits_le; [apply fits_import|lia]|exact I].
Qed.
Theorem command_terminates : forall ts, match parse_Stmt ts with Ok _ rest => (length rest < length ts)%nat | Bad => True | Fuel => False end.
Proof.
  intros ts. assert (H : fits 1 (length ts) (parse_Stmt ts)); [|destruct (parse_Stmt ts); cbn [fits] in H; auto; lia].
  unfold parse_Stmt. destruct (is_ TK_SEMICOL ts) eqn:K; [apply is_length in K; [|discriminate]; cbn [fits]; rewrite consume_length; lia|].
  eapply fits_bind; [apply statement_terminates; lia|]. intros s t L. nx. cbn [fits]. lia.
Qed.
