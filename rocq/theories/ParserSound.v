(** * The parser accepts nothing else, and terminates *)
From Coq Require Import ZArith NArith String Ascii List Bool Lia.
From Verif Require Import Lexer Parser ParserSpec ParserProofs.
Import ListNotations.
Local Open Scope Z_scope.

(** No error token (the lexer has reported none); decimal constants consist of digits. *)
Definition clean (ts : list tok) : Prop := Forall (fun t => fst t <> TK_ERROR /\ (fst t = TK_DEC_INT -> exists n, numeral (snd t) n)) ts.
Lemma clean_app : forall a b, clean (a ++ b) -> clean b.
Proof. intros a b H. apply Forall_app in H. apply H. Qed.
Lemma clean_tl : forall ts, clean ts -> clean (consume ts).
Proof. intros [|t ts] H; [exact H|]. now inversion H. Qed.
Lemma is_inv : forall T ts, is_ T ts = true -> T <> TK_EOF -> exists s r, ts = (T, s) :: r.
Proof.
  intros T [|[T' s] r] H N; unfold is_ in H; apply tk_eqb_eq in H; [contradiction N; symmetry; exact H|]. rewrite type_cons in H. cbn in H. subst. eauto.
Qed.
Lemma is_error : forall ts, clean ts -> is_ TK_ERROR ts = false.
Proof. intros [|t r] H; [reflexivity|]. unfold is_. rewrite type_cons. apply tk_eqb_neq. inversion H. tauto. Qed.
Lemma accept_inv : forall T ts r, clean ts -> T <> TK_EOF -> accept T ts = Some r -> exists s, ts = (T, s) :: r.
Proof.
  intros T ts r C N H. unfold accept in H. rewrite (is_error ts C), orb_false_r in H. destruct (is_ T ts) eqn:E; [|discriminate].
  destruct (is_inv T ts E N) as (s & q & ->). injection H as <-. eauto.
Qed.
Lemma expect_inv : forall T ts t r, clean ts -> T <> TK_EOF -> expect T ts = Ok t r -> exists s, ts = (T, s) :: r /\ t = (T, s).
Proof.
  intros T ts t r C N H. unfold expect in H. destruct (accept T ts) as [q|] eqn:E; [|discriminate]. destruct (accept_inv T ts q C N E) as (s & ->).
  injection H as <- <-. exists s. auto.
Qed.
Lemma bind_ok : forall A B (r : res A) (k : A -> list tok -> res B) b rest, bind r k = Ok b rest -> exists a ts, r = Ok a ts /\ k a ts = Ok b rest.
Proof. intros A B [a ts| |] k b rest H; try discriminate. eauto. Qed.

Ltac inv_bind H a ts E := apply bind_ok in H; destruct H as (a & ts & E & H).
Ltac inv_accept E s := apply accept_inv in E; [destruct E as (s & ->)|assumption|discriminate].
Ltac inv_is E s r := apply is_inv in E; [destruct E as (s & r & ->)|discriminate].
Ltac inv_expect E s := apply expect_inv in E; [destruct E as (s & -> & ->)|assumption|discriminate].

(** Comma-separated lists. *)
Lemma sep_sound : forall A (I : list tok -> A -> Prop) (item : list tok -> res A),
  (forall ts a rest, clean ts -> item ts = Ok a rest -> exists pre, ts = pre ++ rest /\ I pre a) ->
  forall f ts l rest, clean ts -> sep_list item f ts = Ok l rest -> exists pre, ts = pre ++ rest /\ separated I pre l.
Proof.
  intros A I item It. induction f as [|f IH]; intros ts l rest C H; [discriminate|]. cbn [sep_list] in H. inv_bind H a ts1 E.
  destruct (It _ _ _ C E) as (pre & -> & Hi). pose proof (clean_app _ _ C) as C1.
  destruct (accept TK_COMMA ts1) as [ts2|] eqn:Ac.
  - inv_accept Ac c. inv_bind H l' ts3 E'. injection H as <- <-.
    destruct (IH _ _ _ (clean_tl _ C1) E') as (pre' & E2 & S). cbn in E2. subst ts2. exists (pre ++ (TK_COMMA, c) :: pre'). split; [now rewrite app_cons|now constructor].
  - injection H as <- <-. exists pre. split; [reflexivity|now constructor].
Qed.

(** The language of [parse_Expr p]. *)
Definition X (p : Z) (pre : list tok) (e : Expr) : Prop := if p <=? 8 then expression false (Z.max 1 p) pre e else primary_expression false pre e.
Lemma X_weaken : forall p p' pre e, 0 <= p' <= p -> p <= 9 -> X p pre e -> X p' pre e.
Proof.
  assert (W : forall n l pre e, 1 <= l -> expression false (l + Z.of_nat n) pre e -> expression false l pre e).
  { induction n as [|n IH]; intros l pre e L H; [now replace (l + Z.of_nat 0) with l in H by lia|].
    apply g_higher; [exact L|]. apply IH; [lia|]. now replace (l + 1 + Z.of_nat n) with (l + Z.of_nat (S n)) by lia. }
  intros p p' pre e L L9 H. unfold X in *.
  destruct (p' <=? 8) eqn:E'; [|apply Z.leb_gt in E'; destruct (p <=? 8) eqn:E; [apply Z.leb_le in E; lia|exact H]]. apply Z.leb_le in E'.
  destruct (p <=? 8) eqn:E.
  - apply Z.leb_le in E. apply (W (Z.to_nat (Z.max 1 p - Z.max 1 p'))); [lia|]. now replace (Z.max 1 p' + Z.of_nat (Z.to_nat (Z.max 1 p - Z.max 1 p'))) with (Z.max 1 p) by lia.
  - apply (W (Z.to_nat (8 - Z.max 1 p'))); [lia|]. replace (Z.max 1 p' + Z.of_nat (Z.to_nat (8 - Z.max 1 p'))) with 8 by lia. now apply g_primary.
Qed.
Lemma prec_inv : forall T, 0 <= get_precedence T -> In (get_precedence T, T) binary_operators \/ T = kw "NOT" /\ get_precedence T = 3 \/ T = TK_TILDE /\ get_precedence T = 8.
Proof.
  intros T H. unfold get_precedence in *. destruct T; try lia; try (left; cbn; tauto); [|tauto].
  destruct (tk_eqb _ (kw "LIKE")) eqn:E1; [apply tk_eqb_eq in E1; rewrite E1; left; cbn; tauto|].
  destruct (tk_eqb _ (kw "NOT")) eqn:E2; [apply tk_eqb_eq in E2; rewrite E2; tauto|].
  destruct (tk_eqb _ (kw "AND")) eqn:E3; [apply tk_eqb_eq in E3; rewrite E3; left; cbn; tauto|].
  destruct (tk_eqb _ (kw "OR")) eqn:E4; [apply tk_eqb_eq in E4; rewrite E4; left; cbn; tauto|lia].
Qed.
Lemma prec_range : forall T, -1 <= get_precedence T <= 8.
Proof.
  intros T. unfold get_precedence. destruct T; try lia. destruct (tk_eqb _ (kw "LIKE")); [lia|]. destruct (tk_eqb _ (kw "NOT")); [lia|].
  destruct (tk_eqb _ (kw "AND")); [lia|]. destruct (tk_eqb _ (kw "OR")); lia.
Qed.
Lemma prec_positive : forall T, 0 <= get_precedence T -> 1 <= get_precedence T.
Proof. intros T H. destruct (prec_inv T H) as [I|[[_ E]|[_ E]]]; [destruct (op_facts _ _ I)|..]; lia. Qed.

Lemma X_binary : forall q T s pre0 lhs pre1 rhs, get_precedence T = q -> 0 <= q -> X q pre0 lhs -> X (q + 1) pre1 rhs ->
  X q (pre0 ++ (T, s) :: pre1) (Binary (T, s) lhs rhs).
Proof.
  intros q T s pre0 lhs pre1 rhs P Q A B. pose proof (prec_range T) as R. rewrite P in R. pose proof (prec_positive T ltac:(lia)) as P1. rewrite P in P1. unfold X in A, B |- *.
  replace (q <=? 8) with true in * by (symmetry; apply Z.leb_le; lia). rewrite Z.max_r in A |- * by lia.
  destruct (prec_inv T ltac:(lia)) as [I|[[-> E]|[-> E]]]; rewrite P in *.
  - destruct (op_facts _ _ I) as (_ & L & _). replace (q + 1 <=? 8) with true in B by (symmetry; apply Z.leb_le; lia). rewrite Z.max_r in B by lia.
    now apply g_binary.
  - subst q. now apply g_binary_not.
  - subst q. now apply g_binary_tilde.
Qed.

(** From [separated] to the lists of the grammar. *)
Lemma sep_expressions : forall ts l, separated (expression false 1) ts l -> expressions false ts l.
Proof. intros ts l S. induction S; [now apply g_expr1|now apply g_exprs]. Qed.
Definition item_rel (ts : list tok) (x : Expr * option tok) : Prop := exists t1 t2, ts = t1 ++ t2 /\ expression false 1 t1 (fst x) /\ alias t2 (snd x).
Lemma sep_items : forall ts l, separated item_rel ts l -> items false ts l.
Proof.
  intros ts l S. induction S as [ts [e a] (t1 & t2 & -> & E & A)|ts [e a] c ts' l (t1 & t2 & -> & E & A) S IH]; cbn [fst snd] in *;
    [now apply g_item1|rewrite <- app_assoc; now apply g_items].
Qed.
Definition order_rel (ts : list tok) (x : Expr * bool) : Prop := exists t1 t2, ts = t1 ++ t2 /\ expression false 1 t1 (fst x) /\ direction t2 (snd x).
Lemma sep_orders : forall ts l, separated order_rel ts l -> orders false ts l.
Proof.
  intros ts l S. induction S as [ts [e a] (t1 & t2 & -> & E & A)|ts [e a] c ts' l (t1 & t2 & -> & E & A) S IH]; cbn [fst snd] in *;
    [now apply g_order1|rewrite <- app_assoc; now apply g_orders].
Qed.
Lemma sep_sources : forall ts l, separated (fun ts x => source_ false ts (fst x) (snd x)) ts l -> sources false ts l.
Proof. intros ts l S. induction S as [ts [s a] H|ts [s a] c ts' l H S IH]; cbn [fst snd] in *; [now apply g_source1|now apply g_sources]. Qed.

Lemma alias_sound : forall ts a rest, clean ts -> opt_alias ts = Ok a rest -> exists pre, ts = pre ++ rest /\ alias pre a.
Proof.
  intros ts a rest C H. unfold opt_alias in H. destruct (accept (kw "AS") ts) as [ts1|] eqn:Ac.
  - inv_accept Ac k. inv_bind H t ts2 E. pose proof (clean_tl _ C) as C1. cbn in C1. inv_expect E s. injection H as <- <-.
    exists [(kw "AS", k); (TK_IDENTIFIER, s)]. split; [reflexivity|constructor].
  - destruct (is_ TK_IDENTIFIER ts) eqn:Is; injection H as <- <-.
    + inv_is Is s r. exists [(TK_IDENTIFIER, s)]. split; [reflexivity|constructor].
    + exists []. split; [reflexivity|constructor].
Qed.
Lemma alias_item_sound : forall E, (forall ts e rest, clean ts -> E ts = Ok e rest -> exists pre, ts = pre ++ rest /\ expression false 1 pre e) ->
  forall ts a rest, clean ts -> alias_item E ts = Ok a rest -> exists pre, ts = pre ++ rest /\ item_rel pre a.
Proof.
  intros E HE ts a rest C H. unfold alias_item in H. inv_bind H e ts1 E1. destruct (HE _ _ _ C E1) as (pre & -> & He). inv_bind H al ts2 E2. pose proof (clean_app _ _ C) as C1.
  destruct (alias_sound _ _ _ C1 E2) as (pre2 & -> & Ha). injection H as <- <-. exists (pre ++ pre2). split; [now rewrite app_assoc|]. exists pre, pre2. auto.
Qed.
Lemma order_item_sound : forall E, (forall ts e rest, clean ts -> E ts = Ok e rest -> exists pre, ts = pre ++ rest /\ expression false 1 pre e) ->
  forall ts a rest, clean ts -> order_item E ts = Ok a rest -> exists pre, ts = pre ++ rest /\ order_rel pre a.
Proof.
  intros E HE ts a rest C H. unfold order_item in H. inv_bind H e ts1 E1. destruct (HE _ _ _ C E1) as (pre & -> & He). pose proof (clean_app _ _ C) as C1.
  destruct (accept (kw "DESC") ts1) as [ts2|] eqn:A1.
  - inv_accept A1 k. injection H as <- <-. exists (pre ++ [(kw "DESC", k)]). split; [now rewrite app_cons|].
    exists pre, [(kw "DESC", k)]. split; [reflexivity|split; [exact He|constructor]].
  - destruct (accept (kw "ASC") ts1) as [ts2|] eqn:A2.
    + inv_accept A2 k. injection H as <- <-. exists (pre ++ [(kw "ASC", k)]). split; [now rewrite app_cons|].
      exists pre, [(kw "ASC", k)]. split; [reflexivity|split; [exact He|constructor]].
    + injection H as <- <-. exists pre. split; [reflexivity|]. exists pre, []. split; [now rewrite app_nil_r|split; [exact He|constructor]].
Qed.
Lemma source_sound : forall S, (forall ts q rest, clean ts -> S ts = Ok q rest -> exists pre, ts = pre ++ rest /\ select_statement false pre q) ->
  forall ts a rest, clean ts -> source S ts = Ok a rest -> exists pre, ts = pre ++ rest /\ source_ false pre (fst a) (snd a).
Proof.
  intros S HS ts a rest C H. unfold source in H. destruct (accept TK_LPAR ts) as [ts1|] eqn:A1.
  - inv_accept A1 l. pose proof (clean_tl _ C) as C1. cbn in C1. inv_bind H q ts2 E1.
    destruct (HS _ _ _ C1 E1) as (pre & -> & Hq). pose proof (clean_app _ _ C1) as C2. inv_bind H r ts3 E2. inv_expect E2 r'. pose proof (clean_tl _ C2) as C3. cbn in C3.
    inv_bind H al ts4 E3.
    destruct (accept (kw "AS") ts3) as [ts5|] eqn:A2.
    + inv_accept A2 k. pose proof (clean_tl _ C3) as C4. cbn in C4. inv_expect E3 s. injection H as <- <-.
      exists ((TK_LPAR, l) :: pre ++ (TK_RPAR, r') :: [(kw "AS", k); (TK_IDENTIFIER, s)]). split; [cbn; now rewrite app_cons|]. apply g_sub; [exact Hq|constructor].
    + inv_expect E3 s. injection H as <- <-.
      exists ((TK_LPAR, l) :: pre ++ (TK_RPAR, r') :: [(TK_IDENTIFIER, s)]). split; [cbn; now rewrite app_cons|]. apply g_sub; [exact Hq|constructor].
  - inv_bind H t ts1 E1. inv_expect E1 s. pose proof (clean_tl _ C) as C1. cbn in C1. inv_bind H al ts2 E2. destruct (alias_sound _ _ _ C1 E2) as (pre & -> & Ha). injection H as <- <-.
    exists ((TK_IDENTIFIER, s) :: pre). split; [reflexivity|]. now apply g_table.
Qed.
Lemma clause_sound : forall A K (p : list tok -> res A) (R : list tok -> option A -> Prop), K <> TK_EOF -> R [] None ->
  (forall s ts a rest, clean ts -> p ((K, s) :: ts) = Ok a rest -> exists pre, ts = pre ++ rest /\ R ((K, s) :: pre) (Some a)) ->
  forall ts o rest, clean ts -> clause K p ts = Ok o rest -> exists pre, ts = pre ++ rest /\ R pre o.
Proof.
  intros A K p R N R0 HP ts o rest C H. unfold clause in H. destruct (is_ K ts) eqn:E.
  - destruct (is_inv _ _ E N) as (s & r & ->). pose proof (clean_tl _ C) as C1. cbn in C1. inv_bind H a ts1 E1. injection H as <- <-.
    destruct (HP _ _ _ _ C1 E1) as (pre & -> & Hr). exists ((K, s) :: pre). split; [reflexivity|exact Hr].
  - injection H as <- <-. exists []. split; [reflexivity|exact R0].
Qed.
Lemma integer_sound : forall ts n rest, integer ts = Ok n rest -> ts = n :: rest /\ In (fst n) integers.
Proof.
  intros [|t r] n rest H; unfold integer in H; [discriminate|]. rewrite type_cons in H. destruct (is_integer (fst t)) eqn:E; [|discriminate]. injection H as <- <-.
  split; [reflexivity|]. destruct (fst t); try discriminate; cbn; tauto.
Qed.
Lemma limit_sound : forall ts o rest, clean ts -> p_limit ts = Ok o rest -> exists pre, ts = pre ++ rest /\ limit_clause pre o.
Proof.
  apply clause_sound; [discriminate|constructor|]. intros s ts [n o] rest C H. unfold parse_LimitClause in H. rewrite expect_hd in H. cbn [bind] in H. inv_bind H l ts1 E1.
  destruct (integer_sound _ _ _ E1) as [-> I]. pose proof (clean_tl _ C) as C1. cbn in C1. destruct (accept (kw "OFFSET") ts1) as [ts2|] eqn:A1.
  - inv_accept A1 k. inv_bind H o' ts3 E2. destruct (integer_sound _ _ _ E2) as [-> I']. injection H as <- <- <-.
    exists [l; (kw "OFFSET", k); o']. split; [reflexivity|now constructor].
  - injection H as <- <- <-. exists [l]. split; [reflexivity|now constructor].
Qed.

Definition S_expr f := forall p ts e rest, 0 <= p <= 9 -> clean ts -> parse_Expr f p ts = Ok e rest ->
  exists pre, ts = pre ++ rest /\ X p pre e /\ get_precedence (type_ rest) < p.
Definition S_primary f := forall ts e rest, clean ts -> primary f ts = Ok e rest -> exists pre, ts = pre ++ rest /\ primary_expression false pre e.
Definition S_postfix f := forall pre0 lhs ts e rest, clean ts -> primary_expression false pre0 lhs -> postfix f lhs ts = Ok e rest ->
  exists pre, ts = pre ++ rest /\ primary_expression false (pre0 ++ pre) e.
Definition S_binary f := forall L pre0 p lhs ts e rest, 0 <= p <= L -> L <= 9 -> clean ts -> X L pre0 lhs -> get_precedence (type_ ts) <= L -> binary f p lhs ts = Ok e rest ->
  exists pre, ts = pre ++ rest /\ X p (pre0 ++ pre) e /\ get_precedence (type_ rest) < p.
Definition S_select f := forall ts q rest, clean ts -> parse_SelectStmt f ts = Ok q rest -> exists pre, ts = pre ++ rest /\ select_statement false pre q.

Lemma S_expr_1 : forall f, S_expr f -> forall ts e rest, clean ts -> parse_Expr f 0 ts = Ok e rest -> exists pre, ts = pre ++ rest /\ expression false 1 pre e.
Proof. intros f H ts e rest C E. destruct (H 0 ts e rest ltac:(lia) C E) as (pre & A & B & _). exists pre. auto. Qed.

Theorem parser_sound : forall f, S_expr f /\ S_primary f /\ S_postfix f /\ S_binary f /\ S_select f.
Proof.
  induction f as [|f (IE & IP & IF & IB & IS)]; [repeat split; intros; red; intros; discriminate|]. pose proof (S_expr_1 f IE) as IE1.
  split; [|split; [|split; [|split]]].
  - intros p ts e rest P C H. rewrite parse_Expr_S in H. inv_bind H lhs ts1 E1. inv_bind H lhs2 ts2 E2.
    destruct (IP _ _ _ C E1) as (pre1 & -> & H1). pose proof (clean_app _ _ C) as C1. destruct (IF _ _ _ _ _ C1 H1 E2) as (pre2 & -> & H2). pose proof (clean_app _ _ C1) as C2.
    destruct (IB 9 (pre1 ++ pre2) p lhs2 ts2 e rest) as (pre3 & -> & H3 & Pr); [lia|lia|exact C2|exact H2|pose proof (prec_range (type_ ts2)); lia|exact H|].
    exists ((pre1 ++ pre2) ++ pre3). rewrite <- !app_assoc in *. split; [reflexivity|]. split; [exact H3|exact Pr].
  - intros [|[T s] r] e rest C H; rewrite primary_S in H; [discriminate|]. rewrite type_cons in H. cbn [fst token_ consume List.tl] in H. pose proof (clean_tl _ C) as C1. cbn [consume List.tl] in C1.
    destruct T; try discriminate; try (injection H as <- <-; eexists [_]; split; [reflexivity|apply g_constant; cbn; tauto]).
    + (* designator *)
      unfold parse_designator in H. rewrite expect_hd in H. cbn [bind] in H. destruct (is_ TK_DOT r) eqn:D.
      * inv_is D d r2. cbn [consume List.tl] in H. inv_bind H rhs ts2 E2. pose proof (clean_tl _ C1) as C2. cbn in C2. inv_expect E2 a. injection H as <- <-.
        exists [(TK_IDENTIFIER, s); (TK_DOT, d); (TK_IDENTIFIER, a)]. split; [reflexivity|constructor].
      * injection H as <- <-. exists [(TK_IDENTIFIER, s)]. split; [reflexivity|constructor].
    + (* keyword *)
      destruct (is_ (kw "NULL") _ || is_ (kw "TRUE") _ || is_ (kw "FALSE") _) eqn:K.
      * injection H as <- <-. eexists [_]. split; [reflexivity|]. apply g_constant. cbn [fst]. unfold is_ in K. rewrite !type_cons in K. cbn [fst] in K.
        apply orb_prop in K. destruct K as [K|K]; [apply orb_prop in K; destruct K as [K|K]|]; apply tk_eqb_eq in K; rewrite K; cbn; tauto.
      * destruct (is_ (kw "NOT") _) eqn:K2; [|discriminate]. unfold is_ in K2. rewrite type_cons in K2. cbn [fst] in K2. apply tk_eqb_eq in K2. rewrite K2 in *.
        inv_bind H e' ts1 E1. injection H as <- <-. destruct (IE 3 r e' ts1 ltac:(lia) C1 E1) as (pre & -> & Hx & _). exists ((kw "NOT", s) :: pre). split; [reflexivity|].
        apply g_inner_not; [reflexivity|exact Hx].
    + (* parenthesis *)
      cbn zeta in H. inv_bind H e' ts1 E1. inv_bind H r' ts2 E2. injection H as <- <-. destruct (is_ (kw "SELECT") r) eqn:K.
      * inv_bind E1 q ts3 E3. injection E1 as <- <-. destruct (IS _ _ _ C1 E3) as (pre & -> & Hq). pose proof (clean_app _ _ C1) as C2. inv_expect E2 s2.
        exists ((TK_LPAR, s) :: pre ++ [(TK_RPAR, s2)]). split; [cbn; now rewrite app_cons|now apply g_query].
      * destruct (IE1 _ _ _ C1 E1) as (pre & -> & Hx). pose proof (clean_app _ _ C1) as C2. inv_expect E2 s2.
        exists ((TK_LPAR, s) :: pre ++ [(TK_RPAR, s2)]). split; [cbn; now rewrite app_cons|now apply g_paren].
    + inv_bind H e' ts1 E1. injection H as <- <-. destruct (IE 8 r e' ts1 ltac:(lia) C1 E1) as (pre & -> & Hx & _). exists ((TK_TILDE, s) :: pre). split; [reflexivity|].
      apply g_inner_sign; [reflexivity|cbn; tauto|exact Hx].
    + inv_bind H e' ts1 E1. injection H as <- <-. destruct (IE 8 r e' ts1 ltac:(lia) C1 E1) as (pre & -> & Hx & _). exists ((TK_PLUS, s) :: pre). split; [reflexivity|].
      apply g_inner_sign; [reflexivity|cbn; tauto|exact Hx].
    + inv_bind H e' ts1 E1. injection H as <- <-. destruct (IE 8 r e' ts1 ltac:(lia) C1 E1) as (pre & -> & Hx & _). exists ((TK_MINUS, s) :: pre). split; [reflexivity|].
      apply g_inner_sign; [reflexivity|cbn; tauto|exact Hx].
  - intros pre0 lhs ts e rest C L H. rewrite postfix_S in H. destruct (is_ TK_LPAR ts) eqn:K.
    + inv_is K l r. cbn [consume List.tl] in H. pose proof (clean_tl _ C) as C1. cbn [consume List.tl] in C1. inv_bind H args ts1 E1.
      assert (A : exists pre, r = pre ++ ts1 /\ arguments false pre args).
      { unfold call_args in E1. destruct (is_ TK_ASTERISK r) eqn:K1.
        - inv_is K1 a r1. injection E1 as <- <-. exists [(TK_ASTERISK, a)]. split; [reflexivity|constructor].
        - destruct (negb (is_ TK_RPAR r)).
          + destruct (sep_sound _ (expression false 1) (parse_Expr f 0) IE1 _ _ _ _ C1 E1) as (pre & -> & S). exists pre. split; [reflexivity|]. apply g_arguments. now apply sep_expressions.
          + injection E1 as <- <-. exists []. split; [reflexivity|constructor]. }
      destruct A as (pre & -> & A). pose proof (clean_app _ _ C1) as C2. inv_bind H r' ts2 E2. inv_expect E2 s2. pose proof (clean_tl _ C2) as C3. cbn in C3.
      destruct (IF (pre0 ++ (TK_LPAR, l) :: pre ++ [(TK_RPAR, s2)]) (FnApplication lhs args) ts2 e rest C3) as (pre3 & -> & H3); [now apply g_call|exact H|].
      exists ((TK_LPAR, l) :: pre ++ (TK_RPAR, s2) :: pre3). split; [cbn; now rewrite app_cons|]. rewrite <- app_assoc in H3. cbn [app] in H3. now rewrite app_cons in H3.
    + injection H as <- <-. exists []. split; [reflexivity|now rewrite app_nil_r].
  - intros L pre0 p lhs ts e rest P P9 C HX Pr H. rewrite binary_S in H. destruct (p >? get_precedence (type_ ts)) eqn:G.
    + injection H as <- <-. rewrite Z.gtb_ltb in G. apply Z.ltb_lt in G. exists []. split; [reflexivity|]. rewrite app_nil_r. split; [apply (X_weaken L); [lia|lia|exact HX]|exact G].
    + rewrite Z.gtb_ltb in G. apply Z.ltb_ge in G. destruct ts as [|[T s] r]; [exfalso; unfold type_, token_ in G; cbn in G; lia|]. rewrite type_cons in *. cbn [fst token_ consume List.tl] in *.
      pose proof (clean_tl _ C) as C1. cbn in C1. pose proof (prec_range T) as R. inv_bind H rhs ts1 E1. destruct (IE (get_precedence T + 1) r rhs ts1 ltac:(lia) C1 E1) as (pre1 & -> & H1 & Pr1).
      destruct (IB (get_precedence T) (pre0 ++ (T, s) :: pre1) p (Binary (T, s) lhs rhs) ts1 e rest) as (pre2 & -> & H2 & Pr2); [lia|lia|exact (clean_app _ _ C1)| |lia|exact H|].
      { apply X_binary; [reflexivity|lia|apply (X_weaken L); [lia|lia|exact HX]|exact H1]. }
      exists ((T, s) :: pre1 ++ pre2). split; [cbn; now rewrite app_assoc|]. rewrite app_cons in H2. auto.
  - intros ts q rest C H. rewrite select_S in H. inv_bind H k ts1 E0. inv_expect E0 ks. pose proof (clean_tl _ C) as C0. cbn in C0.
    inv_bind H sel ts2 E1.
    assert (A1 : exists pre, ts1 = pre ++ ts2 /\ select_list false pre (fst sel) (snd sel)).
    { unfold sel_list' in E1. destruct (is_ TK_ASTERISK ts1) eqn:K1.
      - inv_is K1 a r1. cbn [consume List.tl token_] in E1. cbn zeta in E1. pose proof (clean_tl _ C0) as C1. cbn in C1.
        destruct (accept TK_COMMA r1) as [ts3|] eqn:A2.
        + inv_accept A2 c. pose proof (clean_tl _ C1) as C2. cbn in C2. inv_bind E1 l ts4 E2. injection E1 as <- <-. cbn [fst snd].
          destruct (sep_sound _ item_rel _ (alias_item_sound _ IE1) _ _ _ _ C2 E2) as (pre & -> & S).
          exists ((TK_ASTERISK, a) :: (TK_COMMA, c) :: pre). split; [reflexivity|]. apply g_select_all_and. now apply sep_items.
        + injection E1 as <- <-. cbn [fst snd]. exists [(TK_ASTERISK, a)]. split; [reflexivity|constructor].
      - inv_bind E1 l ts4 E2. injection E1 as <- <-. cbn [fst snd].
        destruct (sep_sound _ item_rel _ (alias_item_sound _ IE1) _ _ _ _ C0 E2) as (pre & -> & S). exists pre. split; [reflexivity|]. apply g_select_items. now apply sep_items. }
    destruct A1 as (pre1 & -> & H1). pose proof (clean_app _ _ C0) as C1.
    inv_bind H from ts3 E2.
    assert (AE2 : exists pre, ts2 = pre ++ ts3 /\ from_clause false pre from).
    { unfold p_from in E2. refine (clause_sound _ _ _ (from_clause false) _ _ _ _ _ _ C1 E2); [discriminate|constructor|]. clear - IE1 IS.
      intros s ts a r0 Cc Hc. cbn [consume List.tl] in Hc. destruct (sep_sound _ _ _ (source_sound _ IS) _ _ _ _ Cc Hc) as (pre & -> & S). exists pre. split; [reflexivity|]. apply g_from. now apply sep_sources. }
    destruct AE2 as (pre2 & -> & H2).
    pose proof (clean_app _ _ C1) as C2. inv_bind H wh ts4 E3.
    assert (AE3 : exists pre, ts3 = pre ++ ts4 /\ condition false (kw "WHERE") pre wh).
    { unfold p_cond in E3. refine (clause_sound _ _ _ (condition false (kw "WHERE")) _ _ _ _ _ _ C2 E3); [discriminate|constructor|]. clear - IE1 IS.
      intros s ts a r0 Cc Hc. cbn [consume List.tl] in Hc. destruct (IE1 _ _ _ Cc Hc) as (pre & -> & S). exists pre. split; [reflexivity|]. now apply g_condition. }
    destruct AE3 as (pre3 & -> & H3).
    pose proof (clean_app _ _ C2) as C3. inv_bind H gr ts5 E4.
    assert (AE4 : exists pre, ts4 = pre ++ ts5 /\ group_by_clause false pre gr).
    { unfold p_group in E4. refine (clause_sound _ _ _ (group_by_clause false) _ _ _ _ _ _ C3 E4); [discriminate|constructor|]. clear - IE1 IS.
      intros s ts a r0 Cc Hc. cbn [consume List.tl] in Hc. inv_bind Hc kk ts6 E5. inv_expect E5 s5. pose proof (clean_tl _ Cc) as Cc1. cbn in Cc1.
      destruct (sep_sound _ item_rel _ (alias_item_sound _ IE1) _ _ _ _ Cc1 Hc) as (pre & -> & S). exists ((kw "BY", s5) :: pre). split; [reflexivity|]. apply g_group_by. now apply sep_items. }
    destruct AE4 as (pre4 & -> & H4).
    pose proof (clean_app _ _ C3) as C4. inv_bind H ha ts6 E5.
    assert (AE5 : exists pre, ts5 = pre ++ ts6 /\ condition false (kw "HAVING") pre ha).
    { unfold p_cond in E5. refine (clause_sound _ _ _ (condition false (kw "HAVING")) _ _ _ _ _ _ C4 E5); [discriminate|constructor|]. clear - IE1 IS.
      intros s ts a r0 Cc Hc. cbn [consume List.tl] in Hc. destruct (IE1 _ _ _ Cc Hc) as (pre & -> & S). exists pre. split; [reflexivity|]. now apply g_condition. }
    destruct AE5 as (pre5 & -> & H5).
    pose proof (clean_app _ _ C4) as C5. inv_bind H ord ts7 E6.
    assert (AE6 : exists pre, ts6 = pre ++ ts7 /\ order_by_clause false pre ord).
    { unfold p_order in E6. refine (clause_sound _ _ _ (order_by_clause false) _ _ _ _ _ _ C5 E6); [discriminate|constructor|]. clear - IE1 IS.
      intros s ts a r0 Cc Hc. cbn [consume List.tl] in Hc. inv_bind Hc kk ts8 E7. inv_expect E7 s5. pose proof (clean_tl _ Cc) as Cc1. cbn in Cc1.
      destruct (sep_sound _ order_rel _ (order_item_sound _ IE1) _ _ _ _ Cc1 Hc) as (pre & -> & S). exists ((kw "BY", s5) :: pre). split; [reflexivity|]. apply g_order_by. now apply sep_orders. }
    destruct AE6 as (pre6 & -> & H6).
    pose proof (clean_app _ _ C5) as C6. inv_bind H li ts8 E7. destruct (limit_sound _ _ _ C6 E7) as (pre7 & -> & H7). injection H as <- <-.
    exists ((kw "SELECT", ks) :: pre1 ++ pre2 ++ pre3 ++ pre4 ++ pre5 ++ pre6 ++ pre7). split; [cbn; now rewrite <- !app_assoc|]. now apply g_select.
Qed.
