(** * What the printer writes: expressions and queries *)
From Coq Require Import ZArith NArith String Ascii List Bool Lia.
From Verif Require Import Lexer LexerProps Parser ParserSpec ParserProofs ParserStmt ParserPrint.
Import ListNotations.
Local Open Scope Z_scope.

Section Printed.
Variable al : Select -> list N.
Notation pe := (print_expr al).
Notation ps := (print_select al).
Definition print_item x (i : Expr * option tok) : list N := pe x (fst i) ++ as_ (snd i).
Definition print_order x (i : Expr * bool) : list N := pe x (fst i) ++ chars (if snd i : bool then " ASC" else " DESC").
Definition print_src x (s : Source * option tok) : list N := print_source al x (fst s) ++ as_ (snd s).
Lemma pe_call : forall x fn args, pe x (FnApplication fn args) = pe x fn ++ chars "(" ++ commas (map (pe x) args) ++ chars ")". Proof. reflexivity. Qed.
Lemma pe_unary : forall x op e, pe x (Unary op e) = chars "(" ++ snd op ++ (if tk_eqb (fst op) (kw "NOT") then chars " " else []) ++ pe x e ++ chars ")". Proof. reflexivity. Qed.
Lemma pe_binary : forall x op l r, pe x (Binary op l r) = chars "(" ++ pe x l ++ chars " " ++ snd op ++ chars " " ++ pe x r ++ chars ")". Proof. reflexivity. Qed.
Lemma pe_query : forall q, pe true (Query q) = chars "(" ++ ps true q ++ chars ")". Proof. reflexivity. Qed.
Definition t_from x (o : option (list (Source * option tok))) := match o with Some l => [10%N] ++ chars "FROM" ++ chars " " ++ commas (map (print_src x) l) | None => [] end.
Definition t_cond k (o : option Expr) := match o with Some e => [10%N] ++ chars k ++ chars " " ++ pe false e | None => [] end.
Definition t_group x o := match o with Some l => [10%N] ++ chars "GROUP" ++ chars " " ++ chars "BY" ++ chars " " ++ commas (map (print_item x) l) | None => [] end.
Definition t_order x o := match o with Some l => [10%N] ++ chars "ORDER" ++ chars " " ++ chars "BY" ++ chars " " ++ commas (map (print_order x) l) | None => [] end.
Definition t_limit (o : option (tok * option tok)) :=
  match o with Some (l, o) => [10%N] ++ chars "LIMIT" ++ chars " " ++ snd l ++ match o with Some o => chars " " ++ chars "OFFSET" ++ chars " " ++ snd o | None => [] end | None => [] end.
Lemma ps_select : forall x all items from wh gr ha ord lim, ps x (mkSelect all items from wh gr ha ord lim) =
  chars "SELECT" ++ chars " " ++ commas (match all with Some _ => [chars "*"] | None => [] end ++ map (print_item x) items) ++ t_from x from ++ t_cond "WHERE" wh
  ++ t_group x gr ++ t_cond "HAVING" ha ++ t_order x ord ++ t_limit lim.
Proof. reflexivity. Qed.
Lemma psrc_sub : forall x q, print_source al x (Sub q) = chars "(" ++ ps x q ++ chars ")". Proof. reflexivity. Qed.

Lemma commas_cons : forall a b l, commas (a :: b :: l) = a ++ chars "," ++ chars " " ++ commas (b :: l).
Proof. intros a b l. cbn [commas map concat]. change (chars ", ") with (chars "," ++ chars " "). now rewrite <- !app_assoc. Qed.
Lemma commas_one : forall a, commas [a] = a. Proof. intros a. cbn. apply app_nil_r. Qed.

(** A clause: empty, or on a line of its own. *)
Definition V (ts : list tok) (text : list N) : Prop := W ts text /\ (text = [] \/ exists r, text = 10%N :: r).
Lemma V_safe : forall ts text rest, V ts text -> safe rest -> safe (text ++ rest).
Proof. intros ts text rest [_ [->|(r & ->)]] S; [exact S|now apply safe_cons]. Qed.
Lemma V_nil : V [] []. Proof. split; [intros its rest _ H; exact H|now left]. Qed.
Lemma V_app : forall a s b t, V a s -> V b t -> V (a ++ b) (s ++ t).
Proof.
  intros a s b t Ha Hb. split.
  - intros its rest S H. rewrite <- !app_assoc. apply Ha; [exact (V_safe _ _ _ Hb S)|]. now apply Hb.
  - destruct Ha as [_ [->|(r & ->)]]; [apply Hb|right; exists (r ++ t); reflexivity].
Qed.
Lemma V_line : forall ts text, W ts text -> V ts ([10%N] ++ text).
Proof. intros ts text H. split; [|right; exists text; reflexivity]. intros its rest S K. rewrite <- app_assoc. apply w_newline. now apply H. Qed.
(** Two phrases with a blank between them. *)
Lemma W_then : forall a s b t, W a s -> W b t -> W (a ++ b) (s ++ chars " " ++ t).
Proof. intros a s b t Ha Hb its rest S H. rewrite <- !app_assoc. apply Ha; [now apply safe_app|]. apply w_space. now apply Hb. Qed.
Lemma W_paren : forall a s, W a s -> W ((TK_LPAR, chars "(") :: a ++ [(TK_RPAR, chars ")")]) (chars "(" ++ s ++ chars ")").
Proof. intros a s H its rest S K. cbn [app]. rewrite <- !app_assoc. cbn [app]. apply (w_open). apply H; [now apply safe_app|]. now apply w_close. Qed.
Lemma W_comma : forall a s b t, W a s -> W b t -> W (a ++ (TK_COMMA, chars ",") :: b) (s ++ chars "," ++ chars " " ++ t).
Proof. intros a s b t Ha Hb its rest S H. rewrite <- !app_assoc. cbn [app]. apply Ha; [now apply safe_app|]. apply w_comma. apply w_space. now apply Hb. Qed.
Lemma W_list : forall A (G : list tok -> list A -> Prop) (I : list tok -> A -> Prop) (pr : A -> list N),
  (forall ts a, I ts a -> G ts [a]) -> (forall ts a ts' l, I ts a -> G ts' l -> G (ts ++ (TK_COMMA, chars ",") :: ts') (a :: l)) ->
  forall a l ts, I ts a -> W ts (pr a) -> (l = [] \/ exists ts', G ts' l /\ W ts' (commas (map pr l))) ->
  exists ts', G ts' (a :: l) /\ W ts' (commas (map pr (a :: l))).
Proof.
  intros A G I pr G1 G2 a l ts Ia Wa [->|(ts' & Gl & Wl)].
  - exists ts. split; [now apply G1|]. cbn [map]. now rewrite commas_one.
  - destruct l as [|b l]; [exists ts; split; [now apply G1|]; cbn [map]; now rewrite commas_one|].
    exists (ts ++ (TK_COMMA, chars ",") :: ts'). split; [now apply G2|]. cbn [map]. rewrite commas_cons. now apply W_comma.
Qed.

(** ** The first character *)
Definition no_dash (s : list N) : Prop := exists c r, s = c :: r /\ c <> chr "-".
Lemma no_dash_app : forall s r, no_dash s -> first_ok (s ++ r).
Proof. intros s r (c & q & -> & N) (c' & r' & E & Q). cbn in E. injection E as <- _. now apply N. Qed.
Lemma no_dash_extend : forall s r, no_dash s -> no_dash (s ++ r). Proof. intros s r (c & q & -> & N). exists c, (q ++ r). auto. Qed.
Lemma word_no_dash : forall s, word s -> no_dash s.
Proof. intros s Wd. destruct (word_start s Wd) as (c & r & -> & Q). exists c, r. split; [reflexivity|]. intros ->. revert Q. unfold letter, in_. cbn. intuition discriminate. Qed.
Lemma keyword_lexeme : forall s t, lexeme (TK_KEYWORD s) t -> In t keywords /\ s = t.
Proof. intros s t L. inversion L as [| |T s' Nu| | | | |s' T I]; subst; [auto|inversion Nu|]. unfold punctuators in I. cbn in I. intuition discriminate. Qed.
Lemma constant_no_dash : forall t, good t -> In (fst t) constants -> no_dash (snd t).
Proof.
  intros [T s] [L _] I. cbn [fst snd] in *.
  assert (K : forall k, T = TK_KEYWORD k -> no_dash s).
  { intros k ->. apply keyword_lexeme in L. destruct L as [L _]. apply word_no_dash. now apply keywords_words. }
  inversion L as [s' Wd N|s' Ik|T' s' Nu|b B|s' D|d t D Ti|s' N|s' T' Ip]; subst.
  - now apply word_no_dash.
  - eauto.
  - destruct (number_start _ _ Nu) as (c & r & -> & [D|[-> _]]).
    + exists c, r. split; [reflexivity|]. intros ->. discriminate D.
    + eexists _, _. split; [reflexivity|discriminate].
  - eexists _, _. split; [reflexivity|discriminate].
  - eexists _, _. split; [reflexivity|discriminate].
  - eexists _, _. split; [reflexivity|discriminate].
  - cbn in I. intuition discriminate.
  - unfold punctuators in Ip. cbn in Ip, I. intuition (match goal with H : (_, _) = (_, _) |- _ => injection H as <- <- end; intuition discriminate).
Qed.

Definition Q_expr (x : bool) (e : Expr) : Prop := exists ts, primary_expression true ts e /\ W ts (pe x e) /\ no_dash (pe x e) /\ (type_ ts = kw "NULL" -> begins_with_null e) /\
  match e with Unary _ _ | Binary _ _ _ => exists ts' l r, ts = (TK_LPAR, l) :: ts' ++ [(TK_RPAR, r)] /\ expression true 1 ts' e | _ => True end.
Definition Q_exprs (x : bool) (l : list Expr) : Prop := l = [] \/ exists ts, expressions true ts l /\ W ts (commas (map (pe x) l)).
Definition Q_select (x : bool) (q : Select) : Prop := exists ts, select_statement true ts q /\ W ts (ps x q).
Definition Q_items (x : bool) (l : list (Expr * option tok)) : Prop := l = [] \/ exists ts, items true ts l /\ W ts (commas (map (print_item x) l)).
Definition Q_from (x : bool) o : Prop := exists ts, from_clause true ts o /\ V ts (t_from x o).
Definition Q_sources (x : bool) l : Prop := l = [] \/ exists ts, sources true ts l /\ W ts (commas (map (print_src x) l)).
Definition Q_source (x : bool) s a : Prop := exists ts, source_ true ts s a /\ W ts (print_src x (s, a)).
Definition Q_where o : Prop := (exists ts, condition true (kw "WHERE") ts o /\ V ts (t_cond "WHERE" o)) /\ (exists ts, condition true (kw "HAVING") ts o /\ V ts (t_cond "HAVING" o)).
Definition Q_group (x : bool) o : Prop := exists ts, group_by_clause true ts o /\ V ts (t_group x o).
Definition Q_order (x : bool) o : Prop := exists ts, order_by_clause true ts o /\ V ts (t_order x o).
Definition Q_orders (x : bool) l : Prop := l = [] \/ exists ts, orders true ts l /\ W ts (commas (map (print_order x) l)).

Lemma up : forall n l ts e, 1 <= l -> l + Z.of_nat n <= 8 -> expression true (l + Z.of_nat n) ts e -> expression true l ts e.
Proof.
  induction n as [|n IH]; intros l ts e L L8 H; [now replace (l + Z.of_nat 0) with l in H by lia|].
  apply g_higher; [exact L|]. apply IH; [lia|lia|]. now replace (l + 1 + Z.of_nat n) with (l + Z.of_nat (S n)) by lia.
Qed.
Lemma any_level : forall l ts e, 1 <= l <= 8 -> primary_expression true ts e -> expression true l ts e.
Proof. intros l ts e L H. apply (up (Z.to_nat (8 - l))); [lia|lia|]. replace (l + Z.of_nat (Z.to_nat (8 - l))) with 8 by lia. now apply g_primary. Qed.
Lemma top_level : forall l ts e, 1 <= l <= 8 -> expression true l ts e -> expression true 1 ts e.
Proof. intros l ts e L H. apply (up (Z.to_nat (l - 1))); [lia|lia|]. now replace (1 + Z.of_nat (Z.to_nat (l - 1))) with l by lia. Qed.
Lemma W_alias : forall ts s a, W ts s -> opt_ident a -> exists ta, alias ta a /\ W (ts ++ ta) (s ++ as_ a).
Proof.
  intros ts s [t|] H Ia; cbn [opt_ident] in Ia.
  - exists [(kw "AS", chars "AS"); t]. destruct t as [T w]. pose proof Ia as [E _]. cbn in E. subst T. split; [constructor|]. cbn [as_].
    change (chars " AS " ++ snd (TK_IDENTIFIER, w)) with (chars " " ++ (chars "AS" ++ chars " " ++ snd (TK_IDENTIFIER, w))).
    apply (W_then ts s [(kw "AS", chars "AS"); (TK_IDENTIFIER, w)]); [exact H|]. apply (W_then [(kw "AS", chars "AS")] _ [(TK_IDENTIFIER, w)]); [now apply W_kw|now apply W_ident].
  - exists []. split; [constructor|]. cbn [as_]. now rewrite !app_nil_r.
Qed.
Lemma constant_type : forall t : tok, In (fst t) constants -> fst t <> TK_INSTRUCTION.
Proof. intros t I E. rewrite E in I. cbn in I. intuition discriminate. Qed.
Lemma not_text : forall op, good op -> fst op = kw "NOT" -> snd op = chars "NOT".
Proof. intros [T s] [L _] E. cbn in *. subst T. apply keyword_lexeme in L. now destruct L. Qed.

Lemma sign_cases : forall T, In T signs -> tk_eqb T (kw "NOT") = false -> In T [TK_PLUS; TK_MINUS; TK_TILDE].
Proof. intros T I E. destruct I as [I|[I|[I|[I|[]]]]]; [left; exact I|right; left; exact I|right; right; left; exact I|]. rewrite <- I in E. discriminate E. Qed.

Theorem printed : (forall x e, p_expr x e -> Q_expr x e) /\ (forall x l, p_exprs x l -> Q_exprs x l) /\ (forall x q, p_select x q -> Q_select x q) /\
  (forall x l, p_items x l -> Q_items x l) /\ (forall x o, p_from_ x o -> Q_from x o) /\ (forall x l, p_sources x l -> Q_sources x l) /\
  (forall x s a, p_source x s a -> Q_source x s a) /\ (forall o, p_where o -> Q_where o) /\ (forall x o, p_group_ x o -> Q_group x o) /\
  (forall x o, p_order_ x o -> Q_order x o) /\ (forall x l, p_orders x l -> Q_orders x l).
Proof.
  apply printable_ind.
  - intros x a Ia. exists [a]. destruct a as [T s]. pose proof Ia as [E _]. cbn in E. subst T. split; [constructor|split; [exact (W_ident _ Ia)|]].
    split; [exact (word_no_dash _ (ident_word _ Ia))|]. split; [discriminate|exact I].
  - intros x t a It Ia. exists [t; (TK_DOT, chars "."); a]. pose proof (W_qualified t a It Ia) as Wq. pose proof (word_no_dash _ (ident_word _ It)) as D.
    destruct t as [T s], a as [T' s']. pose proof It as [E _]. pose proof Ia as [E' _]. cbn in E, E'. subst T T'. split; [constructor|].
    assert (Ep : pe x (Designator (Some (TK_IDENTIFIER, s)) (TK_IDENTIFIER, s')) = s ++ chars "." ++ s') by (cbn [print_expr snd]; now rewrite <- app_assoc).
    rewrite Ep. split; [exact Wq|]. split; [now apply no_dash_extend|]. split; [discriminate|exact I].
  - intros x t G Ic. exists [t]. split; [now constructor|]. split; [apply W_good; [exact G|now apply constant_type]|]. split; [now apply constant_no_dash|].
    split; [intros E; exact E|exact I].
  - intros x fn args _ (ts & P & Wt & D & Nu & _) _ A. unfold Q_expr. rewrite pe_call.
    assert (K : exists ta, arguments true ta args /\ W ta (commas (map (pe x) args))).
    { destruct A as [->|(ta & Ga & Wa)]; [|exists ta; split; [now constructor|exact Wa]]. exists []. split; [constructor|]. intros its rest _ H. exact H. }
    destruct K as (ta & Ga & Wa). exists (ts ++ (TK_LPAR, chars "(") :: ta ++ [(TK_RPAR, chars ")")]). split; [now constructor|].
    split; [|split; [now apply no_dash_extend|split; [|exact I]]].
    + intros its rest S H. rewrite <- !app_assoc. cbn [app]. apply Wt; [now apply safe_app|]. rewrite !app_assoc. rewrite <- app_assoc.
      pose proof (W_paren _ _ Wa its rest S H) as K. cbn [app] in K. rewrite <- !app_assoc in *. exact K.
    + cbn [begins_with_null]. destruct ts as [|t ts]; [|exact Nu]. inversion P.
      * match goal with H : _ ++ _ = [] |- _ => apply app_eq_nil in H; destruct H; discriminate end.
  - intros x op e G Io _ (ts & P & Wt & D & Nu & _). unfold Q_expr. rewrite pe_unary. exists ((TK_LPAR, chars "(") :: (op :: ts) ++ [(TK_RPAR, chars ")")]).
    assert (Ge : expression true 1 (op :: ts) (Unary op e)).
    { destruct (tk_eqb (fst op) (kw "NOT")) eqn:E.
      - apply tk_eqb_eq in E. destruct op as [T s]. cbn in E. subst T. apply (top_level 3); [lia|]. apply g_not. apply any_level; [lia|exact P].
      - apply (top_level 8); [lia|]. apply g_sign; [|apply g_primary; exact P]. now apply sign_cases. }
    split; [now constructor|]. split; [|split; [eexists _, _; split; [reflexivity|discriminate]|split; [discriminate|eexists _, _, _; split; [reflexivity|exact Ge]]]].
    destruct (tk_eqb (fst op) (kw "NOT")) eqn:E.
    + apply tk_eqb_eq in E. pose proof (not_text op G E) as Et. destruct op as [T s]. cbn in E, Et. subst T s.
      pose proof (W_paren _ _ (W_then _ _ _ _ (W_kw "NOT" eq_refl) Wt)) as K. cbn [app snd] in K |- *. rewrite <- !app_assoc in K. exact K.
    + intros its rest S H. cbn [app]. rewrite <- !app_assoc. cbn [app]. apply w_open. apply w_op; [exact G| |now apply no_dash_app|].
      * now apply sign_cases.
      * apply Wt; [now apply safe_app|]. now apply w_close.
  - intros x op e1 e2 G Io _ (ts1 & P1 & W1 & D1 & _) _ (ts2 & P2 & W2 & D2 & _). unfold Q_expr. rewrite pe_binary. exists ((TK_LPAR, chars "(") :: (ts1 ++ op :: ts2) ++ [(TK_RPAR, chars ")")]).
    assert (Ge : expression true 1 (ts1 ++ op :: ts2) (Binary op e1 e2)).
    { apply in_map_iff in Io. destruct Io as ([l T] & E & Io). cbn in E. subst T. destruct (op_facts _ _ Io) as (_ & L & _). apply (top_level l); [lia|].
      apply g_binary; [exact Io| |]; apply any_level; try lia; assumption. }
    split; [now constructor|]. split; [|split; [eexists _, _; split; [reflexivity|discriminate]|split; [discriminate|eexists _, _, _; split; [reflexivity|exact Ge]]]].
    assert (No : fst op <> TK_INSTRUCTION) by (intros E; rewrite E in Io; cbn in Io; intuition discriminate).
    pose proof (W_paren _ _ (W_then _ _ _ _ W1 (W_then _ _ _ _ (W_good _ G No) W2))) as K. cbn [app snd] in K |- *. rewrite <- !app_assoc in K. rewrite <- !app_assoc. exact K.
  - intros q _ (ts & S & Wt). unfold Q_expr. rewrite pe_query. exists ((TK_LPAR, chars "(") :: ts ++ [(TK_RPAR, chars ")")]). split; [now constructor|]. split; [now apply W_paren|].
    split; [eexists _, _; split; [reflexivity|discriminate]|split; [discriminate|exact I]].
  - intros x. now left.
  - intros x e l _ (ts & P & Wt & _) _ Ql. right.
    apply (W_list _ (expressions true) (fun ts e => expression true 1 ts e) (pe x)) with (ts := ts); try assumption.
    + intros. now constructor.
    + intros. now constructor.
    + apply any_level; [lia|exact P].
  - intros x all its from wh gr ha ord lim Hall _ Qi _ (tf & Gf & Vf) _ [(tw & Gw & Vw) _] _ (tg & Gg & Vg) _ [_ (th & Gh & Vh)] _ (to & Go & Vo) Hl.
    unfold Q_select. rewrite ps_select.
    assert (A : exists t0, select_list true t0 all its /\ W t0 (commas (match all with Some _ => [chars "*"] | None => [] end ++ map (print_item x) its))).
    { destruct Qi as [->|(ti & Gi & Wi)].
      - destruct Hall as [[_ N]|(s & -> & ->)]; [now destruct N|]. exists [(TK_ASTERISK, chars "*")]. split; [constructor|]. cbn [map app]. rewrite commas_one.
        apply (W_good (TK_ASTERISK, chars "*")); [|discriminate]. split; [apply lex_punctuator; cbn; tauto|cbn; intuition discriminate].
      - destruct Hall as [[-> N]|(s & -> & ->)].
        + exists ti. split; [now constructor|exact Wi].
        + destruct its as [|i its]; [inversion Gi|]. exists ((TK_ASTERISK, chars "*") :: (TK_COMMA, chars ",") :: ti). split; [now constructor|]. cbn [map app]. rewrite commas_cons.
          intros it rest S H. cbn [app]. rewrite <- !app_assoc. apply w_asterisk. apply w_comma. apply w_space. now apply Wi. }
    destruct A as (t0 & G0 & W0).
    assert (B : exists tl, limit_clause tl lim /\ V tl (t_limit lim)).
    { destruct lim as [[n o]|]; [|exists []; split; [constructor|exact V_nil]]. destruct (Hl n o eq_refl) as (Gn & In_ & Ho).
      assert (Ni : fst n <> TK_INSTRUCTION) by (intros E; rewrite E in In_; cbn in In_; intuition discriminate).
      destruct o as [o|].
      - destruct (Ho o eq_refl) as (Go' & Io). assert (Ni' : fst o <> TK_INSTRUCTION) by (intros E; rewrite E in Io; cbn in Io; intuition discriminate).
        exists [(kw "LIMIT", chars "LIMIT"); n; (kw "OFFSET", chars "OFFSET"); o]. split; [now constructor|]. apply V_line. unfold t_limit.
        exact (W_then _ _ _ _ (W_kw "LIMIT" eq_refl) (W_then _ _ _ _ (W_good n Gn Ni) (W_then _ _ _ _ (W_kw "OFFSET" eq_refl) (W_good o Go' Ni')))).
      - exists [(kw "LIMIT", chars "LIMIT"); n]. split; [now constructor|]. apply V_line. rewrite app_nil_r. exact (W_then _ _ _ _ (W_kw "LIMIT" eq_refl) (W_good n Gn Ni)). }
    destruct B as (tl & Gl & Vl). exists ((kw "SELECT", chars "SELECT") :: t0 ++ tf ++ tw ++ tg ++ th ++ to ++ tl). split; [now apply g_select|].
    pose proof (V_app _ _ _ _ Vf (V_app _ _ _ _ Vw (V_app _ _ _ _ Vg (V_app _ _ _ _ Vh (V_app _ _ _ _ Vo Vl))))) as Vall.
    intros it rest S H. cbn [app]. rewrite <- (app_assoc t0).
    assert (E : forall tail, (chars "SELECT" ++ chars " " ++ commas (match all with Some _ => [chars "*"] | None => [] end ++ map (print_item x) its) ++ tail) ++ rest =
      chars "SELECT" ++ chars " " ++ commas (match all with Some _ => [chars "*"] | None => [] end ++ map (print_item x) its) ++ tail ++ rest) by (intros tail; now rewrite <- !app_assoc).
    rewrite E. apply (W_kw "SELECT" eq_refl (t0 ++ _)); [now apply safe_app|]. apply w_space. apply W0; [exact (V_safe _ _ _ Vall S)|]. now apply Vall.
  - intros x. now left.
  - intros x e a l _ (ts & P & Wt & _) Ia _ Ql. right.
    destruct (W_alias ts (pe x e) a Wt Ia) as (ta & Ga & Wa).
    apply (W_list _ (items true) (fun ts i => exists t1 t2, ts = t1 ++ t2 /\ expression true 1 t1 (fst i) /\ alias t2 (snd i)) (print_item x)) with (ts := ts ++ ta); try assumption.
    + intros t [e' a'] (t1 & t2 & -> & E1 & E2). now constructor.
    + intros t [e' a'] ts' l' (t1 & t2 & -> & E1 & E2) Gl. rewrite <- app_assoc. now constructor.
    + exists ts, ta. split; [reflexivity|split; [apply any_level; [lia|exact P]|exact Ga]].
  - intros x. exists []. split; [constructor|exact V_nil].
  - intros x l N _ [->|(ts & G & Wt)]; [now destruct N|]. exists ((kw "FROM", chars "FROM") :: ts). split; [now constructor|]. apply V_line. exact (W_then _ _ _ _ (W_kw "FROM" eq_refl) Wt).
  - intros x. now left.
  - intros x s a l _ (ts & G & Wt) _ Ql. right.
    apply (W_list _ (sources true) (fun ts i => source_ true ts (fst i) (snd i)) (print_src x)) with (ts := ts); try assumption.
    + intros t [s' a'] G'. now constructor.
    + intros t [s' a'] ts' l' G' Gl. now constructor.
  - intros x t a It Ia. destruct (W_alias [t] (snd t) a (W_ident _ It) Ia) as (ta & Ga & Wa). exists ([t] ++ ta). destruct t as [T s]. pose proof It as [E _]. cbn in E. subst T.
    split; [now constructor|exact Wa].
  - intros x q a _ (ts & G & Wt) Ia. destruct (W_alias _ _ (Some a) (W_paren _ _ Wt) Ia) as (ta & Ga & Wa). exists ((TK_LPAR, chars "(") :: ts ++ (TK_RPAR, chars ")") :: ta).
    split; [now constructor|]. unfold print_src. cbn [fst snd]. rewrite psrc_sub. cbn [app] in Wa. rewrite <- app_assoc in Wa. exact Wa.
  - split; exists []; (split; [constructor|exact V_nil]).
  - intros e _ (ts & P & Wt & _). assert (E1 : expression true 1 ts e) by (apply any_level; [lia|exact P]).
    split; [exists ((kw "WHERE", chars "WHERE") :: ts); split; [now constructor|]; apply V_line; exact (W_then _ _ _ _ (W_kw "WHERE" eq_refl) Wt)|].
    exists ((kw "HAVING", chars "HAVING") :: ts); split; [now constructor|]; apply V_line; exact (W_then _ _ _ _ (W_kw "HAVING" eq_refl) Wt).
  - intros x. exists []. split; [constructor|exact V_nil].
  - intros x l N _ [->|(ts & G & Wt)]; [now destruct N|]. exists ((kw "GROUP", chars "GROUP") :: (kw "BY", chars "BY") :: ts). split; [now constructor|]. apply V_line.
    exact (W_then _ _ _ _ (W_kw "GROUP" eq_refl) (W_then _ _ _ _ (W_kw "BY" eq_refl) Wt)).
  - intros x. exists []. split; [constructor|exact V_nil].
  - intros x l N _ [->|(ts & G & Wt)]; [now destruct N|]. exists ((kw "ORDER", chars "ORDER") :: (kw "BY", chars "BY") :: ts). split; [now constructor|]. apply V_line.
    exact (W_then _ _ _ _ (W_kw "ORDER" eq_refl) (W_then _ _ _ _ (W_kw "BY" eq_refl) Wt)).
  - intros x. now left.
  - intros x e d l _ (ts & P & Wt & _) _ Ql. right.
    assert (A : exists td, direction td d /\ W (ts ++ td) (print_order x (e, d))).
    { unfold print_order. cbn [fst snd]. destruct d.
      - exists [(kw "ASC", chars "ASC")]. split; [constructor|]. exact (W_then _ _ _ _ Wt (W_kw "ASC" eq_refl)).
      - exists [(kw "DESC", chars "DESC")]. split; [constructor|]. exact (W_then _ _ _ _ Wt (W_kw "DESC" eq_refl)). }
    destruct A as (td & Gd & Wd).
    apply (W_list _ (orders true) (fun ts i => exists t1 t2, ts = t1 ++ t2 /\ expression true 1 t1 (fst i) /\ direction t2 (snd i)) (print_order x)) with (ts := ts ++ td); try assumption.
    + intros t [e' a'] (t1 & t2 & -> & E1 & E2). now constructor.
    + intros t [e' a'] ts' l' (t1 & t2 & -> & E1 & E2) Gl. rewrite <- app_assoc. now constructor.
    + exists ts, td. split; [reflexivity|split; [apply any_level; [lia|exact P]|exact Gd]].
Qed.
End Printed.
