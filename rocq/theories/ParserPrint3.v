(** * What the printer writes: statements *)
From Coq Require Import ZArith NArith String Ascii List Bool Lia.
From Verif Require Import Lexer LexerProps Parser ParserSpec ParserProofs ParserStmt ParserPrint ParserPrint2.
Import ListNotations.
Local Open Scope Z_scope.

(** ** Numbers *)
Lemma decimal_read : forall f n acc, (n < 10 ^ N.of_nat f)%N -> exists s, decimal_ f n acc = s ++ acc /\ numeral s n /\ Forall decdigit s /\
  ((0 < n)%N -> exists c r, s = c :: r /\ in_ "123456789" c).
Proof.
  assert (D : forall d, (d < 10)%N -> decdigit (48 + d)%N /\ ((0 < d)%N -> in_ "123456789" (48 + d)%N)).
  { intros d L. unfold decdigit, in_. cbn. assert (d = 0 \/ d = 1 \/ d = 2 \/ d = 3 \/ d = 4 \/ d = 5 \/ d = 6 \/ d = 7 \/ d = 8 \/ d = 9)%N by lia.
    repeat match goal with H : _ \/ _ |- _ => destruct H as [->|H] end; try subst d; cbn; (split; [tauto|intros Z; try (exfalso; lia); tauto]). }
  induction f as [|f IH]; intros n acc L.
  - cbn in L. assert (n = 0%N) as -> by lia. exists []. split; [reflexivity|]. split; [constructor|]. split; [constructor|]. intros Z. lia.
  - cbn [decimal_]. cbn zeta. pose proof (N.div_mod n 10 ltac:(discriminate)) as E. pose proof (N.mod_lt n 10 ltac:(discriminate)) as M.
    assert (Lq : (n / 10 < 10 ^ N.of_nat f)%N).
    { apply N.div_lt_upper_bound; [discriminate|]. rewrite Nat2N.inj_succ, N.pow_succ_r' in L. exact L. }
    destruct (n / 10 =? 0)%N eqn:Q.
    + apply N.eqb_eq in Q. rewrite Q, N.mul_0_r, N.add_0_l in E. rewrite <- E. rewrite <- E in M. exists [(48 + n)%N]. split; [reflexivity|].
      split; [exact (num_digit [] 0 n num_nil M)|]. split; [constructor; [now apply D|constructor]|]. intros Z. exists (48 + n)%N, []. split; [reflexivity|]. now apply D.
    + apply N.eqb_neq in Q. destruct (IH (n / 10)%N ((48 + n mod 10)%N :: acc) Lq) as (s & -> & Hn & Hd & Hc). exists (s ++ [48 + n mod 10]%N).
      split; [now rewrite <- app_assoc|]. split; [rewrite E at 2; now constructor|]. split; [apply Forall_app; split; [exact Hd|constructor; [now apply D|constructor]]|].
      intros _. destruct (Hc ltac:(revert Q; generalize (n / 10)%N; intros q Q; lia)) as (c & r & -> & Ic). exists c, (r ++ [48 + n mod 10]%N). split; [reflexivity|exact Ic].
Qed.
Lemma size_bound : forall n, (n < 10 ^ N.of_nat (S (N.size_nat n)))%N.
Proof.
  intros n. assert (E : (n < 2 ^ N.of_nat (N.size_nat n))%N).
  { destruct n as [|p]; [reflexivity|]. cbn [N.size_nat]. pose proof (Pos2Nat.is_pos (Pos.size p)). pose proof (N.size_gt (Npos p)) as G. cbn [N.size] in G.
    assert (P : N.of_nat (Pos.size_nat p) = Npos (Pos.size p)) by (clear; induction p as [p IH|p IH|]; cbn [Pos.size_nat Pos.size]; [| |reflexivity]; rewrite Nat2N.inj_succ, IH; reflexivity).
    now rewrite P. }
  rewrite Nat2N.inj_succ, N.pow_succ_r'. apply (N.lt_le_trans _ _ _ E).
  apply (N.le_trans _ (10 ^ N.of_nat (N.size_nat n))); [apply N.pow_le_mono_l; lia|]. generalize (10 ^ N.of_nat (N.size_nat n))%N. intros q. lia.
Qed.
Lemma decimal_good : forall n, p_size n -> good (TK_DEC_INT, decimal n) /\ size [(TK_DEC_INT, decimal n)] n.
Proof.
  intros n [P L]. destruct (decimal_read _ n [] (size_bound n)) as (s & E & Hn & Hd & Hc). unfold decimal. rewrite E, app_nil_r. split; [|now constructor].
  destruct (Hc P) as (c & r & -> & Ic). inversion Hd as [|c' r' D1 D2]; subst. split; cbn [fst snd]; [apply lex_number; now constructor|].
  intros Z. assert (K : forall x, In x (c :: r) -> decdigit x) by (apply Forall_forall; exact Hd). apply K in Z. revert Z. unfold decdigit, in_. cbn. intuition discriminate.
Qed.

(** ** Steps *)
Lemma w_kw : forall s its rest, existsb (fun k => if list_eq_dec N.eq_dec k (chars s) then true else false) keywords = true -> safe rest -> written its rest ->
  written ((kw s, chars s) :: its) (chars s ++ rest).
Proof. intros s its rest K S H. exact (W_kw s K its rest S H). Qed.
Lemma w_ident : forall s its rest, ident (TK_IDENTIFIER, s) -> safe rest -> written its rest -> written ((TK_IDENTIFIER, s) :: its) (s ++ rest).
Proof. intros s its rest K S H. exact (W_ident _ K its rest S H). Qed.
Lemma w_good : forall t its rest, good t -> fst t <> TK_INSTRUCTION -> safe rest -> written its rest -> written (t :: its) (snd t ++ rest).
Proof. intros t its rest G N S H. exact (W_good t G N its rest S H). Qed.
Lemma w_line : forall its rest, written its rest -> written its (10%N :: rest). Proof. exact w_newline. Qed.
Ltac sf := first [assumption | apply safe_app; reflexivity | apply safe_cons; reflexivity | idtac].
Ltac pl := repeat match goal with
  | |- written _ (chars " " ++ _) => apply w_space
  | |- written _ (10%N :: _) => apply w_line
  | |- written _ (chars "    " ++ _) => apply w_indent
  | |- written ((TK_KEYWORD (chars ?s), _) :: _) (chars ?s ++ _) => apply (w_kw s); [reflexivity|sf|]
  | |- written ((TK_LPAR, _) :: _) _ => apply w_open
  | |- written ((TK_RPAR, _) :: _) _ => apply w_close
  | |- written ((TK_COMMA, _) :: _) _ => apply w_comma
  | |- written ((TK_SEMICOL, _) :: _) _ => apply w_semicolon
  | |- written ((TK_EQUAL, _) :: _) _ => apply w_equal
  | |- written ((TK_IDENTIFIER, ?s) :: _) (?s ++ _) => apply w_ident; [assumption|sf|]
  | |- written [] [] => apply written_end, blank_end_blank, blank_nil
  end.
Ltac sh := cbn [app]; repeat ((rewrite <- app_assoc || rewrite app_nil_r); cbn [app]).
Ltac idt t := destruct t as [?T ?s]; match goal with H : ident (_, _) |- _ => let E := fresh in pose proof H as [E _]; cbn in E; subst end.

Lemma W_sep : forall A (item : list tok -> A -> Prop) (pr : A -> list N) ws, blank ws -> forall l, l <> [] ->
  Forall (fun a => exists ts, item ts a /\ W ts (pr a)) l -> exists ts, separated item ts l /\ W ts (sep_by (chars "," ++ ws) (map pr l)).
Proof.
  intros A item pr ws B l N F. induction F as [|a l (ts & I & Wt) F IH]; [now destruct N|]. destruct l as [|b l].
  - exists ts. split; [now constructor|]. cbn. now rewrite app_nil_r.
  - destruct (IH ltac:(discriminate)) as (ts' & S & W'). exists (ts ++ (TK_COMMA, chars ",") :: ts'). split; [now constructor|].
    assert (E : sep_by (chars "," ++ ws) (map pr (a :: b :: l)) = pr a ++ chars "," ++ ws ++ sep_by (chars "," ++ ws) (map pr (b :: l))) by (cbn [map sep_by concat]; now rewrite <- !app_assoc).
    rewrite E. intros its rest Sf H. rewrite <- !app_assoc. cbn [app]. apply Wt; [now apply safe_app|]. apply w_comma. apply w_blank; [exact B|]. now apply W'.
Qed.
Lemma W_idents : forall l, all_of ident l -> exists ts, separated identifier ts l /\ W ts (commas (map snd l)).
Proof.
  intros l [N F]. apply (W_sep tok identifier snd (chars " ")); [apply blank_space; [cbn; tauto|constructor]|exact N|]. revert F. apply Forall_impl.
  intros t It. exists [t]. pose proof (W_ident _ It). destruct t as [T s]. pose proof It as [E _]. cbn in E. subst T. split; [constructor|assumption].
Qed.
Section Stmts.
Variable al : Select -> list N.
Lemma expr_printed : forall e, p_expr false e -> exists ts, expression true 1 ts e /\ W ts (print_expr al false e) /\ (type_ ts = kw "NULL" -> begins_with_null e).
Proof. intros e P. destruct (proj1 (printed al) false e P) as (ts & G & Wt & _ & Nu & _). exists ts. split; [apply any_level; [lia|exact G]|auto]. Qed.
Lemma where_printed : forall w, p_where w -> exists ts, condition true (kw "WHERE") ts w /\ V ts (print_where al w).
Proof. intros w P. apply (printed al). exact P. Qed.

Lemma type_printed : forall t, p_type t -> exists ts, data_type ts t /\ W ts (print_type t).
Proof.
  assert (G : forall k (n : N), existsb (fun k' => if list_eq_dec N.eq_dec k' (chars k) then true else false) keywords = true -> p_size n ->
    W ((kw k, chars k) :: (TK_LPAR, chars "(") :: [(TK_DEC_INT, decimal n)] ++ [(TK_RPAR, chars ")")]) (chars k ++ chars "(" ++ decimal n ++ chars ")")).
  { intros k n K P its rest S H. sh. destruct (decimal_good n P) as [Gd _]. apply w_kw; [exact K|sf|]. pl. apply (w_good (TK_DEC_INT, decimal n)); [exact Gd|discriminate|sf|]. now pl. }
  intros t P. destruct t as [|n|n| | |n| | |p s]; cbn [p_type] in P; try (eexists; split; [constructor|]; now apply W_kw);
    try (eexists; split; [constructor; apply (decimal_good n P)|]).
  - now apply (G "CHAR"%string).
  - now apply (G "VARCHAR"%string).
  - now apply (G "INT"%string).
  - destruct P as [Pp Ps]. destruct (decimal_good p Pp) as [Gp Sp]. destruct (decimal_good s Ps) as [Gs Ss]. eexists. split; [apply ty_decimal_scale; eassumption|].
    intros its rest S H. cbn [print_type]. change (chars "DECIMAL(") with (chars "DECIMAL" ++ chars "("). change (chars ", ") with (chars "," ++ chars " "). sh. pl.
    apply (w_good (TK_DEC_INT, decimal p)); [exact Gp|discriminate|sf|]. pl. apply (w_good (TK_DEC_INT, decimal s)); [exact Gs|discriminate|sf|]. pl. exact H.
Qed.
Lemma constraint_printed : forall c, p_constraint c -> exists ts, constraint true ts c /\ W ts (print_constraint al c).
Proof.
  intros [| | |e|t a] P; cbn [p_constraint] in P.
  - eexists. split; [constructor|]. exact (W_then _ _ _ _ (W_kw "PRIMARY" eq_refl) (W_kw "KEY" eq_refl)).
  - eexists. split; [constructor|]. exact (W_then _ _ _ _ (W_kw "NOT" eq_refl) (W_kw "NULL" eq_refl)).
  - eexists. split; [constructor|]. exact (W_kw "UNIQUE" eq_refl).
  - destruct (expr_printed e P) as (ts & G & Wt & _). exists ((kw "CHECK", chars "CHECK") :: (TK_LPAR, chars "(") :: ts ++ [(TK_RPAR, chars ")")]). split; [now constructor|].
    exact (W_then _ _ _ _ (W_kw "CHECK" eq_refl) (W_paren _ _ Wt)).
  - destruct P as [It Ia]. idt t. idt a. eexists. split; [constructor|]. intros its rest S H. cbn [print_constraint snd].
    change (chars "REFERENCES ") with (chars "REFERENCES" ++ chars " "). sh. pl. exact H.
Qed.
Lemma constraints_printed : forall l, Forall p_constraint l -> exists ts, constraint_list true ts l /\
  forall its rest, safe rest -> written its rest -> written (ts ++ its) (concat (map (fun c => chars " " ++ print_constraint al c) l) ++ rest) /\
    safe (concat (map (fun c => chars " " ++ print_constraint al c) l) ++ rest).
Proof.
  intros l F. induction F as [|c l P F (ts & G & H)]; [exists []; split; [constructor|]; cbn; auto|]. destruct (constraint_printed c P) as (tc & Gc & Wc).
  exists (tc ++ ts). split; [now constructor|]. intros its rest S K. destruct (H its rest S K) as [H1 H2]. cbn [map concat]. rewrite <- !app_assoc. split; [|now apply safe_app].
  apply w_space. now apply Wc.
Qed.
Lemma W_indented : forall ts s, W ts s -> W ts ([10%N] ++ chars "    " ++ s).
Proof. intros ts s H its rest S K. rewrite <- !app_assoc. apply w_newline, w_indent. now apply H. Qed.

Theorem statement_printed : forall x s, p_stmt x s -> exists ts, command true ts s /\ written ts (print_stmt al x s).
Proof.
  intros x s P.
  assert (C : forall ts, statement_ true ts s -> written (ts ++ [(TK_SEMICOL, chars ";")]) (print_stmt al x s) -> exists ts, command true ts s /\ written ts (print_stmt al x s)).
  { intros ts G H. exists (ts ++ [(TK_SEMICOL, chars ";")]). split; [exact (cmd_statement true ts s _ G)|exact H]. }
  destruct P as [|n In_|n i In_|n In_|n l In_ Al|l i Al|u i n t m l Hn It Hm Al|l i Al|q Pq|t l It Al|t l w It Al Pw|t w It Pw|t p rows de ha sk It [Ep Gp] Hr Hd].
  - exists [(TK_SEMICOL, chars ";")]. split; [constructor|]. change (print_stmt al x EmptyStmt) with (chars ";" ++ []). pl.
  - idt n. eapply C; [constructor|]. cbn [print_stmt snd]. change (chars "CREATE DATABASE ") with (chars "CREATE" ++ chars " " ++ chars "DATABASE" ++ chars " "). change (chars ";") with (chars ";" ++ []). sh. pl.
  - idt n. destruct i.
    + eapply C; [apply s_drop_database; constructor|]. cbn [print_stmt snd]. change (chars "DROP DATABASE ") with (chars "DROP" ++ chars " " ++ chars "DATABASE" ++ chars " ").
      change (chars "IF EXISTS ") with (chars "IF" ++ chars " " ++ chars "EXISTS" ++ chars " "). change (chars ";") with (chars ";" ++ []). sh. pl.
    + eapply C; [apply s_drop_database; constructor|]. cbn [print_stmt snd]. change (chars "DROP DATABASE ") with (chars "DROP" ++ chars " " ++ chars "DATABASE" ++ chars " ").
      change (chars ";") with (chars ";" ++ []). sh. pl.
  - idt n. eapply C; [constructor|]. cbn [print_stmt snd]. change (chars "USE ") with (chars "USE" ++ chars " "). change (chars ";") with (chars ";" ++ []). sh. pl.
  - destruct Al as [N F]. idt n.
    destruct (W_sep _ (attribute_definition true) (fun a => [10%N] ++ chars "    " ++ snd (fst (fst a)) ++ chars " " ++ print_type (snd (fst a))
        ++ concat (map (fun c => chars " " ++ print_constraint al c) (snd a))) [] blank_nil l N) as (ts & G & Wt).
    { revert F. apply Forall_impl. intros [[a ty] cs] (Ia & Pt & Pc). cbn [fst snd] in *. destruct (type_printed ty Pt) as (tt & Gt & Wt). destruct (constraints_printed cs Pc) as (tc & Gc & Hc).
      idt a. exists ((TK_IDENTIFIER, s0) :: tt ++ tc). split; [now constructor|]. apply W_indented. intros its rest S H. cbn [snd]. sh. destruct (Hc its rest S H) as [H1 H2]. pl. now apply Wt. }
    rewrite app_nil_r in Wt. eapply C; [apply s_create_table; exact G|]. cbn [print_stmt snd].
    change (chars "CREATE TABLE ") with (chars "CREATE" ++ chars " " ++ chars "TABLE" ++ chars " "). change (chars ");") with (chars ")" ++ chars ";" ++ []). sh. pl.
    apply Wt; [now apply safe_cons|]. pl.
  - destruct (W_idents l Al) as (ts & G & Wt). destruct i.
    + eapply C; [apply s_drop_table; [constructor|exact G]|]. cbn [print_stmt]. change (chars "DROP TABLE ") with (chars "DROP" ++ chars " " ++ chars "TABLE" ++ chars " ").
      change (chars "IF EXISTS ") with (chars "IF" ++ chars " " ++ chars "EXISTS" ++ chars " "). change (chars ";") with (chars ";" ++ []). sh. pl. apply Wt; [sf|]. pl.
    + eapply C; [apply s_drop_table; [constructor|exact G]|]. cbn [print_stmt]. change (chars "DROP TABLE ") with (chars "DROP" ++ chars " " ++ chars "TABLE" ++ chars " ").
      change (chars ";") with (chars ";" ++ []). sh. pl. apply Wt; [sf|]. pl.
  - destruct Al as [N F].
    destruct (W_sep _ (key_field_ true) (fun k => [10%N] ++ chars "    " ++ print_expr al x k) [] blank_nil l N) as (ts & G & Wt).
    { revert F. apply Forall_impl. intros e [Pe Ke]. destruct (proj1 (printed al) x e Pe) as (te & Ge & We & _ & _ & Ie). destruct e as [[t'|] a|c|fn args|op e|op e1 e2|q]; try contradiction.
      - exists [a]. split; [|apply W_indented; inversion Pe; now apply W_ident]. inversion Pe as [x' a' Ia| | | | | |]; subst. idt a. constructor.
      - destruct Ie as (ti & lp & rp & -> & Gi). exists ((TK_LPAR, lp) :: ti ++ [(TK_RPAR, rp)]). split; [now constructor|now apply W_indented].
      - destruct Ie as (ti & lp & rp & -> & Gi). exists ((TK_LPAR, lp) :: ti ++ [(TK_RPAR, rp)]). split; [now constructor|now apply W_indented]. }
    rewrite app_nil_r in Wt. idt t.
    assert (A1 : exists tu, flag (kw "UNIQUE") tu u /\ forall its rest, written its rest -> written (tu ++ its) ((if u then chars "UNIQUE " else []) ++ rest)).
    { destruct u; eexists; (split; [constructor|]); intros its rest H; [|exact H]. change (chars "UNIQUE ") with (chars "UNIQUE" ++ chars " "). sh. pl. exact H. }
    assert (A2 : exists tn, index_name tn i n /\ forall its rest, written its rest ->
      written (tn ++ its) ((if i then chars "IF NOT EXISTS " else []) ++ match n with Some n => snd n ++ chars " " | None => [] end ++ rest)).
    { destruct Hn as [[-> ->]|(n' & -> & In')]; [exists []; split; [constructor|auto]|]. destruct n' as [T' s']. pose proof In' as [E _]. cbn in E. subst T'. destruct i; eexists; (split; [constructor|]); intros its rest H; cbn [snd].
      - change (chars "IF NOT EXISTS ") with (chars "IF" ++ chars " " ++ chars "NOT" ++ chars " " ++ chars "EXISTS" ++ chars " "). sh. pl. exact H.
      - sh. pl. exact H. }
    assert (A3 : exists tm, using_method tm m /\ forall its rest, written its (10%N :: rest) -> written (tm ++ its) (opt_text (chars " USING ") m ++ 10%N :: rest) /\ safe (opt_text (chars " USING ") m ++ 10%N :: rest)).
    { destruct m as [m|]; [|exists []; split; [constructor|]; intros its rest H; split; [exact H|now apply safe_cons]]. destruct (Hm m eq_refl) as [Gm Im].
      exists [(kw "USING", chars "USING"); m]. split; [now constructor|]. intros its rest H. cbn [opt_text]. change (chars " USING ") with (chars " " ++ chars "USING" ++ chars " "). sh. split; [|now apply safe_app].
      pl. apply w_good; [exact Gm| |now apply safe_cons|exact H]. intros E. rewrite E in Im. cbn in Im. intuition discriminate. }
    destruct A1 as (tu & G1 & H1). destruct A2 as (tn & G2 & H2). destruct A3 as (tm & G3 & H3).
    assert (K0 : written ((TK_LPAR, chars "(") :: ts ++ [(TK_RPAR, chars ")"); (TK_SEMICOL, chars ";")])
      (10%N :: chars "(" ++ sep_by (chars ",") (map (fun k => 10%N :: chars "    " ++ print_expr al x k) l) ++ 10%N :: chars ")" ++ chars ";" ++ [])).
    { pl. apply Wt; [now apply safe_cons|]. pl. }
    destruct (H3 _ _ K0) as [K1 K2].
    eapply C; [apply s_create_index; eassumption|]. cbn [print_stmt snd]. change (chars "CREATE ") with (chars "CREATE" ++ chars " "). change (chars "INDEX ") with (chars "INDEX" ++ chars " ").
    change (chars "ON ") with (chars "ON" ++ chars " "). change (chars ");") with (chars ")" ++ chars ";" ++ []). sh. pl. apply H1. pl. apply H2. pl.
    exact K1.
  - destruct (W_idents l Al) as (ts & G & Wt). destruct i.
    + eapply C; [apply s_drop_index; [constructor|exact G]|]. cbn [print_stmt]. change (chars "DROP INDEX ") with (chars "DROP" ++ chars " " ++ chars "INDEX" ++ chars " ").
      change (chars "IF EXISTS ") with (chars "IF" ++ chars " " ++ chars "EXISTS" ++ chars " "). change (chars ";") with (chars ";" ++ []). sh. pl. apply Wt; [sf|]. pl.
    + eapply C; [apply s_drop_index; [constructor|exact G]|]. cbn [print_stmt]. change (chars "DROP INDEX ") with (chars "DROP" ++ chars " " ++ chars "INDEX" ++ chars " ").
      change (chars ";") with (chars ";" ++ []). sh. pl. apply Wt; [sf|]. pl.
  - destruct (proj1 (proj2 (proj2 (printed al))) x q Pq) as (ts & G & Wt). eapply C; [constructor; exact G|]. cbn [print_stmt]. change (chars ";") with (chars ";" ++ []). apply Wt; [now apply safe_app|]. pl.
  - destruct Al as [N F]. idt t.
    destruct (W_sep _ (insert_tuple true) (fun vs => chars "(" ++ commas (map (print_value al) vs) ++ chars ")") ([10%N] ++ chars "    ")) with (l := l) as (ts & G & Wt); [|exact N| |].
    { repeat (apply blank_space; [cbn; tauto|]). constructor. }
    { revert F. apply Forall_impl. intros vs [Nv Fv].
      destruct (W_sep _ (insert_value true) (print_value al) (chars " ")) with (l := vs) as (ts & G & Wt); [apply blank_space; [cbn; tauto|constructor]|exact Nv| |].
      - revert Fv. apply Forall_impl. intros [| |e] Pv.
        + eexists. split; [constructor|now apply W_kw].
        + eexists. split; [constructor|now apply W_kw].
        + destruct Pv as [Pe Nn]. destruct (expr_printed e Pe) as (te & Ge & We & Nu). exists te. split; [|exact We]. constructor; [exact Ge|]. intros E. auto.
      - exists ((TK_LPAR, chars "(") :: ts ++ [(TK_RPAR, chars ")")]). split; [now constructor|]. now apply W_paren. }
    eapply C; [constructor; exact G|]. cbn [print_stmt snd]. change (chars "INSERT INTO ") with (chars "INSERT" ++ chars " " ++ chars "INTO" ++ chars " ").
    change (chars "," ++ [10%N] ++ chars "    ") with (chars "," ++ ([10%N] ++ chars "    ")). change (chars ";") with (chars ";" ++ []).
    remember (sep_by _ _) as tl eqn:El. sh. pl. subst tl. apply Wt; [sf|]. pl.
  - destruct Al as [N F]. idt t.
    destruct (W_sep _ (set_item true) (fun a => chars "    " ++ snd (fst a) ++ chars " = " ++ print_expr al false (snd a)) [10%N]) with (l := l) as (ts & G & Wt); [|exact N| |].
    { apply blank_space; [cbn; tauto|constructor]. }
    { revert F. apply Forall_impl. intros [a e] [Ia Pe]. cbn [fst snd] in *. idt a. destruct (expr_printed e Pe) as (te & Ge & We & _). eexists. split; [constructor; exact Ge|].
      intros its rest S H. cbn [snd]. change (chars " = ") with (chars " " ++ chars "=" ++ chars " "). sh. pl. now apply We. }
    destruct (where_printed w Pw) as (tw & Gw & Vw). eapply C; [constructor; eassumption|]. cbn [print_stmt snd]. change (chars "UPDATE ") with (chars "UPDATE" ++ chars " ").
    change (chars ";") with (chars ";" ++ []). remember (sep_by _ _) as tl eqn:El. sh. pl. subst tl. apply Wt; [apply (V_safe _ _ _ Vw); sf|]. apply Vw; [sf|]. pl.
  - idt t. destruct (where_printed w Pw) as (tw & Gw & Vw). eapply C; [constructor; eassumption|]. cbn [print_stmt snd]. change (chars "DELETE FROM ") with (chars "DELETE" ++ chars " " ++ chars "FROM" ++ chars " ").
    change (chars ";") with (chars ";" ++ []). sh. pl; [apply (V_safe _ _ _ Vw); sf|]. apply Vw; [sf|]. pl.
  - idt t. destruct p as [Tp sp]. cbn [fst] in Ep. subst Tp.
    assert (A1 : exists ts, rows_option ts rows /\ forall its rest, safe rest -> written its rest -> written (ts ++ its) (opt_text (chars " ROWS ") rows ++ rest) /\ safe (opt_text (chars " ROWS ") rows ++ rest)).
    { destruct rows as [r|]; [|exists []; split; [constructor|]; auto]. destruct (Hr r eq_refl) as [Gr Ir]. eexists. split; [constructor; exact Ir|]. intros its rest S H. cbn [opt_text].
      change (chars " ROWS ") with (chars " " ++ chars "ROWS" ++ chars " "). sh. split; [|now apply safe_app]. pl. apply w_good; [exact Gr| |exact S|exact H]. intros E. rewrite E in Ir. cbn in Ir. intuition discriminate. }
    assert (A2 : exists ts, string_option (kw "DELIMITER") ts de /\ forall its rest, safe rest -> written its rest ->
      written (ts ++ its) (opt_text (chars " DELIMITER ") de ++ rest) /\ safe (opt_text (chars " DELIMITER ") de ++ rest)).
    { destruct de as [r|]; [|exists []; split; [constructor|]; auto]. destruct Hd as [Er Gr]. destruct r as [Tr sr]. cbn [fst] in Er. subst Tr. eexists. split; [constructor|]. intros its rest S H. cbn [opt_text].
      change (chars " DELIMITER ") with (chars " " ++ chars "DELIMITER" ++ chars " "). sh. split; [|now apply safe_app]. pl. apply w_good; [exact Gr|discriminate|exact S|exact H]. }
    assert (A3 : exists ts, header_option (kw "HAS") ts ha /\ forall its rest, safe rest -> written its rest ->
      written (ts ++ its) ((if ha then chars " HAS HEADER" else []) ++ rest) /\ safe ((if ha then chars " HAS HEADER" else []) ++ rest)).
    { destruct ha; [|exists []; split; [constructor|]; auto]. eexists. split; [constructor|]. intros its rest S H.
      change (chars " HAS HEADER") with (chars " " ++ chars "HAS" ++ chars " " ++ chars "HEADER"). sh. split; [|now apply safe_app]. pl. exact H. }
    assert (A4 : exists ts, header_option (kw "SKIP") ts sk /\ forall its rest, safe rest -> written its rest ->
      written (ts ++ its) ((if sk then chars " SKIP HEADER" else []) ++ rest) /\ safe ((if sk then chars " SKIP HEADER" else []) ++ rest)).
    { destruct sk; [|exists []; split; [constructor|]; auto]. eexists. split; [constructor|]. intros its rest S H.
      change (chars " SKIP HEADER") with (chars " " ++ chars "SKIP" ++ chars " " ++ chars "HEADER"). sh. split; [|now apply safe_app]. pl. exact H. }
    destruct A1 as (t1 & G1 & H1). destruct A2 as (t2 & G2 & H2). destruct A3 as (t3 & G3 & H3). destruct A4 as (t4 & G4 & H4).
    eapply C; [apply s_import; [exact G1|exact G2|constructor|constructor|exact G3|exact G4]|]. cbn [print_stmt snd].
    change (chars "IMPORT INTO ") with (chars "IMPORT" ++ chars " " ++ chars "INTO" ++ chars " "). change (chars " DSV ") with (chars " " ++ chars "DSV" ++ chars " "). change (chars ";") with (chars ";" ++ []).
    sh. pl. assert (S0 : safe (chars ";" ++ [])) by sf. assert (W0 : written [(TK_SEMICOL, chars ";")] (chars ";" ++ [])) by pl.
    destruct (H4 _ _ S0 W0) as [W1 S1]. destruct (H3 _ _ S1 W1) as [W2 S2]. destruct (H2 _ _ S2 W2) as [W3 S3]. destruct (H1 _ _ S3 W3) as [W4 S4].
    apply (w_good (TK_STRING_LITERAL, sp)); [exact Gp|discriminate|exact S4|exact W4].
Qed.
End Stmts.
