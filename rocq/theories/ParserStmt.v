(** * The parser reads every statement of the grammar *)
From Coq Require Import ZArith NArith String Ascii List Bool Lia.
From Verif Require Import Lexer Parser ParserSpec ParserProofs.
Import ListNotations.
Local Open Scope Z_scope.

Local Ltac len := do 6 (rewrite ?app_length in *; cbn [length] in *); try lia.
Ltac tks := repeat match goal with |- context [tk_eqb ?a ?b] => let r := eval vm_compute in (tk_eqb a b) in change (tk_eqb a b) with r end; cbn [orb andb negb].

Lemma expr_reads : forall l ts e, expression true l ts e -> reads_expr l ts e. Proof. apply parser_complete. Qed.
Lemma select_reads : forall ts q, select_statement true ts q -> P_select ts q. Proof. apply parser_complete. Qed.
Lemma cond_reads : forall K ts o, condition true K ts o -> P_condition K ts o. Proof. apply parser_complete. Qed.

Lemma sep_complete : forall A (item : list tok -> A -> Prop) (p : list tok -> res A) (n : nat) (test : tk -> bool), test TK_COMMA = true ->
  (forall ts a, item ts a -> (1 <= length ts)%nat) ->
  (forall ts a rest, item ts a -> (length ts <= n)%nat -> test (type_ rest) = true -> p (ts ++ rest) = Ok a rest) ->
  forall ts l, separated item ts l -> forall rest f, (length ts <= n)%nat -> (length ts <= f)%nat -> test (type_ rest) = true -> is_ TK_COMMA rest = false -> is_ TK_ERROR rest = false ->
  sep_list p f (ts ++ rest) = Ok l rest.
Proof.
  intros A item p n test TC Ln It ts l S. induction S as [ts a I|ts a c ts' l I S IH]; intros rest f N F T C E.
  - pose proof (Ln _ _ I). apply sep_one; [lia|now apply It|exact C|exact E].
  - rewrite app_cons. eapply sep_more; [len|apply It; [exact I|len|exact TC]|]. apply IH; [len|len|exact T|exact C|exact E].
Qed.
Lemma separated_length : forall A (item : list tok -> A -> Prop), (forall ts a, item ts a -> (1 <= length ts)%nat) -> forall ts l, separated item ts l -> (1 <= length ts)%nat.
Proof. intros A item Ln ts l S. destruct S as [ts a I|ts a c ts' l I S]; [exact (Ln _ _ I)|len]. Qed.

Lemma numeral_strtoul : forall s n, numeral s n -> (n < 2 ^ 64)%N -> strtoul s = Some n.
Proof.
  intros s n H L. unfold strtoul.
  assert (E : fold_left (fun v c => v * 10 + (c - 48))%N s 0%N = n).
  { clear L. induction H as [|s n d H IH D]; [reflexivity|]. rewrite fold_left_app, IH. cbn [fold_left]. lia. }
  rewrite E. apply N.ltb_lt in L. rewrite L. reflexivity.
Qed.
Lemma size_read : forall ts n k rest r, size ts n ->
  (let* a, ts := expect TK_DEC_INT (ts ++ (TK_RPAR, r) :: rest) in let* b, ts := expect TK_RPAR ts in size_of_type a ts k) = Ok (k n) rest.
Proof.
  intros ts n k rest r [s n' H L]. cbn [app]. rewrite expect_hd. cbn [bind]. rewrite expect_hd. cbn [bind]. unfold size_of_type. cbn [snd]. now rewrite (numeral_strtoul s n').
Qed.
Lemma data_type_read : forall ts ty rest, data_type ts ty -> parse_data_type (ts ++ rest) = Ok ty rest.
Proof.
  intros ts ty rest D.
  destruct D as [k|k l ts n r S|k l ts n r S|k|k|k l ts n r S|k|k|k l ts n r S|k l ts n c ts' n' r S S']; unfold parse_data_type; cbn [app]; rewrite type_cons; cbn [fst consume List.tl]; tks;
    try reflexivity; try (rewrite expect_hd; cbn [bind]; rewrite app_cons; now apply size_read).
  - rewrite expect_hd. cbn [bind]. destruct S as [s n H L]. cbn [app]. rewrite expect_hd. cbn [bind]. rewrite accept_no by reflexivity. cbn [bind].
    rewrite expect_hd. cbn [bind snd]. now rewrite (numeral_strtoul s n H L).
  - rewrite expect_hd. cbn [bind]. destruct S as [s n H L]. destruct S' as [s' n' H' L']. cbn [app]. rewrite expect_hd. cbn [bind]. rewrite accept_hd. rewrite expect_hd. cbn [bind].
    rewrite expect_hd. cbn [bind snd]. now rewrite (numeral_strtoul s n H L), (numeral_strtoul s' n' H' L').
Qed.

Lemma constraint_step : forall ts c rest f, constraint true ts c -> (8 * length ts + 8 <= f)%nat ->
  constraints (S f) (ts ++ rest) = let* l, ts := constraints f rest in Ok (c :: l) ts.
Proof.
  intros ts c rest f C F. destruct C as [k k'|k k'|k|k l ts e r R|k t l a r]; cbn [constraints app]; rewrite type_cons; cbn [fst consume List.tl]; tks;
    rewrite ?expect_hd; cbn [bind]; rewrite ?expect_hd; cbn [bind]; rewrite ?expect_hd; cbn [bind]; rewrite ?expect_hd; cbn [bind]; try reflexivity.
  rewrite app_cons. cbn [app]. rewrite (reads_whole ts e _ f (expr_reads _ _ _ R)); [|reflexivity|len]. cbn [bind]. rewrite expect_hd. reflexivity.
Qed.
Lemma constraint_length : forall b ts c, constraint b ts c -> (1 <= length ts)%nat.
Proof. intros b ts c C. destruct C; cbn [length]; lia. Qed.
Definition endb (T : tk) : bool := tk_eqb T TK_COMMA || tk_eqb T TK_RPAR.
Lemma endb_cases : forall T, endb T = true -> T = TK_COMMA \/ T = TK_RPAR.
Proof. intros T H. apply orb_prop in H. rewrite !tk_eqb_eq in H. exact H. Qed.
Lemma constraints_read : forall ts cs, constraint_list true ts cs -> forall rest f, endb (type_ rest) = true -> (8 * length ts + 9 <= f)%nat ->
  constraints f (ts ++ rest) = Ok cs rest.
Proof.
  intros ts cs C. induction C as [|ts c ts' l Cc C IH]; intros rest [|f] E F; [len| |len|].
  - cbn [constraints app]. apply endb_cases in E. destruct E as [->| ->]; tks; reflexivity.
  - rewrite <- app_assoc. pose proof (constraint_length _ _ _ Cc). rewrite (constraint_step ts c (ts' ++ rest) f Cc) by len. rewrite IH; [reflexivity|exact E|len].
Qed.
Lemma attribute_read : forall ts a rest f, attribute_definition true ts a -> endb (type_ rest) = true -> (8 * length ts + 8 <= f)%nat -> attribute f (ts ++ rest) = Ok a rest.
Proof.
  intros ts a rest f A E F. destruct A as [s ts ty ts' cs D C]. unfold attribute. cbn [app]. rewrite expect_hd. cbn [bind]. rewrite <- app_assoc. rewrite (data_type_read ts ty _ D).
  cbn [bind]. rewrite (constraints_read ts' cs C); [reflexivity|exact E|]. len.
Qed.
Lemma key_read : forall ts e rest f, key_field_ true ts e -> okb 0 (type_ rest) = true -> (8 * length ts + 8 <= f)%nat -> key_field f (ts ++ rest) = Ok e rest.
Proof.
  intros ts e rest f K O F. destruct K as [s|l ts e r R|l ts e Q R]; [reflexivity| |discriminate].
  unfold key_field. cbn [app]. rewrite type_cons. cbn [fst].
  change ((TK_LPAR, l) :: (ts ++ [(TK_RPAR, r)]) ++ rest) with (((TK_LPAR, l) :: ts ++ [(TK_RPAR, r)]) ++ rest).
  apply reads_whole; [|exact O|lia]. apply expr_reads. do 7 (apply g_higher; [lia|]). apply g_primary. now apply g_paren.
Qed.
Lemma value_read : forall ts v rest f, insert_value true ts v -> okb 0 (type_ rest) = true -> (8 * length ts + 8 <= f)%nat -> value f (ts ++ rest) = Ok v rest.
Proof.
  intros ts v rest f V O F. destruct V as [k|k|ts e R N]; [reflexivity|reflexivity|]. unfold value. pose proof (expr_reads _ _ _ R) as X. pose proof (proj1 X) as St.
  rewrite (start_neq (kw "DEFAULT") ts rest St) by reflexivity.
  assert (E : is_ (kw "NULL") (ts ++ rest) = false).
  { destruct St as (t & r & -> & _). cbn [app]. unfold is_. rewrite type_cons in *. now apply tk_eqb_neq. }
  rewrite E. rewrite (reads_whole ts e rest f X); [reflexivity|exact O|lia].
Qed.
Lemma expr_length : forall l ts e, expression true l ts e -> (1 <= length ts)%nat.
Proof. intros l ts e H. exact (start_length _ (proj1 (expr_reads _ _ _ H))). Qed.
Lemma value_length : forall ts v, insert_value true ts v -> (1 <= length ts)%nat.
Proof. intros ts v [k|k|ts' e R N]; cbn [length]; try lia. exact (expr_length _ _ _ R). Qed.
Lemma tuple_read : forall ts vs rest f, insert_tuple true ts vs -> (8 * length ts + 8 <= f)%nat -> tuple f (ts ++ rest) = Ok vs rest.
Proof.
  intros ts vs rest f T F. destruct T as [l ts vs r S]. unfold tuple. cbn [app]. rewrite expect_hd. cbn [bind]. rewrite app_cons. cbn [app].
  rewrite (sep_complete _ (insert_value true) (value f) (length ts) (okb 0) eq_refl value_length) with (l := vs);
    [|intros; apply value_read; [assumption|assumption|len]|exact S|lia|len|reflexivity|reflexivity|reflexivity].
  cbn [bind]. rewrite expect_hd. reflexivity.
Qed.
Lemma set_read : forall ts a rest f, set_item true ts a -> okb 0 (type_ rest) = true -> (8 * length ts + 8 <= f)%nat -> assignment f (ts ++ rest) = Ok a rest.
Proof.
  intros ts a rest f S O F. destruct S as [s q ts e R]. unfold assignment. cbn [app]. rewrite expect_hd. cbn [bind]. rewrite expect_hd. cbn [bind].
  rewrite (reads_whole ts e rest f (expr_reads _ _ _ R)); [reflexivity|exact O|len].
Qed.
Lemma identifier_length : forall ts t, identifier ts t -> (1 <= length ts)%nat. Proof. intros ts t []. cbn. lia. Qed.
Lemma identifiers_read : forall ts ns rest f, separated identifier ts ns -> (length ts <= f)%nat -> is_ TK_COMMA rest = false -> is_ TK_ERROR rest = false ->
  sep_list (expect TK_IDENTIFIER) f (ts ++ rest) = Ok ns rest.
Proof.
  intros ts ns rest f S F C E. apply (sep_complete _ identifier _ (length ts) (fun _ => true) eq_refl identifier_length); auto.
  intros ts' a rest' [s] _ _. cbn [app]. apply expect_hd.
Qed.
Lemma exists_read : forall ts i rest, exists_flag ts i -> type_ rest = TK_IDENTIFIER -> if_exists (ts ++ rest) = Ok i rest.
Proof.
  intros ts i rest [|k k'] T; unfold if_exists; cbn [app].
  - rewrite accept_no; [reflexivity|unfold is_; rewrite T; reflexivity|unfold is_; rewrite T; reflexivity].
  - rewrite accept_hd, expect_hd. reflexivity.
Qed.
Lemma identifiers_head : forall ts ns rest, separated identifier ts ns -> type_ (ts ++ rest) = TK_IDENTIFIER.
Proof. intros ts ns rest [ts' a [s]|ts' a c ts'' l [s] S]; reflexivity. Qed.

Lemma string_read : forall T ts o rest, string_option T ts o -> noneof [T; TK_ERROR] (type_ rest) = true -> opt_string T (ts ++ rest) = Ok o rest.
Proof.
  intros T ts o rest [|k s] N; unfold opt_string; cbn [app].
  - rewrite accept_no; [reflexivity|nn N|nn N].
  - rewrite accept_hd, expect_hd. reflexivity.
Qed.
Lemma header_read : forall T ts o rest, header_option T ts o -> noneof [T; TK_ERROR] (type_ rest) = true -> opt_header T (ts ++ rest) = Ok o rest.
Proof.
  intros T ts o rest [|k s] N; unfold opt_header; cbn [app].
  - rewrite accept_no; [reflexivity|nn N|nn N].
  - rewrite accept_hd, expect_hd. reflexivity.
Qed.
Lemma key_length : forall ts v, key_field_ true ts v -> (1 <= length ts)%nat.
Proof. intros ts v [s|l ts' e r R|l ts' e r R]; cbn [length]; lia. Qed.
Lemma attribute_length : forall ts v, attribute_definition true ts v -> (1 <= length ts)%nat.
Proof. intros ts v []. cbn [length]; lia. Qed.
Lemma tuple_length : forall ts v, insert_tuple true ts v -> (1 <= length ts)%nat.
Proof. intros ts v []. cbn [length]; lia. Qed.
Lemma set_length : forall ts v, set_item true ts v -> (1 <= length ts)%nat.
Proof. intros ts v []. cbn [length]; lia. Qed.

(** The optional parts of IMPORT. *)
Definition import_tail (k : nat) : list tk := skipn k [kw "ROWS"; kw "DELIMITER"; kw "ESCAPE"; kw "QUOTE"; kw "HAS"; kw "SKIP"] ++ [TK_SEMICOL].
Lemma import_step : forall k K ts rest, nth_error [kw "ROWS"; kw "DELIMITER"; kw "ESCAPE"; kw "QUOTE"; kw "HAS"; kw "SKIP"] k = Some K ->
  (ts = [] \/ exists s ts', ts = (K, s) :: ts') -> In (type_ rest) (import_tail (S k)) -> In (type_ (ts ++ rest)) (import_tail k).
Proof.
  intros n K ts rest E [->|(s & ts' & ->)] I.
  - cbn [app]. do 6 (destruct n as [|n]; [unfold import_tail in *; cbn [skipn app In] in *; tauto|]). destruct n; discriminate.
  - cbn [app]. rewrite type_cons. cbn [fst]. do 6 (destruct n as [|n]; [injection E as <-; left; reflexivity|]). destruct n; discriminate.
Qed.
Lemma import_none : forall k K ts, In (type_ ts) (import_tail (S k)) -> nth_error [kw "ROWS"; kw "DELIMITER"; kw "ESCAPE"; kw "QUOTE"; kw "HAS"; kw "SKIP"] k = Some K ->
  noneof [K; TK_ERROR] (type_ ts) = true.
Proof.
  intros k K ts I E. refine (proj1 (forallb_forall (noneof [K; TK_ERROR]) (import_tail (S k))) _ _ I).
  do 6 (destruct k as [|k]; [injection E as <-; reflexivity|]). destruct k; discriminate.
Qed.

Local Opaque strtoul.
Theorem statement_complete : forall ts st s rest f, statement_ true ts st -> (8 * length ts + 16 <= f)%nat ->
  statement f (ts ++ (TK_SEMICOL, s) :: rest) = Ok st ((TK_SEMICOL, s) :: rest).
Proof.
  intros ts st s rest f S F.
  destruct S as [k k' n|k k' ts i n X|k n|k k' n l ts attrs r X|k k' ts i ts' ns X Y|k tu u k' tn i n k'' t tm m l ts keys r U Nm Us X|k k' ts i ts' ns X Y|ts q Q
                |k k' n k'' ts tuples X|k n k' ts set tw w X W|k k' n tw w W|k k' n k'' path t1 rows t2 delimiter t3 escape t4 quote t5 has t6 skip X1 X2 X3 X4 X5 X6].
  - reflexivity.
  - unfold statement. cbn [app consume List.tl]. rewrite !type_cons. cbn [fst]. tks. rewrite app_cons. cbn [app]. rewrite (exists_read ts i _ X) by reflexivity. cbn [bind]. rewrite expect_hd. reflexivity.
  - reflexivity.
  - unfold statement. cbn [app consume List.tl]. rewrite !type_cons. cbn [fst]. tks. rewrite expect_hd. cbn [bind]. rewrite expect_hd. cbn [bind]. rewrite app_cons. cbn [app].
    rewrite (sep_complete _ (attribute_definition true) (attribute f) (length ts) endb eq_refl attribute_length) with (l := attrs);
      [|intros; apply attribute_read; [assumption|assumption|len]|exact X|lia|len|reflexivity|reflexivity|reflexivity].
    cbn [bind]. rewrite expect_hd. reflexivity.
  - unfold statement. cbn [app consume List.tl]. rewrite !type_cons. cbn [fst]. tks. rewrite <- app_assoc. rewrite (exists_read ts i _ X) by (now apply (identifiers_head _ ns)). cbn [bind].
    rewrite (identifiers_read ts' ns _ f Y); [reflexivity|len|reflexivity|reflexivity].
  - cbn [app].
    replace ((tu ++ (kw "INDEX", k') :: tn ++ (kw "ON", k'') :: (TK_IDENTIFIER, t) :: tm ++ (TK_LPAR, l) :: ts ++ [(TK_RPAR, r)]) ++ (TK_SEMICOL, s) :: rest)
      with (tu ++ (kw "INDEX", k') :: tn ++ (kw "ON", k'') :: (TK_IDENTIFIER, t) :: tm ++ (TK_LPAR, l) :: ts ++ (TK_RPAR, r) :: (TK_SEMICOL, s) :: rest)
      by (repeat (rewrite <- !app_assoc; cbn [app]); reflexivity).
    set (R0 := tn ++ (kw "ON", k'') :: (TK_IDENTIFIER, t) :: tm ++ (TK_LPAR, l) :: ts ++ (TK_RPAR, r) :: (TK_SEMICOL, s) :: rest).
    assert (E : parse_CreateIndexStmt f (tu ++ (kw "INDEX", k') :: R0) = Ok (CreateIndex u i n (TK_IDENTIFIER, t) m keys) ((TK_SEMICOL, s) :: rest)).
    { unfold parse_CreateIndexStmt.
      assert (E1 : is_ (kw "UNIQUE") (tu ++ (kw "INDEX", k') :: R0) = u /\ (if u then consume (tu ++ (kw "INDEX", k') :: R0) else tu ++ (kw "INDEX", k') :: R0) = (kw "INDEX", k') :: R0).
      { destruct U as [|ku]; cbn [app]; [split; reflexivity|split; [apply is_hd|reflexivity]]. }
      destruct E1 as [-> ->]. rewrite expect_hd. cbn [bind]. subst R0.
      match goal with |- context [accept (kw "IF") (tn ++ ?R)] => set (R1 := R) end.
      assert (E2 : match accept (kw "IF") (tn ++ R1) with
                | Some ts => let* k, ts := expect (kw "NOT") ts in let* k, ts := expect (kw "EXISTS") ts in
                             let* n, ts := expect TK_IDENTIFIER ts in Ok (true, Some n) ts
                | None => if is_ TK_IDENTIFIER (tn ++ R1) then Ok (false, Some (token_ (tn ++ R1))) (consume (tn ++ R1)) else Ok (false, None) (tn ++ R1)
                end = Ok (i, n) R1).
      { destruct Nm as [|ns|k1 k2 k3 ns]; cbn [app]; try reflexivity. }
      rewrite E2. cbn [bind fst snd]. unfold R1. clear E2 R1. rewrite expect_hd. cbn [bind]. rewrite expect_hd. cbn [bind].
      match goal with |- context [accept (kw "USING") (tm ++ ?R)] => set (R1 := R) end.
      assert (E2 : match accept (kw "USING") (tm ++ R1) with
                | Some ts => if is_ TK_IDENTIFIER ts || is_ (kw "DEFAULT") ts then Ok (Some (token_ ts)) (consume ts) else Bad
                | None => Ok None (tm ++ R1)
                end = Ok m R1).
      { destruct Us as [|k1 [T1 s1] I1]; cbn [app]; [reflexivity|]. rewrite accept_hd. unfold is_. rewrite type_cons. cbn [fst token_ consume List.tl] in *. destruct I1 as [<-|[<-|[]]]; reflexivity. }
      rewrite E2. cbn [bind]. unfold R1. clear E2 R1. rewrite expect_hd. cbn [bind].
      rewrite (sep_complete _ (key_field_ true) (key_field f) (length ts) (okb 0) eq_refl key_length) with (l := keys);
        [|intros; apply key_read; [assumption|assumption|len]|exact X|lia|len|reflexivity|reflexivity|reflexivity].
      cbn [bind]. rewrite expect_hd. reflexivity. }
    destruct U as [|ku]; cbn [app] in *; unfold statement; cbn [consume List.tl]; rewrite !type_cons; cbn [fst]; tks; exact E.
  - unfold statement. cbn [app consume List.tl]. rewrite !type_cons. cbn [fst]. tks. rewrite <- app_assoc. rewrite (exists_read ts i _ X) by (now apply (identifiers_head _ ns)). cbn [bind].
    rewrite (identifiers_read ts' ns _ f Y); [reflexivity|len|reflexivity|reflexivity].
  - destruct (select_reads _ _ Q) as [(k & ts' & E) R]. unfold statement. rewrite R; [|cbn; tauto|lia]. subst ts. cbn [app]. rewrite !type_cons. cbn [fst]. tks. reflexivity.
  - unfold statement. cbn [app consume List.tl]. rewrite !type_cons. cbn [fst]. tks. rewrite expect_hd. cbn [bind]. rewrite expect_hd. cbn [bind]. rewrite expect_hd. cbn [bind].
    rewrite (sep_complete _ (insert_tuple true) (tuple f) (length ts) (fun _ => true) eq_refl tuple_length) with (l := tuples);
      [reflexivity|intros; apply tuple_read; [assumption|len]|exact X|lia|len|reflexivity|reflexivity|reflexivity].
  - unfold statement. cbn [app consume List.tl]. rewrite !type_cons. cbn [fst]. tks. rewrite expect_hd. cbn [bind]. rewrite expect_hd. cbn [bind]. rewrite <- app_assoc.
    destruct (cond_reads _ _ _ W) as [Hw Rw].
    rewrite (sep_complete _ (set_item true) (assignment f) (length ts) (okb 0) eq_refl set_length) with (l := set);
      [|intros; apply set_read; [assumption|assumption|len]|exact X|lia|len|destruct Hw as [->|(k1 & t1 & ->)]; reflexivity..].
    cbn [bind]. unfold where_clause. change (clause (kw "WHERE") _ _) with (p_cond (kw "WHERE") f (tw ++ (TK_SEMICOL, s) :: rest)). rewrite Rw; [reflexivity|reflexivity|reflexivity|len].
  - unfold statement. cbn [app consume List.tl]. rewrite !type_cons. cbn [fst]. tks. rewrite expect_hd. cbn [bind]. rewrite expect_hd. cbn [bind].
    destruct (cond_reads _ _ _ W) as [Hw Rw]. unfold where_clause. change (clause (kw "WHERE") _ _) with (p_cond (kw "WHERE") f (tw ++ (TK_SEMICOL, s) :: rest)).
    rewrite Rw; [reflexivity|reflexivity|reflexivity|len].
  - unfold statement. cbn [app consume List.tl]. rewrite !type_cons. cbn [fst]. tks. unfold parse_ImportStmt. rewrite expect_hd. cbn [bind]. rewrite expect_hd. cbn [bind]. rewrite is_hd.
    cbn [consume List.tl]. rewrite expect_hd. cbn [bind]. rewrite <- !app_assoc.
    assert (I6 : In (type_ ((TK_SEMICOL, s) :: rest)) (import_tail 6)) by (cbn; tauto).
    assert (H6 : t6 = [] \/ exists a b, t6 = (kw "SKIP", a) :: b) by (destruct X6; eauto).
    assert (H5 : t5 = [] \/ exists a b, t5 = (kw "HAS", a) :: b) by (destruct X5; eauto).
    assert (H4 : t4 = [] \/ exists a b, t4 = (kw "QUOTE", a) :: b) by (destruct X4; eauto).
    assert (H3 : t3 = [] \/ exists a b, t3 = (kw "ESCAPE", a) :: b) by (destruct X3; eauto).
    assert (H2 : t2 = [] \/ exists a b, t2 = (kw "DELIMITER", a) :: b) by (destruct X2; eauto).
    pose proof (import_step 5 _ t6 _ eq_refl H6 I6) as I5. pose proof (import_step 4 _ t5 _ eq_refl H5 I5) as I4. pose proof (import_step 3 _ t4 _ eq_refl H4 I4) as I3.
    pose proof (import_step 2 _ t3 _ eq_refl H3 I3) as I2. pose proof (import_step 1 _ t2 _ eq_refl H2 I2) as I1.
    match goal with |- context [accept (kw "ROWS") (t1 ++ ?R)] => set (R1 := R) in * end.
    assert (E2 : match accept (kw "ROWS") (t1 ++ R1) with
                 | Some ts => if is_ TK_DEC_INT ts || is_ TK_OCT_INT ts then Ok (Some (token_ ts)) (consume ts) else Bad
                 | None => Ok None (t1 ++ R1) end = Ok rows R1).
    { destruct X1 as [|k1 [T1 s1] J]; cbn [app].
      - pose proof (import_none 0 _ R1 I1 eq_refl) as N. rewrite accept_no; [reflexivity|nn N|nn N].
      - rewrite accept_hd. unfold is_. rewrite type_cons. cbn [fst token_ consume List.tl] in *. destruct J as [<-|[<-|[]]]; reflexivity. }
    rewrite E2. cbn [bind]. subst R1.
    rewrite (string_read _ t2 delimiter _ X2 (import_none 1 _ _ I2 eq_refl)). cbn [bind].
    rewrite (string_read _ t3 escape _ X3 (import_none 2 _ _ I3 eq_refl)). cbn [bind].
    rewrite (string_read _ t4 quote _ X4 (import_none 3 _ _ I4 eq_refl)). cbn [bind].
    rewrite (header_read _ t5 has _ X5 (import_none 4 _ _ I5 eq_refl)). cbn [bind].
    rewrite (header_read _ t6 skip _ X6 (import_none 5 _ _ I6 eq_refl)). reflexivity.
Qed.

Theorem command_complete : forall ts st rest, command true ts st -> parse_Stmt (ts ++ rest) = Ok st rest.
Proof.
  intros ts st rest [s|ts' st' s H]; [reflexivity|]. rewrite <- app_assoc. cbn [app]. unfold parse_Stmt.
  assert (N : is_ TK_SEMICOL (ts' ++ (TK_SEMICOL, s) :: rest) = false).
  { destruct H; try reflexivity. destruct (select_reads _ _ H) as [(k & ts'' & ->) _]. reflexivity. }
  rewrite N. rewrite (statement_complete ts' st' s rest _ H) by len. cbn [bind]. rewrite expect_hd. reflexivity.
Qed.
