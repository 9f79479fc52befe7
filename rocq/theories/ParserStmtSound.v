(** * Every statement the parser accepts is in the grammar *)
From Coq Require Import ZArith NArith String Ascii List Bool Lia.
From Verif Require Import Lexer Parser ParserSpec ParserProofs ParserSound.
Import ListNotations.
Local Open Scope Z_scope.

Lemma expr_sound : forall f ts e rest, clean ts -> parse_Expr f 0 ts = Ok e rest -> exists pre, ts = pre ++ rest /\ expression false 1 pre e.
Proof. intros f. exact (S_expr_1 f (proj1 (parser_sound f))). Qed.
Lemma select_sound : forall f ts q rest, clean ts -> parse_SelectStmt f ts = Ok q rest -> exists pre, ts = pre ++ rest /\ select_statement false pre q.
Proof. intros f. apply parser_sound. Qed.

Ltac ex H C :=
  let x := fresh "x" in let t := fresh "ts" in let E := fresh "E" in let s := fresh "s" in
  apply bind_ok in H; destruct H as (x & t & E & H); apply expect_inv in E; [destruct E as (s & -> & ->)|exact C|discriminate];
  rename t into tz; apply clean_tl in C; cbn [consume List.tl] in C.
Ltac fin H := injection H as <- <-.

Lemma strtoul_sound : forall s n m, numeral s m -> strtoul s = Some n -> m = n /\ (n < 2 ^ 64)%N.
Proof.
  intros s n m H L. unfold strtoul in L.
  assert (E : fold_left (fun v c => v * 10 + (c - 48))%N s 0%N = m).
  { clear L. induction H as [|s m d H IH D]; [reflexivity|]. rewrite fold_left_app, IH. cbn [fold_left]. lia. }
  rewrite E in L. destruct (m <? 2 ^ 64)%N eqn:Q; [|discriminate]. injection L as <-. apply N.ltb_lt in Q. auto.
Qed.
Lemma size_sound : forall s ts n, clean ((TK_DEC_INT, s) :: ts) -> strtoul s = Some n -> size [(TK_DEC_INT, s)] n.
Proof.
  intros s ts n C H. inversion C as [|t r [_ D] _]. subst. destruct (D eq_refl) as (m & Hm). cbn [snd] in Hm. destruct (strtoul_sound s n m Hm H) as [-> L]. now constructor.
Qed.
Lemma sized_sound : forall k ts ty rest, clean ts ->
  (let* l, ts := expect TK_LPAR ts in let* n, ts := expect TK_DEC_INT ts in let* r, ts := expect TK_RPAR ts in size_of_type n ts k) = Ok ty rest ->
  exists l t n r, ts = (TK_LPAR, l) :: t ++ (TK_RPAR, r) :: rest /\ size t n /\ ty = k n.
Proof.
  intros k ts ty rest C H. ex H C. pose proof C as C1. ex H C1. ex H C1. unfold size_of_type in H. cbn [snd] in H. destruct (strtoul s0) as [n|] eqn:E; [|discriminate]. fin H.
  exists s, [(TK_DEC_INT, s0)], n, s1. split; [reflexivity|]. split; [exact (size_sound _ _ _ C E)|reflexivity].
Qed.
Lemma head_type : forall T ts, tk_eqb (type_ ts) T = true -> T <> TK_EOF -> exists s r, ts = (T, s) :: r.
Proof. intros T ts H N. exact (is_inv T ts H N). Qed.
Ltac kwd K k r := apply head_type in K; [destruct K as (k & r & ->)|discriminate]; cbn [consume List.tl] in *.
Lemma data_type_sound : forall ts ty rest, clean ts -> parse_data_type ts = Ok ty rest -> exists pre, ts = pre ++ rest /\ data_type pre ty.
Proof.
  intros ts ty rest C H. unfold parse_data_type in H. pose proof (clean_tl _ C) as C1.
  destruct (tk_eqb (type_ ts) (kw "BOOL")) eqn:K; [kwd K k r; fin H; exists [(kw "BOOL", k)]; split; [reflexivity|constructor]|clear K].
  destruct (tk_eqb (type_ ts) (kw "CHAR")) eqn:K; [kwd K k r; destruct (sized_sound _ _ _ _ C1 H) as (l & t & n & r' & -> & Sz & ->);
    exists ((kw "CHAR", k) :: (TK_LPAR, l) :: t ++ [(TK_RPAR, r')]); split; [cbn; now rewrite app_cons|now constructor]|clear K].
  destruct (tk_eqb (type_ ts) (kw "VARCHAR")) eqn:K; [kwd K k r; destruct (sized_sound _ _ _ _ C1 H) as (l & t & n & r' & -> & Sz & ->);
    exists ((kw "VARCHAR", k) :: (TK_LPAR, l) :: t ++ [(TK_RPAR, r')]); split; [cbn; now rewrite app_cons|now constructor]|clear K].
  destruct (tk_eqb (type_ ts) (kw "DATE")) eqn:K; [kwd K k r; fin H; exists [(kw "DATE", k)]; split; [reflexivity|constructor]|clear K].
  destruct (tk_eqb (type_ ts) (kw "DATETIME")) eqn:K; [kwd K k r; fin H; exists [(kw "DATETIME", k)]; split; [reflexivity|constructor]|clear K].
  destruct (tk_eqb (type_ ts) (kw "INT")) eqn:K; [kwd K k r; destruct (sized_sound _ _ _ _ C1 H) as (l & t & n & r' & -> & Sz & ->);
    exists ((kw "INT", k) :: (TK_LPAR, l) :: t ++ [(TK_RPAR, r')]); split; [cbn; now rewrite app_cons|now constructor]|clear K].
  destruct (tk_eqb (type_ ts) (kw "FLOAT")) eqn:K; [kwd K k r; fin H; exists [(kw "FLOAT", k)]; split; [reflexivity|constructor]|clear K].
  destruct (tk_eqb (type_ ts) (kw "DOUBLE")) eqn:K; [kwd K k r; fin H; exists [(kw "DOUBLE", k)]; split; [reflexivity|constructor]|clear K].
  destruct (tk_eqb (type_ ts) (kw "DECIMAL")) eqn:K; [|discriminate]. kwd K k r.
  ex H C1. pose proof C1 as C2. ex H C2. inv_bind H sc ts3 E. destruct (accept TK_COMMA tz) as [ts4|] eqn:A.
  - inv_accept A c. apply clean_tl in C2. cbn [consume List.tl] in C2. pose proof C2 as C3. ex E C3. fin E. ex H C3. cbn [snd] in H.
    destruct (strtoul s0) as [n|] eqn:N1; [|discriminate]. destruct (strtoul s1) as [n'|] eqn:N2; [|discriminate]. fin H.
    exists ((kw "DECIMAL", k) :: (TK_LPAR, s) :: [(TK_DEC_INT, s0)] ++ (TK_COMMA, c) :: [(TK_DEC_INT, s1)] ++ [(TK_RPAR, s2)]). split; [reflexivity|].
    apply ty_decimal_scale; [exact (size_sound _ _ _ C1 N1)|exact (size_sound _ _ _ C2 N2)].
  - fin E. ex H C2. cbn [snd] in H. destruct (strtoul s0) as [n|] eqn:N1; [|discriminate]. fin H.
    exists ((kw "DECIMAL", k) :: (TK_LPAR, s) :: [(TK_DEC_INT, s0)] ++ [(TK_RPAR, s1)]). split; [reflexivity|]. apply ty_decimal. exact (size_sound _ _ _ C1 N1).
Qed.
Lemma constraints_sound : forall f ts cs rest, clean ts -> constraints f ts = Ok cs rest -> exists pre, ts = pre ++ rest /\ constraint_list false pre cs.
Proof.
  induction f as [|f IH]; intros ts cs rest C H; [discriminate|]. cbn [constraints] in H. pose proof (clean_tl _ C) as C1.
  assert (G : forall pre c ts1, ts = pre ++ ts1 -> constraint false pre c -> (let* l, ts := constraints f ts1 in Ok (c :: l) ts) = Ok cs rest ->
    exists pre, ts = pre ++ rest /\ constraint_list false pre cs).
  { clear H. intros pre c ts1 -> Hc H. inv_bind H l ts2 E. fin H. destruct (IH _ _ _ (clean_app _ _ C) E) as (pre2 & -> & Hl). exists (pre ++ pre2). split; [now rewrite app_assoc|now constructor]. }
  inv_bind H c ts1 E.
  destruct (tk_eqb (type_ ts) (kw "PRIMARY")) eqn:K; [kwd K k r; ex E C1; fin E; exact (G [_; _] _ _ eq_refl ltac:(constructor) H)|clear K].
  destruct (tk_eqb (type_ ts) (kw "NOT")) eqn:K; [kwd K k r; ex E C1; fin E; exact (G [_; _] _ _ eq_refl ltac:(constructor) H)|clear K].
  destruct (tk_eqb (type_ ts) (kw "UNIQUE")) eqn:K; [kwd K k r; fin E; exact (G [_] _ _ eq_refl ltac:(constructor) H)|clear K].
  destruct (tk_eqb (type_ ts) (kw "CHECK")) eqn:K; [|clear K].
  { kwd K k r. ex E C1. inv_bind E e ts2 E2. destruct (expr_sound _ _ _ _ C1 E2) as (pre & -> & He). apply clean_app in C1. ex E C1. fin E.
    refine (G ((kw "CHECK", k) :: (TK_LPAR, s) :: pre ++ [(TK_RPAR, s0)]) (Check e) _ _ _ H); [cbn; now rewrite app_cons|now constructor]. }
  destruct (tk_eqb (type_ ts) (kw "REFERENCES")) eqn:K; [kwd K k r; ex E C1; ex E C1; ex E C1; ex E C1; fin E; refine (G [_; _; _; _; _] _ _ eq_refl _ H); constructor|clear K].
  fin E. fin H. exists []. split; [reflexivity|constructor].
Qed.
Lemma attribute_sound : forall f ts a rest, clean ts -> attribute f ts = Ok a rest -> exists pre, ts = pre ++ rest /\ attribute_definition false pre a.
Proof.
  intros f ts a rest C H. unfold attribute in H. ex H C. inv_bind H ty ts1 E1. destruct (data_type_sound _ _ _ C E1) as (pre & -> & D). apply clean_app in C.
  inv_bind H cs ts2 E2. destruct (constraints_sound _ _ _ _ C E2) as (pre2 & -> & Hc). fin H. exists ((TK_IDENTIFIER, s) :: pre ++ pre2). split; [cbn; now rewrite app_assoc|now constructor].
Qed.
Lemma key_sound : forall f ts e rest, clean ts -> key_field f ts = Ok e rest -> exists pre, ts = pre ++ rest /\ key_field_ false pre e.
Proof.
  intros f [|[T s] r] e rest C H; unfold key_field in H; [discriminate|]. rewrite type_cons in H. cbn [fst token_ consume List.tl] in H. destruct T; try discriminate.
  - fin H. exists [(TK_IDENTIFIER, s)]. split; [reflexivity|constructor].
  - destruct (expr_sound _ _ _ _ C H) as ([|t pre] & E & He).
    + exfalso. clear - He. remember (@nil tok) as z. assert (Z : forall b, (forall ts e, primary_expression b ts e -> ts <> []) /\ (forall ts a, arguments b ts a -> True) /\ (forall ts a, expressions b ts a -> True) /\
        (forall l ts e, expression b l ts e -> ts <> []) /\ (forall ts q, select_statement b ts q -> True) /\ (forall ts q l, select_list b ts q l -> True) /\ (forall ts l, items b ts l -> True) /\
        (forall ts l, from_clause b ts l -> True) /\ (forall ts l, sources b ts l -> True) /\ (forall ts l a, source_ b ts l a -> True) /\ (forall K ts l, condition b K ts l -> True) /\
        (forall ts l, group_by_clause b ts l -> True) /\ (forall ts l, order_by_clause b ts l -> True) /\ (forall ts l, orders b ts l -> True)).
      { intros b. apply (grammar_ind b (fun ts _ => ts <> []) (fun _ _ => True) (fun _ _ => True) (fun _ ts _ => ts <> [])); intros; try exact I; try discriminate; try assumption;
          try (intros Q; apply app_eq_nil in Q; destruct Q; discriminate). }
      apply (Z false) in He. contradiction.
    + injection E as <- ->. exists ((TK_LPAR, s) :: pre). split; [reflexivity|]. now apply key_any.
Qed.
Lemma value_sound : forall f ts v rest, clean ts -> value f ts = Ok v rest -> exists pre, ts = pre ++ rest /\ insert_value false pre v.
Proof.
  intros f ts v rest C H. unfold value in H. destruct (is_ (kw "DEFAULT") ts) eqn:K1; [inv_is K1 s r; fin H; exists [(kw "DEFAULT", s)]; split; [reflexivity|constructor]|].
  destruct (is_ (kw "NULL") ts) eqn:K2; [inv_is K2 s r; fin H; exists [(kw "NULL", s)]; split; [reflexivity|constructor]|].
  inv_bind H e ts1 E. fin H. destruct (expr_sound _ _ _ _ C E) as (pre & -> & He). exists pre. split; [reflexivity|]. apply v_expr; [exact He|].
  intros Q. destruct pre as [|t pre]; [discriminate Q|]. cbn [app] in K2. unfold is_ in K2. rewrite type_cons in *. rewrite Q, tk_eqb_refl in K2. discriminate.
Qed.
Lemma tuple_sound : forall f ts v rest, clean ts -> tuple f ts = Ok v rest -> exists pre, ts = pre ++ rest /\ insert_tuple false pre v.
Proof.
  intros f ts v rest C H. unfold tuple in H. ex H C. inv_bind H vs ts1 E. destruct (sep_sound _ _ _ (value_sound f) _ _ _ _ C E) as (pre & -> & Hv). apply clean_app in C. ex H C. fin H.
  exists ((TK_LPAR, s) :: pre ++ [(TK_RPAR, s0)]). split; [cbn; now rewrite app_cons|now constructor].
Qed.
Lemma set_sound : forall f ts v rest, clean ts -> assignment f ts = Ok v rest -> exists pre, ts = pre ++ rest /\ set_item false pre v.
Proof.
  intros f ts v rest C H. unfold assignment in H. ex H C. ex H C. inv_bind H e ts1 E. destruct (expr_sound _ _ _ _ C E) as (pre & -> & Hv). fin H.
  exists ((TK_IDENTIFIER, s) :: (TK_EQUAL, s0) :: pre). split; [reflexivity|now constructor].
Qed.
Lemma identifier_sound : forall ts t rest, clean ts -> expect TK_IDENTIFIER ts = Ok t rest -> exists pre, ts = pre ++ rest /\ identifier pre t.
Proof. intros ts t rest C H. inv_expect H s. exists [(TK_IDENTIFIER, s)]. split; [reflexivity|constructor]. Qed.
Lemma where_sound : forall f ts o rest, clean ts -> where_clause f ts = Ok o rest -> exists pre, ts = pre ++ rest /\ condition false (kw "WHERE") pre o.
Proof.
  intros f. unfold where_clause. apply clause_sound; [discriminate|constructor|]. intros s ts a rest C H. cbn [consume List.tl] in H. destruct (expr_sound _ _ _ _ C H) as (pre & -> & He).
  exists pre. split; [reflexivity|now constructor].
Qed.
Lemma exists_sound : forall ts i rest, clean ts -> if_exists ts = Ok i rest -> exists pre, ts = pre ++ rest /\ exists_flag pre i.
Proof.
  intros ts i rest C H. unfold if_exists in H. destruct (accept (kw "IF") ts) as [ts1|] eqn:A.
  - inv_accept A k. apply clean_tl in C. cbn [consume List.tl] in C. ex H C. fin H. exists [(kw "IF", k); (kw "EXISTS", s)]. split; [reflexivity|constructor].
  - fin H. exists []. split; [reflexivity|constructor].
Qed.
Lemma string_sound : forall T, T <> TK_EOF -> forall ts o rest, clean ts -> opt_string T ts = Ok o rest -> exists pre, ts = pre ++ rest /\ string_option T pre o.
Proof.
  intros T N ts o rest C H. unfold opt_string in H. destruct (accept T ts) as [ts1|] eqn:A.
  - apply accept_inv in A; [destruct A as (k & ->)|exact C|exact N]. apply clean_tl in C. cbn [consume List.tl] in C. ex H C. fin H.
    exists [(T, k); (TK_STRING_LITERAL, s)]. split; [reflexivity|constructor].
  - fin H. exists []. split; [reflexivity|constructor].
Qed.
Lemma header_sound : forall T, T <> TK_EOF -> forall ts o rest, clean ts -> opt_header T ts = Ok o rest -> exists pre, ts = pre ++ rest /\ header_option T pre o.
Proof.
  intros T N ts o rest C H. unfold opt_header in H. destruct (accept T ts) as [ts1|] eqn:A.
  - apply accept_inv in A; [destruct A as (k & ->)|exact C|exact N]. apply clean_tl in C. cbn [consume List.tl] in C. ex H C. fin H.
    exists [(T, k); (kw "HEADER", s)]. split; [reflexivity|constructor].
  - fin H. exists []. split; [reflexivity|constructor].
Qed.
Lemma import_sound : forall k ts st rest, clean ts -> parse_ImportStmt ts = Ok st rest -> exists pre, ts = pre ++ rest /\ statement_ false ((kw "IMPORT", k) :: pre) st.
Proof.
  intros k ts st rest C H. unfold parse_ImportStmt in H. ex H C. ex H C. destruct (is_ (kw "DSV") tz) eqn:K; [|discriminate]. inv_is K d r. cbn [consume List.tl] in H.
  apply clean_tl in C. cbn [consume List.tl] in C. ex H C. inv_bind H rows t1 E1.
  assert (A1 : exists pre, tz = pre ++ t1 /\ rows_option pre rows).
  { destruct (accept (kw "ROWS") tz) as [ts2|] eqn:A.
    - inv_accept A kr. apply clean_tl in C. cbn [consume List.tl] in C. destruct (is_ TK_DEC_INT ts2 || is_ TK_OCT_INT ts2) eqn:Q; [|discriminate]. fin E1.
      apply orb_prop in Q. destruct Q as [Q|Q]; inv_is Q sn rn; [exists [(kw "ROWS", kr); (TK_DEC_INT, sn)]|exists [(kw "ROWS", kr); (TK_OCT_INT, sn)]]; (split; [reflexivity|]);
        constructor; cbn; tauto.
    - fin E1. exists []. split; [reflexivity|constructor]. }
  destruct A1 as (p1 & -> & A1). apply clean_app in C.
  inv_bind H de t2 E2. apply string_sound in E2; [|discriminate|exact C]. destruct E2 as (p2 & -> & A2). apply clean_app in C.
  inv_bind H es t3 E3. apply string_sound in E3; [|discriminate|exact C]. destruct E3 as (p3 & -> & A3). apply clean_app in C.
  inv_bind H qu t4 E4. apply string_sound in E4; [|discriminate|exact C]. destruct E4 as (p4 & -> & A4). apply clean_app in C.
  inv_bind H ha t5 E5. apply header_sound in E5; [|discriminate|exact C]. destruct E5 as (p5 & -> & A5). apply clean_app in C.
  inv_bind H sk t6 E6. apply header_sound in E6; [|discriminate|exact C]. destruct E6 as (p6 & -> & A6). fin H.
  exists ((kw "INTO", s) :: (TK_IDENTIFIER, s0) :: (kw "DSV", d) :: (TK_STRING_LITERAL, s1) :: p1 ++ p2 ++ p3 ++ p4 ++ p5 ++ p6). split; [cbn; now rewrite <- !app_assoc|]. now apply s_import.
Qed.
Lemma create_index_sound : forall k f ts st rest, clean ts -> parse_CreateIndexStmt f ts = Ok st rest -> exists pre, ts = pre ++ rest /\ statement_ false ((kw "CREATE", k) :: pre) st.
Proof.
  intros k f ts st rest C H. unfold parse_CreateIndexStmt in H. cbn zeta in H.
  assert (A0 : exists p0, ts = p0 ++ (if is_ (kw "UNIQUE") ts then consume ts else ts) /\ flag (kw "UNIQUE") p0 (is_ (kw "UNIQUE") ts)).
  { destruct (is_ (kw "UNIQUE") ts) eqn:U; [inv_is U u r; exists [(kw "UNIQUE", u)]; split; [reflexivity|constructor]|exists []; split; [reflexivity|constructor]]. }
  destruct A0 as (p0 & E0 & A0). remember (is_ (kw "UNIQUE") ts) as u eqn:Hu. clear Hu. remember (if u then consume ts else ts) as ts0 eqn:Ht. clear Ht. subst ts. apply clean_app in C.
  ex H C. inv_bind H n t1 E1.
  assert (A1 : exists pre, tz = pre ++ t1 /\ index_name pre (fst n) (snd n)).
  { destruct (accept (kw "IF") tz) as [ts2|] eqn:A.
    - inv_accept A ki. apply clean_tl in C. cbn [consume List.tl] in C. ex E1 C. ex E1 C. ex E1 C. fin E1.
      exists [(kw "IF", ki); (kw "NOT", s0); (kw "EXISTS", s1); (TK_IDENTIFIER, s2)]. split; [reflexivity|constructor].
    - destruct (is_ TK_IDENTIFIER tz) eqn:Q; fin E1; [inv_is Q i r; exists [(TK_IDENTIFIER, i)]; split; [reflexivity|constructor]|exists []; split; [reflexivity|constructor]]. }
  destruct A1 as (p1 & -> & A1). apply clean_app in C. ex H C. ex H C. inv_bind H m t2 E2.
  assert (A2 : exists pre, tz = pre ++ t2 /\ using_method pre m).
  { destruct (accept (kw "USING") tz) as [ts2|] eqn:A.
    - inv_accept A ku. apply clean_tl in C. cbn [consume List.tl] in C. destruct (is_ TK_IDENTIFIER ts2 || is_ (kw "DEFAULT") ts2) eqn:Q; [|discriminate]. fin E2.
      apply orb_prop in Q. destruct Q as [Q|Q]; inv_is Q sn rn; [exists [(kw "USING", ku); (TK_IDENTIFIER, sn)]|exists [(kw "USING", ku); (kw "DEFAULT", sn)]]; (split; [reflexivity|]);
        constructor; cbn; tauto.
    - fin E2. exists []. split; [reflexivity|constructor]. }
  destruct A2 as (p2 & -> & A2). apply clean_app in C. ex H C. inv_bind H ks t3 E3. destruct (sep_sound _ _ _ (key_sound f) _ _ _ _ C E3) as (p3 & -> & A3). apply clean_app in C. ex H C. fin H.
  eexists (p0 ++ (kw "INDEX", s) :: p1 ++ (kw "ON", s0) :: (TK_IDENTIFIER, s1) :: p2 ++ (TK_LPAR, s2) :: p3 ++ [(TK_RPAR, s3)]).
  split; [|now apply s_create_index]. repeat (rewrite <- app_assoc; cbn [app]). reflexivity.
Qed.
Theorem statement_sound : forall f ts st rest, clean ts -> statement f ts = Ok st rest -> exists pre, ts = pre ++ rest /\ statement_ false pre st.
Proof.
  intros f ts st rest C H. unfold statement in H. cbn zeta in H. pose proof (clean_tl _ C) as C1. pose proof (clean_tl _ C1) as C2.
  destruct (tk_eqb (type_ ts) (kw "CREATE")) eqn:K; [|clear K].
  { kwd K k r. destruct (tk_eqb (type_ r) (kw "DATABASE")) eqn:K; [|clear K].
    { kwd K k' r'. ex H C2. fin H. exists [(kw "CREATE", k); (kw "DATABASE", k'); (TK_IDENTIFIER, s)]. split; [reflexivity|constructor]. }
    destruct (tk_eqb (type_ r) (kw "TABLE")) eqn:K; [|clear K].
    { kwd K k' r'. ex H C2. ex H C2. inv_bind H atts t1 E1. destruct (sep_sound _ _ _ (attribute_sound f) _ _ _ _ C2 E1) as (p & -> & A). apply clean_app in C2. ex H C2. fin H.
      exists ((kw "CREATE", k) :: (kw "TABLE", k') :: (TK_IDENTIFIER, s) :: (TK_LPAR, s0) :: p ++ [(TK_RPAR, s1)]). split; [cbn; now rewrite app_cons|now constructor]. }
    destruct (tk_eqb (type_ r) (kw "UNIQUE") || tk_eqb (type_ r) (kw "INDEX")); [|discriminate]. destruct (create_index_sound k _ _ _ _ C1 H) as (p & -> & A).
    exists ((kw "CREATE", k) :: p). split; [reflexivity|exact A]. }
  destruct (tk_eqb (type_ ts) (kw "DROP")) eqn:K; [|clear K].
  { kwd K k r. destruct (tk_eqb (type_ r) (kw "DATABASE")) eqn:K; [|clear K].
    { kwd K k' r'. inv_bind H i t1 E1. destruct (exists_sound _ _ _ C2 E1) as (p & -> & A). apply clean_app in C2. ex H C2. fin H.
      exists ((kw "DROP", k) :: (kw "DATABASE", k') :: p ++ [(TK_IDENTIFIER, s)]). split; [cbn; now rewrite app_cons|now constructor]. }
    destruct (tk_eqb (type_ r) (kw "TABLE")) eqn:K; [|clear K].
    { kwd K k' r'. inv_bind H i t1 E1. destruct (exists_sound _ _ _ C2 E1) as (p & -> & A). apply clean_app in C2. inv_bind H ns t2 E2.
      destruct (sep_sound _ _ _ identifier_sound _ _ _ _ C2 E2) as (p2 & -> & A2). fin H.
      exists ((kw "DROP", k) :: (kw "TABLE", k') :: p ++ p2). split; [cbn; now rewrite app_assoc|now constructor]. }
    destruct (tk_eqb (type_ r) (kw "INDEX")) eqn:K; [|discriminate].
    { kwd K k' r'. inv_bind H i t1 E1. destruct (exists_sound _ _ _ C2 E1) as (p & -> & A). apply clean_app in C2. inv_bind H ns t2 E2.
      destruct (sep_sound _ _ _ identifier_sound _ _ _ _ C2 E2) as (p2 & -> & A2). fin H.
      exists ((kw "DROP", k) :: (kw "INDEX", k') :: p ++ p2). split; [cbn; now rewrite app_assoc|now constructor]. } }
  destruct (tk_eqb (type_ ts) (kw "USE")) eqn:K; [|clear K].
  { kwd K k r. ex H C1. fin H. exists [(kw "USE", k); (TK_IDENTIFIER, s)]. split; [reflexivity|constructor]. }
  destruct (tk_eqb (type_ ts) (kw "SELECT")) eqn:K; [|clear K].
  { inv_bind H q t1 E1. fin H. destruct (select_sound _ _ _ _ C E1) as (p & -> & A). exists p. split; [reflexivity|now constructor]. }
  destruct (tk_eqb (type_ ts) (kw "INSERT")) eqn:K; [|clear K].
  { kwd K k r. ex H C1. ex H C1. ex H C1. inv_bind H tu t1 E1. destruct (sep_sound _ _ _ (tuple_sound f) _ _ _ _ C1 E1) as (p & -> & A). fin H.
    exists ((kw "INSERT", k) :: (kw "INTO", s) :: (TK_IDENTIFIER, s0) :: (kw "VALUES", s1) :: p). split; [reflexivity|now constructor]. }
  destruct (tk_eqb (type_ ts) (kw "UPDATE")) eqn:K; [|clear K].
  { kwd K k r. ex H C1. ex H C1. inv_bind H tu t1 E1. destruct (sep_sound _ _ _ (set_sound f) _ _ _ _ C1 E1) as (p & -> & A). apply clean_app in C1.
    inv_bind H w t2 E2. destruct (where_sound _ _ _ _ C1 E2) as (p2 & -> & A2). fin H.
    exists ((kw "UPDATE", k) :: (TK_IDENTIFIER, s) :: (kw "SET", s0) :: p ++ p2). split; [cbn; now rewrite app_assoc|now constructor]. }
  destruct (tk_eqb (type_ ts) (kw "DELETE")) eqn:K; [|clear K].
  { kwd K k r. ex H C1. ex H C1. inv_bind H w t2 E2. destruct (where_sound _ _ _ _ C1 E2) as (p2 & -> & A2). fin H.
    exists ((kw "DELETE", k) :: (kw "FROM", s) :: (TK_IDENTIFIER, s0) :: p2). split; [reflexivity|now constructor]. }
  destruct (tk_eqb (type_ ts) (kw "IMPORT")) eqn:K; [|discriminate].
  kwd K k r. destruct (import_sound k _ _ _ C1 H) as (p & -> & A). exists ((kw "IMPORT", k) :: p). split; [reflexivity|exact A].
Qed.
Theorem command_sound : forall ts st rest, clean ts -> parse_Stmt ts = Ok st rest -> exists pre, ts = pre ++ rest /\ command false pre st.
Proof.
  intros ts st rest C H. unfold parse_Stmt in H. destruct (is_ TK_SEMICOL ts) eqn:K; [inv_is K s r; fin H; exists [(TK_SEMICOL, s)]; split; [reflexivity|constructor]|].
  inv_bind H s0 t1 E1. destruct (statement_sound _ _ _ _ C E1) as (p & -> & A). apply clean_app in C. ex H C. fin H. exists (p ++ [(TK_SEMICOL, s)]). split; [now rewrite app_cons|now constructor].
Qed.
