(** * The grammar of doc/syntax-grammar.md

    Every non-terminal is a relation between the tokens of a phrase and the syntax tree it denotes.  The first argument says which
    language is meant: [true] is the documented one, [false] everything the parser accepts; the constructors with [false] in place of
    the variable [b] are the phrases that the parser accepts beyond it.
    Where the parser accepts harmlessly more than the document, the larger language is taken for both and the place is marked (+). *)
From Coq Require Import ZArith NArith String Ascii List Bool.
From Verif Require Import Lexer Parser.
Import ListNotations.
Local Open Scope Z_scope.

Definition constants : list tk :=
  [kw "NULL"; kw "TRUE"; kw "FALSE"; TK_STRING_LITERAL; TK_DATE; TK_DATE_TIME; TK_OCT_INT; TK_DEC_INT; TK_HEX_INT; TK_DEC_FLOAT; TK_HEX_FLOAT].
Definition integers : list tk := [TK_OCT_INT; TK_DEC_INT; TK_HEX_INT].
(** The binary operators by level: multiplicative 7, additive 6, concatenation 5 (+), comparison 4 (LIKE: +), AND 2, OR 1. *)
Definition binary_operators : list (Z * tk) :=
  [(7, TK_ASTERISK); (7, TK_SLASH); (7, TK_PERCENT); (6, TK_PLUS); (6, TK_MINUS); (5, TK_DOTDOT);
   (4, TK_EQUAL); (4, TK_BANG_EQUAL); (4, TK_LESS); (4, TK_GREATER); (4, TK_LESS_EQUAL); (4, TK_GREATER_EQUAL); (4, kw "LIKE");
   (2, kw "AND"); (1, kw "OR")].

(** [[ [ 'AS' ] IDENTIFIER ]]; (+) GROUP BY: the document requires AS. *)
Inductive alias : list tok -> option tok -> Prop :=
  | alias_none : alias [] None
  | alias_as k s : alias [(kw "AS", k); (TK_IDENTIFIER, s)] (Some (TK_IDENTIFIER, s))
  | alias_id s : alias [(TK_IDENTIFIER, s)] (Some (TK_IDENTIFIER, s)).
Inductive direction : list tok -> bool -> Prop :=
  | dir_none : direction [] true
  | dir_asc k : direction [(kw "ASC", k)] true
  | dir_desc k : direction [(kw "DESC", k)] false.
Inductive limit_clause : list tok -> option (tok * option tok) -> Prop :=
  | lim_none : limit_clause [] None
  | lim_limit k n : In (fst n) integers -> limit_clause [(kw "LIMIT", k); n] (Some (n, None))
  | lim_offset k n k' o : In (fst n) integers -> In (fst o) integers -> limit_clause [(kw "LIMIT", k); n; (kw "OFFSET", k'); o] (Some (n, Some o)).

Inductive primary_expression (b : bool) : list tok -> Expr -> Prop :=
  | g_attr s : primary_expression b [(TK_IDENTIFIER, s)] (Designator None (TK_IDENTIFIER, s))
  | g_table_attr t d a :
      primary_expression b [(TK_IDENTIFIER, t); (TK_DOT, d); (TK_IDENTIFIER, a)] (Designator (Some (TK_IDENTIFIER, t)) (TK_IDENTIFIER, a))
  | g_constant t : In (fst t) constants -> primary_expression b [t] (Constant t)
  | g_paren l ts e r : expression b 1 ts e -> primary_expression b ((TK_LPAR, l) :: ts ++ [(TK_RPAR, r)]) e
  | g_query l ts q r : select_statement b ts q -> primary_expression b ((TK_LPAR, l) :: ts ++ [(TK_RPAR, r)]) (Query q)
  (** function call *)
  | g_call ts e l ta args r : primary_expression b ts e -> arguments b ta args ->
      primary_expression b (ts ++ (TK_LPAR, l) :: ta ++ [(TK_RPAR, r)]) (FnApplication e args)
  (** NOT and the signs in front of any operand *)
  | g_inner_not k ts e : b = false -> expression b 3 ts e -> primary_expression b ((kw "NOT", k) :: ts) (Unary (kw "NOT", k) e)
  | g_inner_sign op ts e : b = false -> In (fst op) [TK_PLUS; TK_MINUS; TK_TILDE] -> expression b 8 ts e -> primary_expression b (op :: ts) (Unary op e)
with arguments (b : bool) : list tok -> list Expr -> Prop :=
  | g_no_arguments : arguments b [] []
  | g_asterisk s : arguments b [(TK_ASTERISK, s)] []
  | g_arguments ts l : expressions b ts l -> arguments b ts l
with expressions (b : bool) : list tok -> list Expr -> Prop :=
  | g_expr1 ts e : expression b 1 ts e -> expressions b ts [e]
  | g_exprs ts e c ts' l : expression b 1 ts e -> expressions b ts' l -> expressions b (ts ++ (TK_COMMA, c) :: ts') (e :: l)
(** [expression b l]: unary-expression for l = 8, multiplicative-expression for l = 7, ..., logical-or-expression for l = 1. *)
with expression (b : bool) : Z -> list tok -> Expr -> Prop :=
  | g_primary ts e : primary_expression b ts e -> expression b 8 ts e
  | g_sign op ts e : In (fst op) [TK_PLUS; TK_MINUS; TK_TILDE] -> expression b 8 ts e -> expression b 8 (op :: ts) (Unary op e)    (* (+) several signs *)
  | g_binary l op ts1 e1 ts2 e2 : In (l, fst op) binary_operators -> expression b l ts1 e1 -> expression b (l + 1) ts2 e2 ->       (* (+) several comparisons *)
      expression b l (ts1 ++ op :: ts2) (Binary op e1 e2)
  | g_not k ts e : expression b 3 ts e -> expression b 3 ((kw "NOT", k) :: ts) (Unary (kw "NOT", k) e)
  | g_higher l ts e : 1 <= l -> expression b (l + 1) ts e -> expression b l ts e
  (** NOT and ~ between operands *)
  | g_binary_not k ts1 e1 ts2 e2 : b = false -> expression b 3 ts1 e1 -> expression b 4 ts2 e2 -> expression b 3 (ts1 ++ (kw "NOT", k) :: ts2) (Binary (kw "NOT", k) e1 e2)
  | g_binary_tilde k ts1 e1 ts2 e2 : b = false -> expression b 8 ts1 e1 -> primary_expression b ts2 e2 ->
      expression b 8 (ts1 ++ (TK_TILDE, k) :: ts2) (Binary (TK_TILDE, k) e1 e2)
with select_statement (b : bool) : list tok -> Select -> Prop :=
  | g_select k ts0 all items tf from tw where_ tg group_by th having to order_by tl limit :
      select_list b ts0 all items -> from_clause b tf from -> condition b (kw "WHERE") tw where_ -> group_by_clause b tg group_by ->
      condition b (kw "HAVING") th having -> order_by_clause b to order_by -> limit_clause tl limit ->
      select_statement b ((kw "SELECT", k) :: ts0 ++ tf ++ tw ++ tg ++ th ++ to ++ tl) (mkSelect all items from where_ group_by having order_by limit)
with select_list (b : bool) : list tok -> option tok -> list (Expr * option tok) -> Prop :=
  | g_select_all s : select_list b [(TK_ASTERISK, s)] (Some (TK_ASTERISK, s)) []
  | g_select_all_and s c ts l : items b ts l -> select_list b ((TK_ASTERISK, s) :: (TK_COMMA, c) :: ts) (Some (TK_ASTERISK, s)) l
  | g_select_items ts l : items b ts l -> select_list b ts None l
with items (b : bool) : list tok -> list (Expr * option tok) -> Prop :=
  | g_item1 ts e ta a : expression b 1 ts e -> alias ta a -> items b (ts ++ ta) [(e, a)]
  | g_items ts e ta a c ts' l : expression b 1 ts e -> alias ta a -> items b ts' l -> items b (ts ++ ta ++ (TK_COMMA, c) :: ts') ((e, a) :: l)
with from_clause (b : bool) : list tok -> option (list (Source * option tok)) -> Prop :=
  | g_no_from : from_clause b [] None
  | g_from k ts l : sources b ts l -> from_clause b ((kw "FROM", k) :: ts) (Some l)
with sources (b : bool) : list tok -> list (Source * option tok) -> Prop :=
  | g_source1 ts s a : source_ b ts s a -> sources b ts [(s, a)]
  | g_sources ts s a c ts' l : source_ b ts s a -> sources b ts' l -> sources b (ts ++ (TK_COMMA, c) :: ts') ((s, a) :: l)
with source_ (b : bool) : list tok -> Source -> option tok -> Prop :=
  | g_table s ta a : alias ta a -> source_ b ((TK_IDENTIFIER, s) :: ta) (Table (TK_IDENTIFIER, s)) a
  | g_sub l ts q r ta a : select_statement b ts q -> alias ta (Some a) -> source_ b ((TK_LPAR, l) :: ts ++ (TK_RPAR, r) :: ta) (Sub q) (Some a)
with condition (b : bool) : tk -> list tok -> option Expr -> Prop :=
  | g_no_condition K : condition b K [] None
  | g_condition K k ts e : expression b 1 ts e -> condition b K ((K, k) :: ts) (Some e)
with group_by_clause (b : bool) : list tok -> option (list (Expr * option tok)) -> Prop :=
  | g_no_group_by : group_by_clause b [] None
  | g_group_by k k' ts l : items b ts l -> group_by_clause b ((kw "GROUP", k) :: (kw "BY", k') :: ts) (Some l)
with order_by_clause (b : bool) : list tok -> option (list (Expr * bool)) -> Prop :=
  | g_no_order_by : order_by_clause b [] None
  | g_order_by k k' ts l : orders b ts l -> order_by_clause b ((kw "ORDER", k) :: (kw "BY", k') :: ts) (Some l)
with orders (b : bool) : list tok -> list (Expr * bool) -> Prop :=
  | g_order1 ts e td d : expression b 1 ts e -> direction td d -> orders b (ts ++ td) [(e, d)]
  | g_orders ts e td d c ts' l : expression b 1 ts e -> direction td d -> orders b ts' l -> orders b (ts ++ td ++ (TK_COMMA, c) :: ts') ((e, d) :: l).

(** The remaining statements; lists of phrases separated by commas. *)
Inductive separated {A} (item : list tok -> A -> Prop) : list tok -> list A -> Prop :=
  | sep1 ts a : item ts a -> separated item ts [a]
  | sepn ts a c ts' l : item ts a -> separated item ts' l -> separated item (ts ++ (TK_COMMA, c) :: ts') (a :: l).
(** The number a sequence of decimal digits denotes. *)
Inductive numeral : list N -> N -> Prop :=
  | num_nil : numeral [] 0
  | num_digit s n d : numeral s n -> (d < 10)%N -> numeral (s ++ [48 + d]%N) (10 * n + d)%N.
(** A DECIMAL-CONSTANT; values that no [std::size_t] holds are rejected. *)
Inductive size : list tok -> N -> Prop :=
  | size_number s n : numeral s n -> (n < 2 ^ 64)%N -> size [(TK_DEC_INT, s)] n.
Inductive data_type : list tok -> DataType -> Prop :=
  | ty_bool k : data_type [(kw "BOOL", k)] BOOL
  | ty_char k l ts n r : size ts n -> data_type ((kw "CHAR", k) :: (TK_LPAR, l) :: ts ++ [(TK_RPAR, r)]) (CHAR n)
  | ty_varchar k l ts n r : size ts n -> data_type ((kw "VARCHAR", k) :: (TK_LPAR, l) :: ts ++ [(TK_RPAR, r)]) (VARCHAR n)
  | ty_date k : data_type [(kw "DATE", k)] DATE
  | ty_datetime k : data_type [(kw "DATETIME", k)] DATETIME
  | ty_int k l ts n r : size ts n -> data_type ((kw "INT", k) :: (TK_LPAR, l) :: ts ++ [(TK_RPAR, r)]) (INT n)
  | ty_float k : data_type [(kw "FLOAT", k)] FLOAT
  | ty_double k : data_type [(kw "DOUBLE", k)] DOUBLE
  | ty_decimal k l ts n r : size ts n -> data_type ((kw "DECIMAL", k) :: (TK_LPAR, l) :: ts ++ [(TK_RPAR, r)]) (DECIMAL n 0)
  | ty_decimal_scale k l ts n c ts' n' r : size ts n -> size ts' n' ->
      data_type ((kw "DECIMAL", k) :: (TK_LPAR, l) :: ts ++ (TK_COMMA, c) :: ts' ++ [(TK_RPAR, r)]) (DECIMAL n n').
Inductive constraint (b : bool) : list tok -> Constraint -> Prop :=
  | c_primary k k' : constraint b [(kw "PRIMARY", k); (kw "KEY", k')] PrimaryKey
  | c_not_null k k' : constraint b [(kw "NOT", k); (kw "NULL", k')] NotNull
  | c_unique k : constraint b [(kw "UNIQUE", k)] Unique
  | c_check k l ts e r : expression b 1 ts e -> constraint b ((kw "CHECK", k) :: (TK_LPAR, l) :: ts ++ [(TK_RPAR, r)]) (Check e)
  | c_references k t l a r :
      constraint b [(kw "REFERENCES", k); (TK_IDENTIFIER, t); (TK_LPAR, l); (TK_IDENTIFIER, a); (TK_RPAR, r)] (References (TK_IDENTIFIER, t) (TK_IDENTIFIER, a)).
Inductive constraint_list (b : bool) : list tok -> list Constraint -> Prop :=
  | cs_nil : constraint_list b [] []
  | cs_cons ts c ts' l : constraint b ts c -> constraint_list b ts' l -> constraint_list b (ts ++ ts') (c :: l).
Inductive attribute_definition (b : bool) : list tok -> tok * DataType * list Constraint -> Prop :=
  | g_attribute s ts ty ts' cs : data_type ts ty -> constraint_list b ts' cs ->
      attribute_definition b ((TK_IDENTIFIER, s) :: ts ++ ts') ((TK_IDENTIFIER, s), ty, cs).
Inductive key_field_ (b : bool) : list tok -> Expr -> Prop :=
  | key_attr s : key_field_ b [(TK_IDENTIFIER, s)] (Designator None (TK_IDENTIFIER, s))
  | key_expr l ts e r : expression b 1 ts e -> key_field_ b ((TK_LPAR, l) :: ts ++ [(TK_RPAR, r)]) e
  (** any expression that begins with a parenthesis *)
  | key_any l ts e : b = false -> expression b 1 ((TK_LPAR, l) :: ts) e -> key_field_ b ((TK_LPAR, l) :: ts) e.
(** An expression may not begin with NULL here, see [C56_refuted_insert_null]. *)
Inductive insert_value (b : bool) : list tok -> Value -> Prop :=
  | v_default k : insert_value b [(kw "DEFAULT", k)] VDefault
  | v_null k : insert_value b [(kw "NULL", k)] VNull
  | v_expr ts e : expression b 1 ts e -> type_ ts <> kw "NULL" -> insert_value b ts (VExpr e).
Inductive insert_tuple (b : bool) : list tok -> list Value -> Prop :=
  | g_tuple l ts vs r : separated (insert_value b) ts vs -> insert_tuple b ((TK_LPAR, l) :: ts ++ [(TK_RPAR, r)]) vs.
Inductive set_item (b : bool) : list tok -> tok * Expr -> Prop :=
  | g_set s q ts e : expression b 1 ts e -> set_item b ((TK_IDENTIFIER, s) :: (TK_EQUAL, q) :: ts) ((TK_IDENTIFIER, s), e).
Inductive identifier : list tok -> tok -> Prop := g_identifier s : identifier [(TK_IDENTIFIER, s)] (TK_IDENTIFIER, s).
Inductive exists_flag : list tok -> bool -> Prop :=
  | ex_no : exists_flag [] false
  | ex_yes k k' : exists_flag [(kw "IF", k); (kw "EXISTS", k')] true.
Inductive flag (T : tk) : list tok -> bool -> Prop := fl_no : flag T [] false | fl_yes k : flag T [(T, k)] true.
Inductive index_name : list tok -> bool -> option tok -> Prop :=
  | in_none : index_name [] false None
  | in_name s : index_name [(TK_IDENTIFIER, s)] false (Some (TK_IDENTIFIER, s))
  | in_if k k' k'' s : index_name [(kw "IF", k); (kw "NOT", k'); (kw "EXISTS", k''); (TK_IDENTIFIER, s)] true (Some (TK_IDENTIFIER, s)).
Inductive using_method : list tok -> option tok -> Prop :=
  | us_none : using_method [] None
  | us_method k t : In (fst t) [TK_IDENTIFIER; kw "DEFAULT"] -> using_method [(kw "USING", k); t] (Some t).
Inductive string_option (T : tk) : list tok -> option tok -> Prop :=
  | so_none : string_option T [] None
  | so_some k s : string_option T [(T, k); (TK_STRING_LITERAL, s)] (Some (TK_STRING_LITERAL, s)).
Inductive rows_option : list tok -> option tok -> Prop :=
  | ro_none : rows_option [] None
  | ro_some k n : In (fst n) [TK_DEC_INT; TK_OCT_INT] -> rows_option [(kw "ROWS", k); n] (Some n).
Inductive header_option (T : tk) : list tok -> bool -> Prop :=
  | ho_none : header_option T [] false
  | ho_some k k' : header_option T [(T, k); (kw "HEADER", k')] true.

Inductive statement_ (b : bool) : list tok -> Stmt -> Prop :=
  | s_create_database k k' s : statement_ b [(kw "CREATE", k); (kw "DATABASE", k'); (TK_IDENTIFIER, s)] (CreateDatabase (TK_IDENTIFIER, s))
  | s_drop_database k k' ts i s : exists_flag ts i ->
      statement_ b ((kw "DROP", k) :: (kw "DATABASE", k') :: ts ++ [(TK_IDENTIFIER, s)]) (DropDatabase (TK_IDENTIFIER, s) i)
  | s_use k s : statement_ b [(kw "USE", k); (TK_IDENTIFIER, s)] (UseDatabase (TK_IDENTIFIER, s))
  | s_create_table k k' s l ts attrs r : separated (attribute_definition b) ts attrs ->
      statement_ b ((kw "CREATE", k) :: (kw "TABLE", k') :: (TK_IDENTIFIER, s) :: (TK_LPAR, l) :: ts ++ [(TK_RPAR, r)]) (CreateTable (TK_IDENTIFIER, s) attrs)
  | s_drop_table k k' ts i ts' ns : exists_flag ts i -> separated identifier ts' ns ->
      statement_ b ((kw "DROP", k) :: (kw "TABLE", k') :: ts ++ ts') (DropTable ns i)
  | s_create_index k tu u k' tn i n k'' t tm m l ts keys r : flag (kw "UNIQUE") tu u -> index_name tn i n -> using_method tm m -> separated (key_field_ b) ts keys ->
      statement_ b ((kw "CREATE", k) :: tu ++ (kw "INDEX", k') :: tn ++ (kw "ON", k'') :: (TK_IDENTIFIER, t) :: tm ++ (TK_LPAR, l) :: ts ++ [(TK_RPAR, r)])
        (CreateIndex u i n (TK_IDENTIFIER, t) m keys)
  | s_drop_index k k' ts i ts' ns : exists_flag ts i -> separated identifier ts' ns ->
      statement_ b ((kw "DROP", k) :: (kw "INDEX", k') :: ts ++ ts') (DropIndex ns i)
  | s_select ts q : select_statement b ts q -> statement_ b ts (SelectS q)
  | s_insert k k' s k'' ts tuples : separated (insert_tuple b) ts tuples ->
      statement_ b ((kw "INSERT", k) :: (kw "INTO", k') :: (TK_IDENTIFIER, s) :: (kw "VALUES", k'') :: ts) (Insert (TK_IDENTIFIER, s) tuples)
  | s_update k s k' ts set tw w : separated (set_item b) ts set -> condition b (kw "WHERE") tw w ->
      statement_ b ((kw "UPDATE", k) :: (TK_IDENTIFIER, s) :: (kw "SET", k') :: ts ++ tw) (Update (TK_IDENTIFIER, s) set w)
  | s_delete k k' s tw w : condition b (kw "WHERE") tw w ->
      statement_ b ((kw "DELETE", k) :: (kw "FROM", k') :: (TK_IDENTIFIER, s) :: tw) (Delete (TK_IDENTIFIER, s) w)
  | s_import k k' s k'' path t1 rows t2 delimiter t3 escape t4 quote t5 has t6 skip :
      rows_option t1 rows -> string_option (kw "DELIMITER") t2 delimiter -> string_option (kw "ESCAPE") t3 escape ->
      string_option (kw "QUOTE") t4 quote -> header_option (kw "HAS") t5 has -> header_option (kw "SKIP") t6 skip ->
      statement_ b ((kw "IMPORT", k) :: (kw "INTO", k') :: (TK_IDENTIFIER, s) :: (kw "DSV", k'') :: (TK_STRING_LITERAL, path) :: t1 ++ t2 ++ t3 ++ t4 ++ t5 ++ t6)
        (Import (TK_IDENTIFIER, s) (TK_STRING_LITERAL, path) rows delimiter escape quote has skip).

(** [command ::= [ statement ] ';'] *)
Inductive command (b : bool) : list tok -> Stmt -> Prop :=
  | cmd_empty s : command b [(TK_SEMICOL, s)] EmptyStmt
  | cmd_statement ts st s : statement_ b ts st -> command b (ts ++ [(TK_SEMICOL, s)]) st.

Scheme primary_mut := Minimality for primary_expression Sort Prop
with arguments_mut := Minimality for arguments Sort Prop
with expressions_mut := Minimality for expressions Sort Prop
with expression_mut := Minimality for expression Sort Prop
with select_mut := Minimality for select_statement Sort Prop
with select_list_mut := Minimality for select_list Sort Prop
with items_mut := Minimality for items Sort Prop
with from_mut := Minimality for from_clause Sort Prop
with sources_mut := Minimality for sources Sort Prop
with source_mut := Minimality for source_ Sort Prop
with condition_mut := Minimality for condition Sort Prop
with group_mut := Minimality for group_by_clause Sort Prop
with order_mut := Minimality for order_by_clause Sort Prop
with orders_mut := Minimality for orders Sort Prop.
Combined Scheme grammar_ind from primary_mut, arguments_mut, expressions_mut, expression_mut, select_mut, select_list_mut, items_mut, from_mut,
  sources_mut, source_mut, condition_mut, group_mut, order_mut, orders_mut.
