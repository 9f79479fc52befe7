(** * Model of the parser, src/parse/Parser.hpp and src/parse/Parser.cpp, and of the printer, src/parse/ASTPrinter.cpp

    The parser reads the tokens of the lexer (Lexer.v), each given by its type and text; positions are dropped.  The list is what is
    left to read, [lookahead_] its first two elements; at its end [token()] is [TK_EOF] and [consume()] has no effect.
    [Bad]: a diagnostic is emitted (the statement is then not executed); error recovery is not modelled.
    Artificial tokens ([Token::CreateArtificial()], type [TK_EOF]) mark absent parts; they are [None] here.
    [Fuel] never occurs (ParserTerm.v). *)
From Coq Require Import ZArith NArith String Ascii List Bool.
From Verif Require Import Lexer.
Import ListNotations.
Local Open Scope Z_scope.

Notation tok := (tk * list N)%type.
Notation kw s := (TK_KEYWORD (chars s)).

(** ** The abstract syntax, include/mutable/parse/AST.hpp *)
(** Lines 128-424; a [QueryExpr]'s generated alias (src/parse/AST.cpp:14-20) is left out. *)
Inductive Expr :=
  | Designator (table : option tok) (attr : tok)
  | Constant (t : tok)
  | FnApplication (fn : Expr) (args : list Expr)
  | Unary (op : tok) (e : Expr)
  | Binary (op : tok) (lhs rhs : Expr)
  | Query (q : Select)
(** Lines 476-640, 870-900. *)
with Select :=
  | mkSelect (all : option tok) (select : list (Expr * option tok)) (from : option (list (Source * option tok))) (where_ : option Expr)
      (group_by : option (list (Expr * option tok))) (having : option Expr) (order_by : option (list (Expr * bool)))
      (limit : option (tok * option tok))
with Source :=
  | Table (t : tok)
  | Sub (q : Select).

(** Data types as the parser creates them, with the numbers written in the declaration. *)
Inductive DataType :=
  | BOOL | CHAR (n : N) | VARCHAR (n : N) | DATE | DATETIME | INT (n : N) | FLOAT | DOUBLE | DECIMAL (p s : N).
(** Lines 640-760. *)
Inductive Constraint :=
  | PrimaryKey | NotNull | Unique | Check (cond : Expr) | References (table attr : tok).
Inductive Value := VDefault | VNull | VExpr (e : Expr).          (* InsertStmt::element_type *)
(** Lines 770-1050. *)
Inductive Stmt :=
  | EmptyStmt
  | CreateDatabase (name : tok)
  | DropDatabase (name : tok) (if_exists : bool)
  | UseDatabase (name : tok)
  | CreateTable (name : tok) (attrs : list (tok * DataType * list Constraint))
  | DropTable (names : list tok) (if_exists : bool)
  | CreateIndex (unique : bool) (if_not_exists : bool) (name : option tok) (table : tok) (method : option tok) (keys : list Expr)
  | DropIndex (names : list tok) (if_exists : bool)
  | SelectS (q : Select)
  | Insert (table : tok) (tuples : list (list Value))
  | Update (table : tok) (set : list (tok * Expr)) (where_ : option Expr)
  | Delete (table : tok) (where_ : option Expr)
  | Import (table path : tok) (rows delimiter escape quote : option tok) (has_header skip_header : bool).

(** ** Tokens *)
Definition tk_eq_dec : forall a b : tk, {a = b} + {a <> b}.
Proof. decide equality. apply list_eq_dec, N.eq_dec. Defined.
Definition tk_eqb (a b : tk) : bool := if tk_eq_dec a b then true else false.

(** Parser.hpp:39-42. *)
Definition token_ (ts : list tok) : tok := match ts with t :: _ => t | [] => (TK_EOF, chars "EOF") end.
Definition type_ (ts : list tok) : tk := fst (token_ ts).
Definition is_ (T : tk) (ts : list tok) : bool := tk_eqb (type_ ts) T.
Definition consume (ts : list tok) : list tok := tl ts.
(** Parser.hpp:52-58: an error token is accepted as well. *)
Definition accept (T : tk) (ts : list tok) : option (list tok) := if is_ T ts || is_ TK_ERROR ts then Some (consume ts) else None.

Inductive res (A : Type) := Ok (a : A) (rest : list tok) | Bad | Fuel.
Arguments Ok {A}. Arguments Bad {A}. Arguments Fuel {A}.
Definition bind {A B} (r : res A) (k : A -> list tok -> res B) : res B := match r with Ok a ts => k a ts | Bad => Bad | Fuel => Fuel end.
Notation "'let*' x , ts := r 'in' k" := (bind r (fun x ts => k)) (at level 200, x name, ts name, r at level 100, k at level 200, right associativity).
(** Parser.hpp:60-64; the token expected is returned. *)
Definition expect (T : tk) (ts : list tok) : res tok := match accept T ts with Some ts' => Ok (token_ ts) ts' | None => Bad end.
(** [do … while (accept(TK_COMMA));] *)
Fixpoint sep_list {A} (item : list tok -> res A) (f : nat) (ts : list tok) : res (list A) :=
  match f with
  | O => Fuel
  | S f => let* a, ts := item ts in
           match accept TK_COMMA ts with
           | Some ts => let* l, ts := sep_list item f ts in Ok (a :: l) ts
           | None => Ok [a] ts
           end
  end.

(** [get_precedence], Parser.cpp:18-50. *)
Definition get_precedence (T : tk) : Z :=
  match T with
  | TK_TILDE => 8
  | TK_ASTERISK | TK_SLASH | TK_PERCENT => 7
  | TK_PLUS | TK_MINUS => 6
  | TK_DOTDOT => 5
  | TK_LESS | TK_GREATER | TK_LESS_EQUAL | TK_GREATER_EQUAL | TK_EQUAL | TK_BANG_EQUAL => 4
  | TK_KEYWORD _ => if tk_eqb T (kw "LIKE") then 4 else if tk_eqb T (kw "NOT") then 3 else if tk_eqb T (kw "AND") then 2
                    else if tk_eqb T (kw "OR") then 1 else -1
  | _ => -1
  end.

(** [is_integer], Parser.cpp:54-65. *)
Definition is_integer (T : tk) : bool := match T with TK_OCT_INT | TK_DEC_INT | TK_HEX_INT => true | _ => false end.

(** [parse_designator], Parser.cpp:1056-1073. *)
Definition parse_designator (ts : list tok) : res Expr :=
  let* lhs, ts := expect TK_IDENTIFIER ts in
  if is_ TK_DOT ts then let* rhs, ts := expect TK_IDENTIFIER (consume ts) in Ok (Designator (Some lhs) rhs) ts
  else Ok (Designator None lhs) ts.

(** [[ [ 'AS' ] identifier ]], Parser.cpp:770-778, 786-794, 829-836, 882-889. *)
Definition opt_alias (ts : list tok) : res (option tok) :=
  match accept (kw "AS") ts with
  | Some ts => let* t, ts := expect TK_IDENTIFIER ts in Ok (Some t) ts
  | None => if is_ TK_IDENTIFIER ts then Ok (Some (token_ ts)) (consume ts) else Ok None ts
  end.
Definition alias_item (E : list tok -> res Expr) (ts : list tok) : res (Expr * option tok) :=
  let* e, ts := E ts in let* a, ts := opt_alias ts in Ok (e, a) ts.
(** Parser.cpp:813-838: one source of a FROM clause. *)
Definition source (S : list tok -> res Select) (ts : list tok) : res (Source * option tok) :=
  match accept TK_LPAR ts with
  | Some ts =>
      let* q, ts := S ts in
      let* r, ts := expect TK_RPAR ts in
      let ts := match accept (kw "AS") ts with Some ts => ts | None => ts end in
      let* a, ts := expect TK_IDENTIFIER ts in
      Ok (Sub q, Some a) ts
  | None => let* t, ts := expect TK_IDENTIFIER ts in let* a, ts := opt_alias ts in Ok (Table t, a) ts
  end.
(** Parser.cpp:925-932. *)
Definition order_item (E : list tok -> res Expr) (ts : list tok) : res (Expr * bool) :=
  let* e, ts := E ts in
  match accept (kw "DESC") ts with
  | Some ts => Ok (e, false) ts
  | None => Ok (e, true) (match accept (kw "ASC") ts with Some ts => ts | None => ts end)
  end.
(** Parser.cpp:945-957. *)
Definition integer (ts : list tok) : res tok := if is_integer (type_ ts) then Ok (token_ ts) (consume ts) else Bad.
(** [parse_LimitClause], Parser.cpp:937-961. *)
Definition parse_LimitClause (ts : list tok) : res (tok * option tok) :=
  let* k, ts := expect (kw "LIMIT") ts in
  let* l, ts := integer ts in
  match accept (kw "OFFSET") ts with
  | Some ts => let* o, ts := integer ts in Ok (l, Some o) ts
  | None => Ok (l, None) ts
  end.
(** [if (token() == T) clause = parse();] *)
Definition clause {A} (T : tk) (parse : list tok -> res A) (ts : list tok) : res (option A) :=
  if is_ T ts then let* a, ts := parse ts in Ok (Some a) ts else Ok None ts.

(** [parse_Expr], Parser.cpp:966-1054 ([primary]: 973-1024, [postfix]: 1026-1043, [binary]: 1045-1053), the clauses, 750-935, and
    [parse_SelectStmt], 513-543. *)
Fixpoint parse_Expr (f : nat) (p : Z) (ts : list tok) {struct f} : res Expr :=
  match f with
  | O => Fuel
  | S f => let* lhs, ts := primary f ts in let* lhs, ts := postfix f lhs ts in binary f p lhs ts
  end
with primary (f : nat) (ts : list tok) {struct f} : res Expr :=
  match f with
  | O => Fuel
  | S f =>
      match type_ ts with
      | TK_IDENTIFIER => parse_designator ts
      | TK_STRING_LITERAL | TK_DATE | TK_DATE_TIME | TK_OCT_INT | TK_DEC_INT | TK_HEX_INT | TK_DEC_FLOAT | TK_HEX_FLOAT =>
          Ok (Constant (token_ ts)) (consume ts)
      | TK_LPAR =>
          let ts := consume ts in
          let* e, ts := if is_ (kw "SELECT") ts then let* q, ts := parse_SelectStmt f ts in Ok (Query q) ts else parse_Expr f 0 ts in
          let* r, ts := expect TK_RPAR ts in Ok e ts
      | TK_PLUS | TK_MINUS | TK_TILDE => let* e, ts' := parse_Expr f (get_precedence TK_TILDE) (consume ts) in Ok (Unary (token_ ts) e) ts'
      | TK_KEYWORD _ =>
          if is_ (kw "NULL") ts || is_ (kw "TRUE") ts || is_ (kw "FALSE") ts then Ok (Constant (token_ ts)) (consume ts)
          else if is_ (kw "NOT") ts then let* e, ts' := parse_Expr f (get_precedence (kw "NOT")) (consume ts) in Ok (Unary (token_ ts) e) ts'
          else Bad
      | _ => Bad
      end
  end
with postfix (f : nat) (lhs : Expr) (ts : list tok) {struct f} : res Expr :=
  match f with
  | O => Fuel
  | S f =>
      if is_ TK_LPAR ts then
        let ts := consume ts in
        let* args, ts := if is_ TK_ASTERISK ts then Ok [] (consume ts)
                         else if negb (is_ TK_RPAR ts) then sep_list (parse_Expr f 0) f ts else Ok [] ts in
        let* r, ts := expect TK_RPAR ts in
        postfix f (FnApplication lhs args) ts
      else Ok lhs ts
  end
with binary (f : nat) (p : Z) (lhs : Expr) (ts : list tok) {struct f} : res Expr :=
  match f with
  | O => Fuel
  | S f =>
      let q := get_precedence (type_ ts) in
      if p >? q then Ok lhs ts
      else let* rhs, ts' := parse_Expr f (q + 1) (consume ts) in binary f p (Binary (token_ ts) lhs rhs) ts'
  end
with parse_SelectStmt (f : nat) (ts : list tok) {struct f} : res Select :=
  match f with
  | O => Fuel
  | S f =>
      let* k, ts := expect (kw "SELECT") ts in                                                          (* 750-800 *)
      let* sel, ts :=
        if is_ TK_ASTERISK ts then
          let all := token_ ts in
          match accept TK_COMMA (consume ts) with
          | Some ts => let* l, ts := sep_list (alias_item (parse_Expr f 0)) f ts in Ok (Some all, l) ts
          | None => Ok (Some all, []) (consume ts)
          end
        else let* l, ts := sep_list (alias_item (parse_Expr f 0)) f ts in Ok (None, l) ts in
      let* from, ts := clause (kw "FROM") (fun ts => sep_list (source (parse_SelectStmt f)) f (consume ts)) ts in       (* 802-843 *)
      let* where_, ts := clause (kw "WHERE") (fun ts => parse_Expr f 0 (consume ts)) ts in                              (* 845-860 *)
      let* group_by, ts := clause (kw "GROUP") (fun ts =>                                                               (* 862-893 *)
                             let* k, ts := expect (kw "BY") (consume ts) in sep_list (alias_item (parse_Expr f 0)) f ts) ts in
      let* having, ts := clause (kw "HAVING") (fun ts => parse_Expr f 0 (consume ts)) ts in                             (* 895-910 *)
      let* order_by, ts := clause (kw "ORDER") (fun ts =>                                                               (* 912-935 *)
                             let* k, ts := expect (kw "BY") (consume ts) in sep_list (order_item (parse_Expr f 0)) f ts) ts in
      let* limit, ts := clause (kw "LIMIT") parse_LimitClause ts in
      Ok (mkSelect (fst sel) (snd sel) from where_ group_by having order_by limit) ts
  end.

(** ** Statements *)
(** [[ 'IF' 'EXISTS' ]], Parser.cpp:226-231, 408-413, 494-499. *)
Definition if_exists (ts : list tok) : res bool :=
  match accept (kw "IF") ts with Some ts => let* k, ts := expect (kw "EXISTS") ts in Ok true ts | None => Ok false ts end.
(** [strtoul(text, nullptr, 10)]: [None] if it sets [errno]. *)
Definition strtoul (text : list N) : option N :=
  let v := fold_left (fun v c => v * 10 + (c - 48))%N text 0%N in if (v <? 2 ^ 64)%N then Some v else None.
Definition size_of_type (t : tok) (ts : list tok) (k : N -> DataType) : res DataType :=
  match strtoul (snd t) with Some n => Ok (k n) ts | None => Bad end.
(** [parse_data_type], Parser.cpp:1089-1195. *)
Definition parse_data_type (ts : list tok) : res DataType :=
  let T := type_ ts in let ts := consume ts in
  let sized k := let* l, ts := expect TK_LPAR ts in let* n, ts := expect TK_DEC_INT ts in let* r, ts := expect TK_RPAR ts in size_of_type n ts k in
  if tk_eqb T (kw "BOOL") then Ok BOOL ts
  else if tk_eqb T (kw "CHAR") then sized CHAR
  else if tk_eqb T (kw "VARCHAR") then sized VARCHAR
  else if tk_eqb T (kw "DATE") then Ok DATE ts
  else if tk_eqb T (kw "DATETIME") then Ok DATETIME ts
  else if tk_eqb T (kw "INT") then sized INT
  else if tk_eqb T (kw "FLOAT") then Ok FLOAT ts
  else if tk_eqb T (kw "DOUBLE") then Ok DOUBLE ts
  else if tk_eqb T (kw "DECIMAL") then
    let* l, ts := expect TK_LPAR ts in
    let* p, ts := expect TK_DEC_INT ts in
    let* s, ts := match accept TK_COMMA ts with Some ts => let* s, ts := expect TK_DEC_INT ts in Ok (Some s) ts | None => Ok None ts end in
    let* r, ts := expect TK_RPAR ts in
    match strtoul (snd p), match s with Some s => strtoul (snd s) | None => Some 0%N end with
    | Some p, Some s => Ok (DECIMAL p s) ts
    | _, _ => Bad
    end
  else Bad.
(** The constraints of an attribute, Parser.cpp:287-352. *)
Fixpoint constraints (f : nat) (ts : list tok) : res (list Constraint) :=
  match f with
  | O => Fuel
  | S f =>
      let T := type_ ts in let ts' := consume ts in
      let* c, ts :=
        if tk_eqb T (kw "PRIMARY") then let* k, ts := expect (kw "KEY") ts' in Ok (Some PrimaryKey) ts
        else if tk_eqb T (kw "NOT") then let* k, ts := expect (kw "NULL") ts' in Ok (Some NotNull) ts
        else if tk_eqb T (kw "UNIQUE") then Ok (Some Unique) ts'
        else if tk_eqb T (kw "CHECK") then
          let* l, ts := expect TK_LPAR ts' in let* e, ts := parse_Expr f 0 ts in let* r, ts := expect TK_RPAR ts in Ok (Some (Check e)) ts
        else if tk_eqb T (kw "REFERENCES") then
          let* t, ts := expect TK_IDENTIFIER ts' in let* l, ts := expect TK_LPAR ts in
          let* a, ts := expect TK_IDENTIFIER ts in let* r, ts := expect TK_RPAR ts in Ok (Some (References t a)) ts
        else Ok None ts in
      match c with Some c => let* l, ts := constraints f ts in Ok (c :: l) ts | None => Ok [] ts end
  end.
(** Parser.cpp:278-358. *)
Definition attribute (f : nat) (ts : list tok) : res (tok * DataType * list Constraint) :=
  let* id, ts := expect TK_IDENTIFIER ts in let* ty, ts := parse_data_type ts in let* cs, ts := constraints f ts in Ok (id, ty, cs) ts.
(** Parser.cpp:466-485. *)
Definition key_field (f : nat) (ts : list tok) : res Expr :=
  match type_ ts with
  | TK_IDENTIFIER => Ok (Designator None (token_ ts)) (consume ts)
  | TK_LPAR => parse_Expr f 0 ts
  | _ => Bad
  end.
(** [parse_CreateIndexStmt], Parser.cpp:423-487, after 'CREATE'. *)
Definition parse_CreateIndexStmt (f : nat) (ts : list tok) : res Stmt :=
  let u := is_ (kw "UNIQUE") ts in let ts := if u then consume ts else ts in
  let* k, ts := expect (kw "INDEX") ts in
  let* n, ts := match accept (kw "IF") ts with
                | Some ts => let* k, ts := expect (kw "NOT") ts in let* k, ts := expect (kw "EXISTS") ts in
                             let* n, ts := expect TK_IDENTIFIER ts in Ok (true, Some n) ts
                | None => if is_ TK_IDENTIFIER ts then Ok (false, Some (token_ ts)) (consume ts) else Ok (false, None) ts
                end in
  let* k, ts := expect (kw "ON") ts in
  let* t, ts := expect TK_IDENTIFIER ts in
  let* m, ts := match accept (kw "USING") ts with
                | Some ts => if is_ TK_IDENTIFIER ts || is_ (kw "DEFAULT") ts then Ok (Some (token_ ts)) (consume ts) else Bad
                | None => Ok None ts
                end in
  let* l, ts := expect TK_LPAR ts in
  let* ks, ts := sep_list (key_field f) f ts in
  let* r, ts := expect TK_RPAR ts in
  Ok (CreateIndex u (fst n) (snd n) t m ks) ts.
(** Parser.cpp:569-592. *)
Definition value (f : nat) (ts : list tok) : res Value :=
  if is_ (kw "DEFAULT") ts then Ok VDefault (consume ts)
  else if is_ (kw "NULL") ts then Ok VNull (consume ts)
  else let* e, ts := parse_Expr f 0 ts in Ok (VExpr e) ts.
Definition tuple (f : nat) (ts : list tok) : res (list Value) :=
  let* l, ts := expect TK_LPAR ts in let* vs, ts := sep_list (value f) f ts in let* r, ts := expect TK_RPAR ts in Ok vs ts.
Definition where_clause (f : nat) (ts : list tok) : res (option Expr) := clause (kw "WHERE") (fun ts => parse_Expr f 0 (consume ts)) ts.
(** Parser.cpp:622-634. *)
Definition assignment (f : nat) (ts : list tok) : res (tok * Expr) :=
  let* id, ts := expect TK_IDENTIFIER ts in let* q, ts := expect TK_EQUAL ts in let* e, ts := parse_Expr f 0 ts in Ok (id, e) ts.
Definition opt_string (T : tk) (ts : list tok) : res (option tok) :=
  match accept T ts with Some ts => let* s, ts := expect TK_STRING_LITERAL ts in Ok (Some s) ts | None => Ok None ts end.
Definition opt_header (T : tk) (ts : list tok) : res bool :=
  match accept T ts with Some ts => let* h, ts := expect (kw "HEADER") ts in Ok true ts | None => Ok false ts end.
(** [parse_ImportStmt], Parser.cpp:669-744, after 'IMPORT'. *)
Definition parse_ImportStmt (ts : list tok) : res Stmt :=
  let* k, ts := expect (kw "INTO") ts in
  let* t, ts := expect TK_IDENTIFIER ts in
  if is_ (kw "DSV") ts then
    let* path, ts := expect TK_STRING_LITERAL (consume ts) in
    let* rows, ts := match accept (kw "ROWS") ts with
                     | Some ts => if is_ TK_DEC_INT ts || is_ TK_OCT_INT ts then Ok (Some (token_ ts)) (consume ts) else Bad
                     | None => Ok None ts
                     end in
    let* delimiter, ts := opt_string (kw "DELIMITER") ts in
    let* escape, ts := opt_string (kw "ESCAPE") ts in
    let* quote, ts := opt_string (kw "QUOTE") ts in
    let* has, ts := opt_header (kw "HAS") ts in
    let* skip, ts := opt_header (kw "SKIP") ts in
    Ok (Import t path rows delimiter escape quote has skip) ts
  else Bad.
(** The statements, dispatched by [parse_Stmt], Parser.cpp:139-186; the first keywords are those of the dispatch. *)
Definition statement (f : nat) (ts : list tok) : res Stmt :=
  let T := type_ ts in let T1 := type_ (consume ts) in
  if tk_eqb T (kw "CREATE") then
    if tk_eqb T1 (kw "DATABASE") then let* n, ts := expect TK_IDENTIFIER (consume (consume ts)) in Ok (CreateDatabase n) ts     (* 192-210 *)
    else if tk_eqb T1 (kw "TABLE") then                                                                                        (* 257-367 *)
      let* n, ts := expect TK_IDENTIFIER (consume (consume ts)) in
      let* l, ts := expect TK_LPAR ts in
      let* attrs, ts := sep_list (attribute f) f ts in
      let* r, ts := expect TK_RPAR ts in
      Ok (CreateTable n attrs) ts
    else if tk_eqb T1 (kw "UNIQUE") || tk_eqb T1 (kw "INDEX") then parse_CreateIndexStmt f (consume ts)
    else Bad
  else if tk_eqb T (kw "DROP") then
    if tk_eqb T1 (kw "DATABASE") then                                                                                          (* 212-239 *)
      let* i, ts := if_exists (consume (consume ts)) in let* n, ts := expect TK_IDENTIFIER ts in Ok (DropDatabase n i) ts
    else if tk_eqb T1 (kw "TABLE") then                                                                                        (* 369-399 *)
      let* i, ts := if_exists (consume (consume ts)) in let* ns, ts := sep_list (expect TK_IDENTIFIER) f ts in Ok (DropTable ns i) ts
    else if tk_eqb T1 (kw "INDEX") then                                                                                        (* 481-511 *)
      let* i, ts := if_exists (consume (consume ts)) in let* ns, ts := sep_list (expect TK_IDENTIFIER) f ts in Ok (DropIndex ns i) ts
    else Bad
  else if tk_eqb T (kw "USE") then let* n, ts := expect TK_IDENTIFIER (consume ts) in Ok (UseDatabase n) ts                      (* 241-255 *)
  else if tk_eqb T (kw "SELECT") then let* q, ts := parse_SelectStmt f ts in Ok (SelectS q) ts
  else if tk_eqb T (kw "INSERT") then                                                                                          (* 545-606 *)
    let* k, ts := expect (kw "INTO") (consume ts) in
    let* t, ts := expect TK_IDENTIFIER ts in
    let* k, ts := expect (kw "VALUES") ts in
    let* tuples, ts := sep_list (tuple f) f ts in
    Ok (Insert t tuples) ts
  else if tk_eqb T (kw "UPDATE") then                                                                                          (* 608-643 *)
    let* t, ts := expect TK_IDENTIFIER (consume ts) in
    let* k, ts := expect (kw "SET") ts in
    let* set, ts := sep_list (assignment f) f ts in
    let* w, ts := where_clause f ts in
    Ok (Update t set w) ts
  else if tk_eqb T (kw "DELETE") then                                                                                          (* 645-667 *)
    let* k, ts := expect (kw "FROM") (consume ts) in
    let* t, ts := expect TK_IDENTIFIER ts in
    let* w, ts := where_clause f ts in
    Ok (Delete t w) ts
  else if tk_eqb T (kw "IMPORT") then parse_ImportStmt (consume ts)
  else Bad.
Definition parse_Stmt (ts : list tok) : res Stmt :=
  if is_ TK_SEMICOL ts then Ok EmptyStmt (consume ts)
  else let* s, ts' := statement (8 * length ts + 8) ts in let* k, ts' := expect TK_SEMICOL ts' in Ok s ts'.

(** Text to statement: [Lexer] and [Parser::parse_Stmt]. *)
Definition token_list (text : list N) : option (list tok) := option_map (map (fun t => (ttype t, ttext t))) (tokens text).
Definition parse_text (text : list N) : option (Stmt * list tok) :=
  match token_list text with
  | Some ts => match parse_Stmt ts with Ok s rest => Some (s, rest) | _ => None end
  | None => None
  end.

(** ** The printer, src/parse/ASTPrinter.cpp *)
Definition commas (l : list (list N)) : list N :=                                          (* [if (it != begin) out << ", "] *)
  match l with [] => [] | x :: r => x ++ concat (map (fun y => chars ", " ++ y) r) end.
Definition as_ (a : option tok) : list N := match a with Some t => chars " AS " ++ snd t | None => [] end.

Section Printer.
(** The generated name of a nested query, src/parse/AST.cpp:14-20. *)
Variable alias : Select -> list N.
(** Lines 12-68; [expand] is [expand_nested_queries_]. *)
Fixpoint print_expr (expand : bool) (e : Expr) {struct e} : list N :=
  match e with
  | Designator t a => match t with Some t => snd t ++ chars "." | None => [] end ++ snd a
  | Constant t => snd t
  | FnApplication fn args => print_expr expand fn ++ chars "(" ++ commas (map (print_expr expand) args) ++ chars ")"
  | Unary op e => chars "(" ++ snd op ++ (if tk_eqb (fst op) (kw "NOT") then chars " " else []) ++ print_expr expand e ++ chars ")"
  | Binary op l r => chars "(" ++ print_expr expand l ++ chars " " ++ snd op ++ chars " " ++ print_expr expand r ++ chars ")"
  | Query q => if expand then chars "(" ++ print_select expand q ++ chars ")" else alias q ++ chars "." ++ alias q
  end
(** Lines 76-141 and 285-320, without the final semicolon.  [out << *c.where] and [out << *c.having] make a new printer that does not
    expand nested queries (src/parse/AST.cpp:179-184). *)
with print_select (expand : bool) (q : Select) {struct q} : list N :=
  match q with
  | mkSelect all items from where_ group_by having order_by limit =>
      chars "SELECT "
      ++ commas (match all with Some _ => [chars "*"] | None => [] end ++ map (fun i => print_expr expand (fst i) ++ as_ (snd i)) items)
      ++ match from with Some l => [10%N] ++ chars "FROM " ++ commas (map (fun s => print_source expand (fst s) ++ as_ (snd s)) l) | None => [] end
      ++ match where_ with Some e => [10%N] ++ chars "WHERE " ++ print_expr false e | None => [] end
      ++ match group_by with Some l => [10%N] ++ chars "GROUP BY " ++ commas (map (fun i => print_expr expand (fst i) ++ as_ (snd i)) l) | None => [] end
      ++ match having with Some e => [10%N] ++ chars "HAVING " ++ print_expr false e | None => [] end
      ++ match order_by with
         | Some l => [10%N] ++ chars "ORDER BY " ++ commas (map (fun i => print_expr expand (fst i) ++ chars (if snd i : bool then " ASC" else " DESC")) l)
         | None => [] end
      ++ match limit with
         | Some (l, o) => [10%N] ++ chars "LIMIT " ++ snd l ++ match o with Some o => chars " OFFSET " ++ snd o | None => [] end
         | None => [] end
  end
with print_source (expand : bool) (s : Source) {struct s} : list N :=
  match s with Table t => snd t | Sub q => chars "(" ++ print_select expand q ++ chars ")" end.

(** [out << n] for an unsigned number. *)
Fixpoint decimal_ (f : nat) (n : N) (acc : list N) : list N :=
  match f with
  | O => acc
  | S f => let acc := (48 + n mod 10)%N :: acc in if (n / 10 =? 0)%N then acc else decimal_ f (n / 10) acc
  end.
Definition decimal (n : N) : list N := decimal_ (S (N.size_nat n)) n [].
(** src/catalog/Type.cpp:273-304. *)
Definition print_type (t : DataType) : list N :=
  match t with
  | BOOL => chars "BOOL" | CHAR n => chars "CHAR(" ++ decimal n ++ chars ")" | VARCHAR n => chars "VARCHAR(" ++ decimal n ++ chars ")"
  | DATE => chars "DATE" | DATETIME => chars "DATETIME" | INT n => chars "INT(" ++ decimal n ++ chars ")"
  | FLOAT => chars "FLOAT" | DOUBLE => chars "DOUBLE" | DECIMAL p s => chars "DECIMAL(" ++ decimal p ++ chars ", " ++ decimal s ++ chars ")"
  end.
(** Lines 145-170. *)
Definition print_constraint (c : Constraint) : list N :=
  match c with
  | PrimaryKey => chars "PRIMARY KEY" | Unique => chars "UNIQUE" | NotNull => chars "NOT NULL"
  | Check e => chars "CHECK (" ++ print_expr false e ++ chars ")"
  | References t a => chars "REFERENCES " ++ snd t ++ chars "(" ++ snd a ++ chars ")"
  end.
Definition print_value (v : Value) : list N := match v with VDefault => chars "DEFAULT" | VNull => chars "NULL" | VExpr e => print_expr false e end.
Definition sep_by (s : list N) (l : list (list N)) : list N := match l with [] => [] | x :: r => x ++ concat (map (fun y => s ++ y) r) end.
Definition print_where (w : option Expr) : list N := match w with Some e => [10%N] ++ chars "WHERE " ++ print_expr false e | None => [] end.
Definition opt_text (s : list N) (t : option tok) : list N := match t with Some t => s ++ snd t | None => [] end.
(** Lines 185-375. *)
Definition print_stmt (expand : bool) (s : Stmt) : list N :=
  match s with
  | EmptyStmt => chars ";"
  | CreateDatabase n => chars "CREATE DATABASE " ++ snd n ++ chars ";"
  | DropDatabase n i => chars "DROP DATABASE " ++ (if i then chars "IF EXISTS " else []) ++ snd n ++ chars ";"
  | UseDatabase n => chars "USE " ++ snd n ++ chars ";"
  | CreateTable n attrs =>
      chars "CREATE TABLE " ++ snd n ++ [10%N] ++ chars "("
      ++ sep_by (chars ",") (map (fun a => [10%N] ++ chars "    " ++ snd (fst (fst a)) ++ chars " " ++ print_type (snd (fst a))
                                           ++ concat (map (fun c => chars " " ++ print_constraint c) (snd a))) attrs)
      ++ [10%N] ++ chars ");"
  | DropTable ns i => chars "DROP TABLE " ++ (if i then chars "IF EXISTS " else []) ++ commas (map snd ns) ++ chars ";"
  | CreateIndex u i n t m ks =>
      chars "CREATE " ++ (if u then chars "UNIQUE " else []) ++ chars "INDEX " ++ (if i then chars "IF NOT EXISTS " else [])
      ++ match n with Some n => snd n ++ chars " " | None => [] end ++ chars "ON " ++ snd t ++ opt_text (chars " USING ") m
      ++ [10%N] ++ chars "(" ++ sep_by (chars ",") (map (fun k => [10%N] ++ chars "    " ++ print_expr expand k) ks) ++ [10%N] ++ chars ");"
  | DropIndex ns i => chars "DROP INDEX " ++ (if i then chars "IF EXISTS " else []) ++ commas (map snd ns) ++ chars ";"
  | SelectS q => print_select expand q ++ chars ";"
  | Insert t tuples =>
      chars "INSERT INTO " ++ snd t ++ [10%N] ++ chars "VALUES" ++ [10%N] ++ chars "    "
      ++ sep_by (chars "," ++ [10%N] ++ chars "    ") (map (fun vs => chars "(" ++ commas (map print_value vs) ++ chars ")") tuples) ++ chars ";"
  | Update t set w =>
      chars "UPDATE " ++ snd t ++ [10%N] ++ chars "SET" ++ [10%N]
      ++ sep_by (chars "," ++ [10%N]) (map (fun a => chars "    " ++ snd (fst a) ++ chars " = " ++ print_expr false (snd a)) set)
      ++ print_where w ++ chars ";"
  | Delete t w => chars "DELETE FROM " ++ snd t ++ print_where w ++ chars ";"
  | Import t path rows delimiter escape quote has skip =>                      (* ESCAPE and QUOTE are not printed *)
      chars "IMPORT INTO " ++ snd t ++ chars " DSV " ++ snd path ++ opt_text (chars " ROWS ") rows ++ opt_text (chars " DELIMITER ") delimiter
      ++ (if has then chars " HAS HEADER" else []) ++ (if skip then chars " SKIP HEADER" else []) ++ chars ";"
  end.
End Printer.
