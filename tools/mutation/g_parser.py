from gen import dump
G="C56: documented commands get the documented tree"
P="C56: printed statements are read back"
A="C56: accepted texts are commands of the grammar"
L=[
("accept","if is_ T ts || is_ TK_ERROR ts then","if is_ T ts then","error tokens not accepted (clean texts unaffected)","harmless: only texts with error tokens"),
("accept","Some (consume ts) else None.","Some ts else None.","accepted token not consumed",G),
("sep_list","Ok (a :: l) ts","Ok (l ++ [a]) ts","list reversed",G),
("sep_list","| None => Ok [a] ts","| None => Ok [] ts","last item dropped",G),
("get_precedence","| TK_DOTDOT => 5","| TK_DOTDOT => 6","concatenation like addition",G),
("get_precedence",'if tk_eqb T (kw "NOT") then 3 else','if tk_eqb T (kw "NOT") then 5 else',"NOT binds stronger than comparison",G),
("get_precedence",'if tk_eqb T (kw "AND") then 2\n','if tk_eqb T (kw "AND") then 1\n',"AND like OR",G),
("get_precedence",'if tk_eqb T (kw "LIKE") then 4 else ','',"LIKE no operator",G),
("get_precedence","| TK_LESS_EQUAL | TK_GREATER_EQUAL | TK_EQUAL","| TK_LESS_EQUAL | TK_EQUAL",">= no operator",G),
("get_precedence","TK_ASTERISK | TK_SLASH | TK_PERCENT => 7","TK_ASTERISK | TK_SLASH => 7\n  | TK_PERCENT => 6","% like +",G),
("is_integer","TK_OCT_INT | TK_DEC_INT | TK_HEX_INT => true","TK_DEC_INT => true","LIMIT of octal or hexadecimal numbers rejected",G),
("parse_designator","Ok (Designator (Some lhs) rhs) ts","Ok (Designator (Some rhs) lhs) ts","table and attribute swapped",G),
("opt_alias","then Ok (Some (token_ ts)) (consume ts) else","then Ok (Some (token_ ts)) ts else","alias not consumed",G),
("opt_alias","| None => if is_ TK_IDENTIFIER ts then Ok (Some (token_ ts)) (consume ts) else Ok None ts","| None => Ok None ts","alias without AS not read",G),
("source",'let ts := match accept (kw "AS") ts with Some ts => ts | None => ts end in\n      ','let* k, ts := expect (kw "AS") ts in\n      ',"AS mandatory after nested query",G),
("order_item","Ok (e, false) ts","Ok (e, true) ts","DESC lost",G),
("order_item",'(match accept (kw "ASC") ts with Some ts => ts | None => ts end)','ts',"ASC not read",G),
("parse_LimitClause","Ok (l, Some o) ts","Ok (o, Some l) ts","limit and offset swapped",G),
("parse_LimitClause","Ok (l, Some o) ts","Ok (l, None) ts","offset dropped",G),
("primary","parse_Expr f (get_precedence TK_TILDE) (consume ts)","parse_Expr f 0 (consume ts)","sign applied to the rest of the expression",G),
("primary",'parse_Expr f (get_precedence (kw "NOT")) (consume ts)',"parse_Expr f (get_precedence TK_TILDE) (consume ts)","NOT like a sign",G),
("primary",'is_ (kw "NULL") ts || ','',"NULL no constant",G),
("primary",'parse_SelectStmt f ts in Ok (Query q) ts else parse_Expr f 0 ts','parse_SelectStmt f ts in Ok (Query q) ts else primary f ts',"parentheses around primary expressions only",G),
("primary","let* r, ts := expect TK_RPAR ts in Ok e ts","Ok e ts","closing parenthesis not read",G),
("postfix","postfix f (FnApplication lhs args) ts","Ok (FnApplication lhs args) ts","only one application",G),
("postfix","sep_list (parse_Expr f 0) f ts else","sep_list (parse_Expr f 1) f ts else","arguments from level 1 (harmless: no operator at level 0)","harmless"),
("postfix","if is_ TK_ASTERISK ts then Ok [] (consume ts)\n                         else ","","f(*) rejected",G),
("binary","if p >? q then","if p >=? q then","operators at the level itself not read",G),
("binary","parse_Expr f (q + 1) (consume ts)","parse_Expr f q (consume ts)","grouping to the right",G),
("binary","(Binary (token_ ts) lhs rhs)","(Binary (token_ ts) rhs lhs)","operands swapped",G),
("binary","in binary f p (Binary","in binary f q (Binary","level raised after an operator",G),
("parse_SelectStmt","| None => Ok (Some all, []) (consume ts)","| None => Ok (None, []) (consume ts)","asterisk lost",G),
("parse_SelectStmt","Ok (Some all, l) ts","Ok (Some all, []) ts","items after the asterisk lost",G),
("parse_SelectStmt","(fst sel) (snd sel) from where_ group_by having order_by limit) ts","(fst sel) (snd sel) from having group_by where_ order_by limit) ts","WHERE and HAVING swapped",G),
("parse_SelectStmt",'clause (kw "HAVING") (fun ts => parse_Expr f 0','clause (kw "HAVING") (fun ts => parse_Expr f 2',"HAVING without OR",G),
("strtoul","(2 ^ 64)%N","(2 ^ 63)%N","half of the range",G),
("strtoul","v * 10 + (c - 48)","v * 8 + (c - 48)","octal",G),
("parse_data_type",'(kw "CHAR") then sized CHAR','(kw "CHAR") then sized VARCHAR',"CHAR becomes VARCHAR",G),
("parse_data_type","Ok (DECIMAL p s) ts","Ok (DECIMAL s p) ts","precision and scale swapped",G),
("parse_data_type","| None => Some 0%N end with","| None => strtoul (snd p) end with","default scale is the precision",G),
("constraints","Ok (c :: l) ts","Ok l ts","constraints dropped",G),
("constraints","Ok (Some (References t a)) ts","Ok (Some (References a t)) ts","table and attribute of REFERENCES swapped",G),
("constraints",'let* k, ts := expect (kw "NULL") ts\' in Ok (Some NotNull) ts','Ok (Some NotNull) ts\'',"NULL after NOT not read",G),
("key_field","| TK_LPAR => parse_Expr f 0 ts","| TK_LPAR => Bad","no expressions as index keys",G),
("parse_CreateIndexStmt","Ok (true, Some n) ts","Ok (false, Some n) ts","IF NOT EXISTS lost",G),
("parse_CreateIndexStmt","Ok (CreateIndex u (fst n)","Ok (CreateIndex (negb u) (fst n)","UNIQUE inverted",G),
("parse_CreateIndexStmt",'is_ TK_IDENTIFIER ts || is_ (kw "DEFAULT") ts then','is_ TK_IDENTIFIER ts then',"USING DEFAULT rejected",G),
("value",'if is_ (kw "DEFAULT") ts then Ok VDefault','if is_ (kw "DEFAULT") ts then Ok VNull',"DEFAULT becomes NULL",G),
("value",'else if is_ (kw "NULL") ts then Ok VNull (consume ts)\n  ','',"NULL read as an expression",G),
("assignment","let* q, ts := expect TK_EQUAL ts in let* e, ts := parse_Expr f 0 ts in Ok (id, e) ts","let* q, ts := expect TK_EQUAL ts in let* e, ts := parse_Expr f 5 ts in Ok (id, e) ts","no conditions in SET",G),
("opt_header",'let* h, ts := expect (kw "HEADER") ts in ','',"HEADER not read",G),
("parse_ImportStmt","Ok (Import t path rows delimiter escape quote has skip) ts","Ok (Import t path rows delimiter quote escape has skip) ts","ESCAPE and QUOTE swapped",G),
("parse_ImportStmt","Ok (Import t path rows delimiter escape quote has skip) ts","Ok (Import t path rows delimiter escape quote skip has) ts","HAS and SKIP swapped",G),
("parse_ImportStmt","is_ TK_DEC_INT ts || is_ TK_OCT_INT ts then","is_integer (type_ ts) then","hexadecimal numbers of rows accepted",A),
("statement","in Ok (DropDatabase n i) ts","in Ok (DropDatabase n false) ts","IF EXISTS lost",G),
("statement","in Ok (DropIndex ns i) ts","in Ok (DropTable ns i) ts","DROP INDEX drops tables",G),
("statement","Ok (Delete t w) ts","Ok (Delete t None) ts","DELETE ignores WHERE",G),
("statement","Ok (Update t set w) ts","Ok (Update t set None) ts","UPDATE ignores WHERE",G),
("statement",'tk_eqb T1 (kw "UNIQUE") || tk_eqb T1 (kw "INDEX") then','tk_eqb T1 (kw "INDEX") then',"UNIQUE INDEX rejected",G),
("parse_Stmt","let* k, ts' := expect TK_SEMICOL ts' in Ok s ts'","Ok s ts'","semicolon not read",G),
("parse_Stmt","(8 * length ts + 8)","(2 * length ts + 8)","too little fuel",G),
("parse_Stmt","if is_ TK_SEMICOL ts then Ok EmptyStmt (consume ts)\n  else ","","empty statement rejected",G),
("print_expr",'(if tk_eqb (fst op) (kw "NOT") then chars " " else [])','[]',"NOTa",P),
("print_expr",'chars "(" ++ print_expr expand l ++ chars " " ++ snd op ++ chars " " ++ print_expr expand r ++ chars ")"','print_expr expand l ++ chars " " ++ snd op ++ chars " " ++ print_expr expand r',"no parentheses",P),
("print_expr",'chars "(" ++ print_expr expand l ++ chars " " ++ snd op ++ chars " " ++ print_expr expand r ++ chars ")"','chars "(" ++ print_expr expand l ++ snd op ++ print_expr expand r ++ chars ")"',"no blanks around operators",P),
("print_expr",'chars "(" ++ print_select expand q ++ chars ")" else','print_select expand q else',"nested query without parentheses",P),
("print_expr",'Some t => snd t ++ chars "."','Some t => snd t ++ chars " "',"no dot",P),
("print_select",'(if snd i : bool then " ASC" else " DESC")','(if snd i : bool then " DESC" else " ASC")',"ASC and DESC swapped",P),
("print_select",'Some _ => [chars "*"] | None => []','Some _ => [] | None => []',"asterisk not printed",P),
("print_select",'chars " OFFSET " ++ snd o','chars " OFFSET " ++ snd l',"limit printed as offset",P),
("print_select",'chars "GROUP BY " ++ commas','chars "GROUP " ++ commas',"BY missing",P),
("decimal_","if (n / 10 =? 0)%N then acc else","if (n =? 0)%N then acc else","leading zero",P),
("decimal_","(48 + n mod 10)%N","(48 + n mod 8)%N","wrong digit",P),
("print_type",'| FLOAT => chars "FLOAT"','| FLOAT => chars "DOUBLE"',"FLOAT printed as DOUBLE",P),
("print_constraint",'chars "PRIMARY KEY"','chars "PRIMARY"',"KEY missing",P),
("print_constraint",'snd t ++ chars "(" ++ snd a','snd a ++ chars "(" ++ snd t',"table and attribute swapped",P),
("sep_by","map (fun y => s ++ y) r","map (fun y => y ++ s) r","separators at the end",P),
("print_stmt",'(if i then chars "IF NOT EXISTS " else [])','(if i then chars "IF EXISTS " else [])',"NOT missing",P),
("print_stmt",'| DropTable ns i => chars "DROP TABLE " ++ (if i','| DropTable ns i => chars "DROP TABLE " ++ (if negb i',"flag inverted",P),
("print_stmt",'(if skip then chars " SKIP HEADER" else [])','(if skip then chars " HAS HEADER" else [])',"SKIP printed as HAS",P),
("print_stmt",'chars " = " ++ print_expr false (snd a)) set)\n      ++ print_where w','chars " = " ++ print_expr false (snd a)) set)',"UPDATE printed without WHERE",P),
("print_stmt",'chars "DELETE FROM " ++ snd t ++ print_where w','chars "DELETE FROM " ++ snd t',"DELETE printed without WHERE",P),
("parse_text","Some (s, rest)","Some (s, [])","rest dropped",G),
]
dump("parser",'Parser',['ParserSpec','ParserProofs','ParserStmt','ParserSound','ParserStmtSound','ParserTerm','ParserPrint','ParserPrint2','ParserPrint3','ParserProps'],L)
