from gen import dump
dump('sm','StackMachine.v',['StackMachineProps','StackMachineExact'],[
("delta","| Push_Null | Dup | Ld_Ctx | Ld_Tup => 1","| Push_Null | Dup | Ld_Ctx | Ld_Tup => 0","pushes not counted","C32: required size"),
("delta","| St_i8 | St_i16 | St_i32 | St_i64 | St_f | St_d | St_b | Sel => (-2)","| St_i8 | St_i16 | St_i32 | St_i64 | St_f | St_d | St_b | Sel => (-1)","stack delta of stores wrong","C32: table"),
("effect","| Sel => (3%nat, (-2))","| Sel => (3%nat, (-1))","interpreter leaves the condition of Sel on the stack","C32: table"),
("as_b","negb (z mod 256 =? 0)","negb (z =? 0)","(reading an integer as boolean; never in well-typed code)","(harmless for typed expressions)"),
("emit_op","Z.max (req m) c","req m","required size not raised","C32: no overrun"),
("emit_op","Z.max (req m) c) c.","Z.max (req m) c) (cur m).","current size not updated","C32: no overrun"),
("add_load","emit_op Ld_Ctx [length (ctx m)]","emit_op Ld_Ctx [S (length (ctx m))]","wrong constant index","C31: value"),
("push","<? cap then","<=? cap then","bound check of the model off by one","C32: overrun detected"),
("unary","Some r => Ok ((r, n) :: st')","Some r => Ok ((r, false) :: st')","unary drops NULL","C31: NULL propagation"),
("binary","(r, nl || nr) :: st')","(r, nl && nr) :: st')","NULL only if both operands are NULL","C31: NULL propagation"),
("binary","match f lhs rhs with","match f rhs lhs with","operands swapped","C31: value"),
("arith","(as_i r) in if in64 z then Some (VI z) else None","(as_i r) in if in64 z then Some (VI z) else Some (VI (z mod 2 ^ 63))","wrong wrapping instead of a trap","C31: value"),
("arith","(as_i r) in if in64 z then Some (VI z) else None","(as_i r) in if in64 z then None else None","arithmetic always traps","C31: exactly when it traps"),
("divide","(as_i r =? 0) || ","","division by zero undetected","C31: exactly when it traps"),
("step","| Is_Null, _ => match st with (v, n) :: st' => Ok ((VB n, false) :: st')","| Is_Null, _ => match st with (v, n) :: st' => Ok ((VB n, n) :: st')","IS NULL of NULL is NULL","C31: IS NULL"),
("step","Some (VI (- as_i v - 1))","Some (VI (- as_i v))","complement is negation","C31: value"),
("step","Ok ((VB (lhs && rhs), (lhs || nl) && (rhs || nr) && (nl || nr)) :: st')","Ok ((VB (lhs && rhs), nl || nr) :: st')","AND strict in NULL","C33: AND"),
("step","Ok ((VB (lhs || rhs), (negb lhs || nl) && (negb rhs || nr) && (nl || nr)) :: st')","Ok ((VB (lhs || rhs), (lhs || nl) && (rhs || nr) && (nl || nr)) :: st')","OR uses the NULL rule of AND","C33: OR"),
("step","| LE_i, _ => binary (compare_i Z.leb) st","| LE_i, _ => binary (compare_i Z.ltb) st","<= compiled as <","C31: comparison"),
("step","| GE_i, _ => binary (compare_i Z.geb) st","| GE_i, _ => binary (compare_i Z.leb) st",">= compiled as <=","C31: comparison"),
("step","| NE_b, _ => binary (compare_b xorb) st","| NE_b, _ => binary (compare_b Bool.eqb) st","<> on booleans is =","C31: comparison"),
("step","| Mod_i, _ => binary (divide Z.rem) st","| Mod_i, _ => binary (divide Z.modulo) st","modulo with floor semantics","C31: modulo of negatives"),
("step","| Div_i, _ => binary (divide Z.quot) st","| Div_i, _ => binary (divide Z.div) st","division rounds down","C31: truncation"),
("step","nth_error ts t with\n      | Some tup => match nth_error tup k","nth_error ts k with\n      | Some tup => match nth_error tup t","tuple and attribute index swapped","C31: value"),
("pow10","wrap64 (10 ^ Z.of_nat n)","wrap64 (10 * Z.of_nat n)","scale factor is a multiple","C31: rescaling"),
("c_scale","(add_load (VI (pow10 (to - from))) m)","(add_load (VI (pow10 to)) m)","rescales by the wrong power","C31: rescaling"),
("c_scale","if Nat.ltb from to then emit_op Mul_i []","if Nat.ltb from to then emit_op Div_i []","rescales in the wrong direction","C31: rescaling"),
("cmp_i","CLT => LT_i | CGT => GT_i","CLT => GT_i | CGT => LT_i","< and > swapped","C31: comparison"),
("compile","| ECastInt e => match type_of e with Some TBool => emit_op Cast_i_b [] (compile e m) | _ => compile e m end","| ECastInt e => compile e m","INT(bool) not converted","(C31: booleans read as integers see 0/1: harmless?)"),
("compile","let m2 := c_scale sr s (compile r m1) in","let m2 := compile r m1 in","right operand of + not rescaled","C31: value"),
("compile","emit_raw (match o with APlus => Add_i | _ => Sub_i end) m2","emit_raw Add_i m2","minus compiled as plus","C31: value"),
("compile","if Nat.eqb (sl + sr - s) O then m1 else emit_op Div_i []","if true then m1 else emit_op Div_i []","product not rescaled","C31: multiplication of decimals"),
("compile","if Z.of_nat sl - Z.of_nat sr <? Z.of_nat s\n","if Z.of_nat sl <? Z.of_nat s\n","dividend not rescaled if the left scale is the larger","C31: division of decimals"),
("compile","emit_raw (cmp_i o) (c_scale sr s (compile r (c_scale sl s (compile l m))))","emit_raw (cmp_i o) (compile r (compile l m))","comparison without rescaling","C31: comparison of decimals"),
("compile","| EAnd l r => emit_op And_b []","| EAnd l r => emit_op Or_b []","AND compiled as OR","C31: value"),
("compile_clause","if neg : bool then emit_raw Not_b m1 else m1","m1","negation of literals ignored","C31: filters"),
("compile_clause","(if first then m2 else emit_raw Or_b m2)","(if first then m2 else emit_raw And_b m2)","clause compiled as conjunction","C31: filters"),
("compile_cnf","(if first then m1 else emit_raw And_b m1)","m1","clauses not combined","C31: filters"),
("type_of","| ECastInt e => match type_of e with Some TBool | Some (TNum NInt _) => Some (TNum NInt O)","| ECastInt e => match type_of e with Some TBool | Some (TNum _ _) => Some (TNum NInt O)","INT(decimal) accepted although not implemented","C31: value"),
("num_join","Nat.max s s'","s","scale of the result is the left one","C31: value"),
])
