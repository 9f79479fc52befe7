[
 {
  "id": "sm1",
  "file": "StackMachine",
  "definition": "delta",
  "old": "| Push_Null | Dup | Ld_Ctx | Ld_Tup => 1",
  "new": "| Push_Null | Dup | Ld_Ctx | Ld_Tup => 0",
  "edit": "pushes not counted",
  "claim": "C32: required size",
  "only": [
   "StackMachineProps",
   "StackMachineExact"
  ]
 },
 {
  "id": "sm2",
  "file": "StackMachine",
  "definition": "delta",
  "old": "| St_i8 | St_i16 | St_i32 | St_i64 | St_f | St_d | St_b | Sel => (-2)",
  "new": "| St_i8 | St_i16 | St_i32 | St_i64 | St_f | St_d | St_b | Sel => (-1)",
  "edit": "stack delta of stores wrong",
  "claim": "C32: table",
  "only": [
   "StackMachineProps",
   "StackMachineExact"
  ]
 },
 {
  "id": "sm3",
  "file": "StackMachine",
  "definition": "effect",
  "old": "| Sel => (3%nat, (-2))",
  "new": "| Sel => (3%nat, (-1))",
  "edit": "interpreter leaves the condition of Sel on the stack",
  "claim": "C32: table",
  "only": [
   "StackMachineProps",
   "StackMachineExact"
  ]
 },
 {
  "id": "sm4",
  "file": "StackMachine",
  "definition": "as_b",
  "old": "negb (z mod 256 =? 0)",
  "new": "negb (z =? 0)",
  "edit": "(reading an integer as boolean; never in well-typed code)",
  "claim": "(harmless for typed expressions)",
  "only": [
   "StackMachineProps",
   "StackMachineExact"
  ]
 },
 {
  "id": "sm5",
  "file": "StackMachine",
  "definition": "emit_op",
  "old": "Z.max (req m) c",
  "new": "req m",
  "edit": "required size not raised",
  "claim": "C32: no overrun",
  "only": [
   "StackMachineProps",
   "StackMachineExact"
  ]
 },
 {
  "id": "sm6",
  "file": "StackMachine",
  "definition": "emit_op",
  "old": "Z.max (req m) c) c.",
  "new": "Z.max (req m) c) (cur m).",
  "edit": "current size not updated",
  "claim": "C32: no overrun",
  "only": [
   "StackMachineProps",
   "StackMachineExact"
  ]
 },
 {
  "id": "sm7",
  "file": "StackMachine",
  "definition": "add_load",
  "old": "emit_op Ld_Ctx [length (ctx m)]",
  "new": "emit_op Ld_Ctx [S (length (ctx m))]",
  "edit": "wrong constant index",
  "claim": "C31: value",
  "only": [
   "StackMachineProps",
   "StackMachineExact"
  ]
 },
 {
  "id": "sm8",
  "file": "StackMachine",
  "definition": "push",
  "old": "<? cap then",
  "new": "<=? cap then",
  "edit": "bound check of the model off by one",
  "claim": "C32: overrun detected",
  "only": [
   "StackMachineProps",
   "StackMachineExact"
  ]
 },
 {
  "id": "sm9",
  "file": "StackMachine",
  "definition": "unary",
  "old": "Some r => Ok ((r, n) :: st')",
  "new": "Some r => Ok ((r, false) :: st')",
  "edit": "unary drops NULL",
  "claim": "C31: NULL propagation",
  "only": [
   "StackMachineProps",
   "StackMachineExact"
  ]
 },
 {
  "id": "sm10",
  "file": "StackMachine",
  "definition": "binary",
  "old": "(r, nl || nr) :: st')",
  "new": "(r, nl && nr) :: st')",
  "edit": "NULL only if both operands are NULL",
  "claim": "C31: NULL propagation",
  "only": [
   "StackMachineProps",
   "StackMachineExact"
  ]
 },
 {
  "id": "sm11",
  "file": "StackMachine",
  "definition": "binary",
  "old": "match f lhs rhs with",
  "new": "match f rhs lhs with",
  "edit": "operands swapped",
  "claim": "C31: value",
  "only": [
   "StackMachineProps",
   "StackMachineExact"
  ]
 },
 {
  "id": "sm12",
  "file": "StackMachine",
  "definition": "arith",
  "old": "(as_i r) in if in64 z then Some (VI z) else None",
  "new": "(as_i r) in if in64 z then Some (VI z) else Some (VI (z mod 2 ^ 63))",
  "edit": "wrong wrapping instead of a trap",
  "claim": "C31: value",
  "only": [
   "StackMachineProps",
   "StackMachineExact"
  ]
 },
 {
  "id": "sm13",
  "file": "StackMachine",
  "definition": "arith",
  "old": "(as_i r) in if in64 z then Some (VI z) else None",
  "new": "(as_i r) in if in64 z then None else None",
  "edit": "arithmetic always traps",
  "claim": "C31: exactly when it traps",
  "only": [
   "StackMachineProps",
   "StackMachineExact"
  ]
 },
 {
  "id": "sm14",
  "file": "StackMachine",
  "definition": "divide",
  "old": "(as_i r =? 0) || ",
  "new": "",
  "edit": "division by zero undetected",
  "claim": "C31: exactly when it traps",
  "only": [
   "StackMachineProps",
   "StackMachineExact"
  ]
 },
 {
  "id": "sm15",
  "file": "StackMachine",
  "definition": "step",
  "old": "| Is_Null, _ => match st with (v, n) :: st' => Ok ((VB n, false) :: st')",
  "new": "| Is_Null, _ => match st with (v, n) :: st' => Ok ((VB n, n) :: st')",
  "edit": "IS NULL of NULL is NULL",
  "claim": "C31: IS NULL",
  "only": [
   "StackMachineProps",
   "StackMachineExact"
  ]
 },
 {
  "id": "sm16",
  "file": "StackMachine",
  "definition": "step",
  "old": "Some (VI (- as_i v - 1))",
  "new": "Some (VI (- as_i v))",
  "edit": "complement is negation",
  "claim": "C31: value",
  "only": [
   "StackMachineProps",
   "StackMachineExact"
  ]
 },
 {
  "id": "sm17",
  "file": "StackMachine",
  "definition": "step",
  "old": "Ok ((VB (lhs && rhs), (lhs || nl) && (rhs || nr) && (nl || nr)) :: st')",
  "new": "Ok ((VB (lhs && rhs), nl || nr) :: st')",
  "edit": "AND strict in NULL",
  "claim": "C33: AND",
  "only": [
   "StackMachineProps",
   "StackMachineExact"
  ]
 },
 {
  "id": "sm18",
  "file": "StackMachine",
  "definition": "step",
  "old": "Ok ((VB (lhs || rhs), (negb lhs || nl) && (negb rhs || nr) && (nl || nr)) :: st')",
  "new": "Ok ((VB (lhs || rhs), (lhs || nl) && (rhs || nr) && (nl || nr)) :: st')",
  "edit": "OR uses the NULL rule of AND",
  "claim": "C33: OR",
  "only": [
   "StackMachineProps",
   "StackMachineExact"
  ]
 },
 {
  "id": "sm19",
  "file": "StackMachine",
  "definition": "step",
  "old": "| LE_i, _ => binary (compare_i Z.leb) st",
  "new": "| LE_i, _ => binary (compare_i Z.ltb) st",
  "edit": "<= compiled as <",
  "claim": "C31: comparison",
  "only": [
   "StackMachineProps",
   "StackMachineExact"
  ]
 },
 {
  "id": "sm20",
  "file": "StackMachine",
  "definition": "step",
  "old": "| GE_i, _ => binary (compare_i Z.geb) st",
  "new": "| GE_i, _ => binary (compare_i Z.leb) st",
  "edit": ">= compiled as <=",
  "claim": "C31: comparison",
  "only": [
   "StackMachineProps",
   "StackMachineExact"
  ]
 },
 {
  "id": "sm21",
  "file": "StackMachine",
  "definition": "step",
  "old": "| NE_b, _ => binary (compare_b xorb) st",
  "new": "| NE_b, _ => binary (compare_b Bool.eqb) st",
  "edit": "<> on booleans is =",
  "claim": "C31: comparison",
  "only": [
   "StackMachineProps",
   "StackMachineExact"
  ]
 },
 {
  "id": "sm22",
  "file": "StackMachine",
  "definition": "step",
  "old": "| Mod_i, _ => binary (divide Z.rem) st",
  "new": "| Mod_i, _ => binary (divide Z.modulo) st",
  "edit": "modulo with floor semantics",
  "claim": "C31: modulo of negatives",
  "only": [
   "StackMachineProps",
   "StackMachineExact"
  ]
 },
 {
  "id": "sm23",
  "file": "StackMachine",
  "definition": "step",
  "old": "| Div_i, _ => binary (divide Z.quot) st",
  "new": "| Div_i, _ => binary (divide Z.div) st",
  "edit": "division rounds down",
  "claim": "C31: truncation",
  "only": [
   "StackMachineProps",
   "StackMachineExact"
  ]
 },
 {
  "id": "sm24",
  "file": "StackMachine",
  "definition": "step",
  "old": "nth_error ts t with\n      | Some tup => match nth_error tup k",
  "new": "nth_error ts k with\n      | Some tup => match nth_error tup t",
  "edit": "tuple and attribute index swapped",
  "claim": "C31: value",
  "only": [
   "StackMachineProps",
   "StackMachineExact"
  ]
 },
 {
  "id": "sm25",
  "file": "StackMachine",
  "definition": "pow10",
  "old": "wrap64 (10 ^ Z.of_nat n)",
  "new": "wrap64 (10 * Z.of_nat n)",
  "edit": "scale factor is a multiple",
  "claim": "C31: rescaling",
  "only": [
   "StackMachineProps",
   "StackMachineExact"
  ]
 },
 {
  "id": "sm26",
  "file": "StackMachine",
  "definition": "c_scale",
  "old": "(add_load (VI (pow10 (to - from))) m)",
  "new": "(add_load (VI (pow10 to)) m)",
  "edit": "rescales by the wrong power",
  "claim": "C31: rescaling",
  "only": [
   "StackMachineProps",
   "StackMachineExact"
  ]
 },
 {
  "id": "sm27",
  "file": "StackMachine",
  "definition": "c_scale",
  "old": "if Nat.ltb from to then emit_op Mul_i []",
  "new": "if Nat.ltb from to then emit_op Div_i []",
  "edit": "rescales in the wrong direction",
  "claim": "C31: rescaling",
  "only": [
   "StackMachineProps",
   "StackMachineExact"
  ]
 },
 {
  "id": "sm28",
  "file": "StackMachine",
  "definition": "cmp_i",
  "old": "CLT => LT_i | CGT => GT_i",
  "new": "CLT => GT_i | CGT => LT_i",
  "edit": "< and > swapped",
  "claim": "C31: comparison",
  "only": [
   "StackMachineProps",
   "StackMachineExact"
  ]
 },
 {
  "id": "sm29",
  "file": "StackMachine",
  "definition": "compile",
  "old": "| ECastInt e => match type_of e with Some TBool => emit_op Cast_i_b [] (compile e m) | _ => compile e m end",
  "new": "| ECastInt e => compile e m",
  "edit": "INT(bool) not converted",
  "claim": "(C31: booleans read as integers see 0/1: harmless?)",
  "only": [
   "StackMachineProps",
   "StackMachineExact"
  ]
 },
 {
  "id": "sm30",
  "file": "StackMachine",
  "definition": "compile",
  "old": "let m2 := c_scale sr s (compile r m1) in",
  "new": "let m2 := compile r m1 in",
  "edit": "right operand of + not rescaled",
  "claim": "C31: value",
  "only": [
   "StackMachineProps",
   "StackMachineExact"
  ]
 },
 {
  "id": "sm31",
  "file": "StackMachine",
  "definition": "compile",
  "old": "emit_raw (match o with APlus => Add_i | _ => Sub_i end) m2",
  "new": "emit_raw Add_i m2",
  "edit": "minus compiled as plus",
  "claim": "C31: value",
  "only": [
   "StackMachineProps",
   "StackMachineExact"
  ]
 },
 {
  "id": "sm32",
  "file": "StackMachine",
  "definition": "compile",
  "old": "if Nat.eqb (sl + sr - s) O then m1 else emit_op Div_i []",
  "new": "if true then m1 else emit_op Div_i []",
  "edit": "product not rescaled",
  "claim": "C31: multiplication of decimals",
  "only": [
   "StackMachineProps",
   "StackMachineExact"
  ]
 },
 {
  "id": "sm33",
  "file": "StackMachine",
  "definition": "compile",
  "old": "if Z.of_nat sl - Z.of_nat sr <? Z.of_nat s\n",
  "new": "if Z.of_nat sl <? Z.of_nat s\n",
  "edit": "dividend not rescaled if the left scale is the larger",
  "claim": "C31: division of decimals",
  "only": [
   "StackMachineProps",
   "StackMachineExact"
  ]
 },
 {
  "id": "sm34",
  "file": "StackMachine",
  "definition": "compile",
  "old": "emit_raw (cmp_i o) (c_scale sr s (compile r (c_scale sl s (compile l m))))",
  "new": "emit_raw (cmp_i o) (compile r (compile l m))",
  "edit": "comparison without rescaling",
  "claim": "C31: comparison of decimals",
  "only": [
   "StackMachineProps",
   "StackMachineExact"
  ]
 },
 {
  "id": "sm35",
  "file": "StackMachine",
  "definition": "compile",
  "old": "| EAnd l r => emit_op And_b []",
  "new": "| EAnd l r => emit_op Or_b []",
  "edit": "AND compiled as OR",
  "claim": "C31: value",
  "only": [
   "StackMachineProps",
   "StackMachineExact"
  ]
 },
 {
  "id": "sm36",
  "file": "StackMachine",
  "definition": "compile_clause",
  "old": "if neg : bool then emit_raw Not_b m1 else m1",
  "new": "m1",
  "edit": "negation of literals ignored",
  "claim": "C31: filters",
  "only": [
   "StackMachineProps",
   "StackMachineExact"
  ]
 },
 {
  "id": "sm37",
  "file": "StackMachine",
  "definition": "compile_clause",
  "old": "(if first then m2 else emit_raw Or_b m2)",
  "new": "(if first then m2 else emit_raw And_b m2)",
  "edit": "clause compiled as conjunction",
  "claim": "C31: filters",
  "only": [
   "StackMachineProps",
   "StackMachineExact"
  ]
 },
 {
  "id": "sm38",
  "file": "StackMachine",
  "definition": "compile_cnf",
  "old": "(if first then m1 else emit_raw And_b m1)",
  "new": "m1",
  "edit": "clauses not combined",
  "claim": "C31: filters",
  "only": [
   "StackMachineProps",
   "StackMachineExact"
  ]
 },
 {
  "id": "sm39",
  "file": "StackMachine",
  "definition": "type_of",
  "old": "| ECastInt e => match type_of e with Some TBool | Some (TNum NInt _) => Some (TNum NInt O)",
  "new": "| ECastInt e => match type_of e with Some TBool | Some (TNum _ _) => Some (TNum NInt O)",
  "edit": "INT(decimal) accepted although not implemented",
  "claim": "C31: value",
  "only": [
   "StackMachineProps",
   "StackMachineExact"
  ]
 },
 {
  "id": "sm40",
  "file": "StackMachine",
  "definition": "num_join",
  "old": "Nat.max s s'",
  "new": "s",
  "edit": "scale of the result is the left one",
  "claim": "C31: value",
  "only": [
   "StackMachineProps",
   "StackMachineExact"
  ]
 }
]