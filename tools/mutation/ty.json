[
 {
  "id": "ty1",
  "file": "Types",
  "definition": "max_kind",
  "old": "kind_num a <? kind_num b",
  "new": "kind_num b <? kind_num a",
  "edit": "smaller kind",
  "claim": "C39: join",
  "only": [
   "TypesProps"
  ]
 },
 {
  "id": "ty2",
  "file": "Types",
  "definition": "kind_num",
  "old": "N_Int => 0 | N_Float => 1 | N_Decimal => 2",
  "new": "N_Int => 0 | N_Float => 2 | N_Decimal => 1",
  "edit": "FLOAT before DECIMAL",
  "claim": "C39: join",
  "only": [
   "TypesProps"
  ]
 },
 {
  "id": "ty3",
  "file": "Types",
  "definition": "max_cat",
  "old": "cat_num a <? cat_num b then b else a",
  "new": "cat_num a <? cat_num b then a else b",
  "edit": "scalar instead of vector",
  "claim": "C39: join",
  "only": [
   "TypesProps"
  ]
 },
 {
  "id": "ty4",
  "file": "Types",
  "definition": "max_cat",
  "old": "if cat_num a <? cat_num b then b else a",
  "new": "a",
  "edit": "category of the left operand",
  "claim": "C39: join",
  "only": [
   "TypesProps"
  ]
 },
 {
  "id": "ty5",
  "file": "Types",
  "definition": "precision_bits",
  "old": "N_Int => 8 * precision t",
  "new": "N_Int => precision t",
  "edit": "bytes as bits",
  "claim": "C39: join",
  "only": [
   "TypesProps"
  ]
 },
 {
  "id": "ty6",
  "file": "Types",
  "definition": "precision_bits",
  "old": "sf_ceil (SFmul",
  "new": "sf_trunc (SFmul",
  "edit": "rounds down",
  "claim": "C39: join",
  "only": [
   "TypesProps"
  ]
 },
 {
  "id": "ty7",
  "file": "Types",
  "definition": "arithmetic_join",
  "old": "Z.max (scale lhs) (scale rhs)",
  "new": "scale lhs",
  "edit": "scale of the left operand",
  "claim": "C39: join",
  "only": [
   "TypesProps"
  ]
 },
 {
  "id": "ty8",
  "file": "Types",
  "definition": "arithmetic_join",
  "old": "Z.max (precision_bits lhs) (precision_bits rhs)",
  "new": "Z.min (precision_bits lhs) (precision_bits rhs)",
  "edit": "smaller precision",
  "claim": "C39: join",
  "only": [
   "TypesProps"
  ]
 },
 {
  "id": "ty9",
  "file": "Types",
  "definition": "arithmetic_join",
  "old": "(prec / 8)",
  "new": "prec",
  "edit": "bits as bytes",
  "claim": "C39: join",
  "only": [
   "TypesProps"
  ]
 },
 {
  "id": "ty10",
  "file": "Types",
  "definition": "arithmetic_join",
  "old": "if prec =? 32 then Some (Get_Float c)",
  "new": "if prec <=? 32 then Some (Get_Float c)",
  "edit": "no assertion for small ones",
  "claim": "C39: none (valid types have at least 32 bits)",
  "only": [
   "TypesProps"
  ]
 },
 {
  "id": "ty11",
  "file": "Types",
  "definition": "arithmetic_join",
  "old": "if prec =? 32 then Some (Get_Float c) else",
  "new": "",
  "edit": "no FLOAT result",
  "claim": "C39: join of FLOAT and SMALLINT",
  "only": [
   "TypesProps"
  ]
 },
 {
  "id": "ty12",
  "file": "Types",
  "definition": "arithmetic_join",
  "old": "(sf_trunc (SFdiv 53 1024 (d_ofZ prec) LOG_2_OF_10))",
  "new": "(sf_ceil (SFdiv 53 1024 (d_ofZ prec) LOG_2_OF_10))",
  "edit": "rounds up",
  "claim": "C39: join idempotent",
  "only": [
   "TypesProps"
  ]
 },
 {
  "id": "ty13",
  "file": "Types",
  "definition": "LOG_2_OF_10",
  "old": "3321928094887362",
  "new": "3321928094",
  "edit": "truncated constant",
  "claim": "C39: join",
  "only": [
   "TypesProps"
  ]
 },
 {
  "id": "ty14",
  "file": "Types",
  "definition": "DECIMAL_TO_BINARY_DIGITS",
  "old": "332192",
  "new": "232192",
  "edit": "wrong constant",
  "claim": "C39: sizes",
  "only": [
   "TypesProps"
  ]
 },
 {
  "id": "ty15",
  "file": "Types",
  "definition": "size",
  "old": "N_Int => 8 * precision t",
  "new": "N_Int => 64",
  "edit": "every integer has 64 bits",
  "claim": "C39: sizes",
  "only": [
   "TypesProps"
  ]
 },
 {
  "id": "ty16",
  "file": "Types",
  "definition": "size",
  "old": "N_Float => precision t",
  "new": "N_Float => 64",
  "edit": "FLOAT has 64 bits",
  "claim": "C39: sizes",
  "only": [
   "TypesProps"
  ]
 },
 {
  "id": "ty17",
  "file": "Types",
  "definition": "size",
  "old": "Arith.ceil_to_pow_2 32 (Z.to_N (sf_ceil",
  "new": "Arith.ceil_to_pow_2 32 (Z.to_N (8 * sf_ceil",
  "edit": "8 times too large",
  "claim": "C39: sizes",
  "only": [
   "TypesProps"
  ]
 },
 {
  "id": "ty18",
  "file": "Types",
  "definition": "alignment",
  "old": "size t",
  "new": "8",
  "edit": "byte alignment",
  "claim": "C39: alignment",
  "only": [
   "TypesProps"
  ]
 },
 {
  "id": "ty19",
  "file": "Types",
  "definition": "numeric_eqb",
  "old": "(scale a =? scale b)",
  "new": "true",
  "edit": "scale not compared",
  "claim": "C39: equality",
  "only": [
   "TypesProps"
  ]
 },
 {
  "id": "ty20",
  "file": "Types",
  "definition": "numeric_eqb",
  "old": "(cat_num (cat a) =? cat_num (cat b)) &&",
  "new": "",
  "edit": "category not compared",
  "claim": "C39: equality",
  "only": [
   "TypesProps"
  ]
 }
]