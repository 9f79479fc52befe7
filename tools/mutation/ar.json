[
 {
  "id": "ar1",
  "file": "Arith",
  "definition": "is_pow_2",
  "old": "if n =? 0 then false else",
  "new": "",
  "edit": "zero counts as a power of two",
  "claim": "C05: is_pow_2"
 },
 {
  "id": "ar2",
  "file": "Arith",
  "definition": "ceil_to_pow_2",
  "old": "builtin_clz (builtin_width w) (n - 1)",
  "new": "builtin_clz (builtin_width w) n",
  "edit": "clz of n instead of n-1: powers of two are doubled",
  "claim": "C05: least power of two >= n"
 },
 {
  "id": "ar3",
  "file": "Arith",
  "definition": "ceil_to_pow_2",
  "old": "if n <=? 1 then Some 1 else\n  match builtin_clz",
  "new": "if n =? 0 then Some 1 else\n  match builtin_clz",
  "edit": "boundary case n = 1 missed (undefined clz(0))",
  "claim": "C05: least power of two >= n"
 },
 {
  "id": "ar4",
  "file": "Arith",
  "definition": "ceil_to_multiple_of_pow_2",
  "old": "(wr w (n + wsub w p 1))",
  "new": "(wr w (n + p))",
  "edit": "adds p instead of p-1",
  "claim": "C05: least multiple"
 },
 {
  "id": "ar5",
  "file": "Arith",
  "definition": "round_up_to_multiple",
  "old": "if factor =? 0 then None else",
  "new": "if factor =? 0 then Some 0 else",
  "edit": "no exception for factor 0",
  "claim": "C05: factor 0 is rejected",
  "only": [
   "ArithProps"
  ]
 },
 {
  "id": "ar6",
  "file": "Arith",
  "definition": "round_up_to_multiple",
  "old": "let differ := if negb (wr w (d * factor) =? val) then 1 else 0 in",
  "new": "let differ := 1 in",
  "edit": "always rounds up",
  "claim": "C05: least multiple"
 },
 {
  "id": "ar7",
  "file": "Arith",
  "definition": "log2_floor",
  "old": "wr w (wsub 64 (wsub 64 w lz) 1)",
  "new": "wr w (wsub 64 w lz)",
  "edit": "missing -1",
  "claim": "C05: floor of log2"
 },
 {
  "id": "ar8",
  "file": "Arith",
  "definition": "log2_ceil",
  "old": "match log2_floor w (n - 1) with",
  "new": "match log2_floor w n with",
  "edit": "log of n instead of n-1",
  "claim": "C05: ceil of log2"
 },
 {
  "id": "ar9",
  "file": "Arith",
  "definition": "ceil_to_next_page",
  "old": "wr 64 (N.lor (wsub 64 n 1) (wsub 64 P 1) + 1)",
  "new": "wr 64 (N.lor n (wsub 64 P 1) + 1)",
  "edit": "missing -1: aligned sizes are rounded up",
  "claim": "C05: next page"
 },
 {
  "id": "ar10",
  "file": "Arith",
  "definition": "add_wo_overflow",
  "old": "let s := snd a + snd b in\n  if 2 ^ w <=? s then (w, 2 ^ w - 1)",
  "new": "let s := snd a + snd b in\n  if 2 ^ w <? s then (w, 2 ^ w - 1)",
  "edit": "wrong overflow boundary",
  "claim": "C06: saturating sum"
 },
 {
  "id": "ar11",
  "file": "Arith",
  "definition": "mul_wo_overflow",
  "old": "let s := snd a * snd b in\n  if 2 ^ w <=? s then (w, 2 ^ w - 1) else (w, s)",
  "new": "let s := snd a * snd b in\n  (w, s mod 2 ^ w)",
  "edit": "saturation dropped",
  "claim": "C06: saturating product"
 },
 {
  "id": "ar12",
  "file": "Arith",
  "definition": "powi_pos",
  "old": "| xI q => match sq q with None => None | Some t => zmul lo hi base t end",
  "new": "| xI q => match sq q with None => None | Some t => Some t end",
  "edit": "odd exponents lose a factor",
  "claim": "C06: powi"
 },
 {
  "id": "ar13",
  "file": "Arith",
  "definition": "powu_pos",
  "old": "| xI q => wr w (base * sq q) end",
  "new": "| xI q => wr w (base * base * sq q) end",
  "edit": "odd exponents gain a factor",
  "claim": "C06: powi unsigned"
 },
 {
  "id": "ar14",
  "file": "Arith",
  "definition": "setbit",
  "old": "(wr w (N.shiftl 1 n))))\n  else None",
  "new": "(wr w (N.shiftl 1 (n + 1)))))\n  else None",
  "edit": "wrong bit",
  "claim": "C44: setbit"
 },
 {
  "id": "ar15",
  "file": "Arith",
  "definition": "sequence_number",
  "old": "wsub w (2 ^ (w - 1)) u'",
  "new": "wsub w (2 ^ (w - 1) + 1) u'",
  "edit": "off by one for negative numbers (-0 differs from +0)",
  "claim": "C41: sequence numbers"
 },
 {
  "id": "ar16",
  "file": "Arith",
  "definition": "sequence_number",
  "old": "wr w (u + 2 ^ (w - 1))",
  "new": "u",
  "edit": "positive numbers not shifted",
  "claim": "C41: sequence numbers"
 },
 {
  "id": "ar17",
  "file": "Arith",
  "definition": "range_wide_signed",
  "old": "(n <=? a_abs) || (wsub 64",
  "new": "(n <? a_abs) && (wsub 64",
  "edit": "wrong connective",
  "claim": "C41: range width of signed integers"
 },
 {
  "id": "ar18",
  "file": "Arith",
  "definition": "range_wide_signed",
  "old": "let '(a, b) := if (b <? a)%Z then (b, a) else (a, b) in",
  "new": "",
  "edit": "no swap of the bounds",
  "claim": "C41: range width of signed integers"
 },
 {
  "id": "ar19",
  "file": "Arith",
  "definition": "range_wide_unsigned",
  "old": "if n =? 0 then true else wsub 64 n 1 <=? wsub w b a",
  "new": "if n =? 0 then true else n <=? wsub w b a",
  "edit": "off by one",
  "claim": "C41: range width of unsigned integers"
 },
 {
  "id": "ar20",
  "file": "Arith",
  "definition": "range_wide_float",
  "old": "if n =? 0 then true else wsub 64 n 1 <=? wsub w (sequence_number w b) (sequence_number w a)",
  "new": "wsub 64 n 1 <=? wsub w (sequence_number w b) (sequence_number w a)",
  "edit": "n = 0 not handled",
  "claim": "C41: range width of floats"
 },
 {
  "id": "ar21",
  "file": "Arith",
  "definition": "is_page_aligned",
  "old": "N.land n (wsub 64 P 1) =? 0",
  "new": "N.land n P =? 0",
  "edit": "mask is P instead of P-1",
  "claim": "C05: page alignment"
 }
]