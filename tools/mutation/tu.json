[
 {
  "id": "tu1",
  "file": "Tuple",
  "definition": "slots",
  "old": "Some _ => Ptr a i | None",
  "new": "Some _ => Ptr a 0 | None",
  "edit": "all strings share a buffer",
  "claim": "C30: clones have memory of their own",
  "only": [
   "TupleProps"
  ]
 },
 {
  "id": "tu2",
  "file": "Tuple",
  "definition": "new_tuple",
  "old": "(not64 0)",
  "new": "0",
  "edit": "new tuples are not NULL",
  "claim": "C30: new tuples",
  "only": [
   "TupleProps"
  ]
 },
 {
  "id": "tu3",
  "file": "Tuple",
  "definition": "upd",
  "old": "| _ :: l', O => x :: l'",
  "new": "| y :: l', O => y :: l'",
  "edit": "value not stored",
  "claim": "C30: set",
  "only": [
   "TupleProps"
  ]
 },
 {
  "id": "tu4",
  "file": "Tuple",
  "definition": "upd",
  "old": "y :: upd l' i' x",
  "new": "x :: upd l' i' x",
  "edit": "all earlier values overwritten",
  "claim": "C30: set",
  "only": [
   "TupleProps"
  ]
 },
 {
  "id": "tu5",
  "file": "Tuple",
  "definition": "set",
  "old": "(sbs_set (mask t) (N.of_nat i) b)",
  "new": "(Some (mask t))",
  "edit": "set does not clear the NULL bit",
  "claim": "C30: set",
  "only": [
   "TupleProps"
  ]
 },
 {
  "id": "tu6",
  "file": "Tuple",
  "definition": "set_null",
  "old": "(sbs_set (mask t) (N.of_nat i) b)",
  "new": "(sbs_set (mask t) (N.of_nat i) true)",
  "edit": "not_null sets NULL",
  "claim": "C30: null/not_null",
  "only": [
   "TupleProps"
  ]
 },
 {
  "id": "tu7",
  "file": "Tuple",
  "definition": "clear",
  "old": "mkT (vals t) (not64 0)",
  "new": "mkT (vals t) (not64 1)",
  "edit": "slot 0 not cleared",
  "claim": "C30: clear",
  "only": [
   "TupleProps"
  ]
 },
 {
  "id": "tu8",
  "file": "Tuple",
  "definition": "is_null",
  "old": "if in_bounds t i then sbs_get (mask t) (N.of_nat i)",
  "new": "if in_bounds t i then option_map negb (sbs_get (mask t) (N.of_nat i))",
  "edit": "inverted",
  "claim": "C30: read",
  "only": [
   "TupleProps"
  ]
 },
 {
  "id": "tu9",
  "file": "Tuple",
  "definition": "get",
  "old": "match is_null t i with Some false => at_ t i | _ => None end",
  "new": "at_ t i",
  "edit": "get returns values of NULL slots",
  "claim": "C30: read",
  "only": [
   "TupleProps"
  ]
 },
 {
  "id": "tu10",
  "file": "Tuple",
  "definition": "insert_loop",
  "old": "set t (pos + i) v b",
  "new": "set t (pos + i) v false",
  "edit": "insert loses NULL",
  "claim": "C30: insert",
  "only": [
   "TupleProps"
  ]
 },
 {
  "id": "tu11",
  "file": "Tuple",
  "definition": "insert_loop",
  "old": "set t (pos + i) v b",
  "new": "set t pos v b",
  "edit": "insert writes to one slot",
  "claim": "C30: insert",
  "only": [
   "TupleProps"
  ]
 },
 {
  "id": "tu12",
  "file": "Tuple",
  "definition": "value_eqb",
  "old": "Nat.eqb a b && Nat.eqb i j",
  "new": "Nat.eqb a b",
  "edit": "pointers into the same allocation are equal",
  "claim": "C30: equality",
  "only": [
   "TupleProps"
  ]
 },
 {
  "id": "tu13",
  "file": "Tuple",
  "definition": "tuple_eq",
  "old": "if N.eqb (mask t) (mask o) then",
  "new": "if true then",
  "edit": "NULL masks not compared",
  "claim": "C30: equality",
  "only": [
   "TupleProps"
  ]
 },
 {
  "id": "tu14",
  "file": "Tuple",
  "definition": "tuple_eq",
  "old": "iterate 65 (sbs_not (mask t))",
  "new": "iterate 65 (mask t)",
  "edit": "compares the NULL slots",
  "claim": "C30: equality",
  "only": [
   "TupleProps"
  ]
 },
 {
  "id": "tu15",
  "file": "Tuple",
  "definition": "eq_loop",
  "old": "if value_eqb v w then eq_loop l' t o else Some false",
  "new": "eq_loop l' t o",
  "edit": "values not compared",
  "claim": "C30: equality",
  "only": [
   "TupleProps"
  ]
 },
 {
  "id": "tu16",
  "file": "Tuple",
  "definition": "tuple_hash",
  "old": "iterate 65 (sbs_not (mask t))",
  "new": "iterate 65 (N.of_nat 1)",
  "edit": "hashes slot 0 even if NULL",
  "claim": "C30: hash agrees with equality",
  "only": [
   "TupleProps"
  ]
 },
 {
  "id": "tu17",
  "file": "Tuple",
  "definition": "clone_loop",
  "old": "Nat.eqb a' c && Nat.eqb i' k then h b j",
  "new": "Nat.eqb a' c && Nat.eqb i' k then []",
  "edit": "string not copied",
  "claim": "C30: clone",
  "only": [
   "TupleProps"
  ]
 },
 {
  "id": "tu18",
  "file": "Tuple",
  "definition": "clone_loop",
  "old": "if Nat.leb (length (h b j)) len",
  "new": "if Nat.ltb (length (h b j)) len",
  "edit": "longest string refused",
  "claim": "C30: clone",
  "only": [
   "TupleProps"
  ]
 },
 {
  "id": "tu19",
  "file": "Tuple",
  "definition": "clone_loop",
  "old": "set cpy i v false",
  "new": "set cpy i v true",
  "edit": "clone is NULL",
  "claim": "C30: clone",
  "only": [
   "TupleProps"
  ]
 },
 {
  "id": "tu20",
  "file": "Tuple",
  "definition": "clone_loop",
  "old": "match set_null cpy i false with",
  "new": "match Some cpy with",
  "edit": "string slots stay NULL",
  "claim": "C30: clone",
  "only": [
   "TupleProps"
  ]
 },
 {
  "id": "tu21",
  "file": "Tuple",
  "definition": "new_heap",
  "old": "if Nat.eqb a' a then [] else h a' i",
  "new": "[]",
  "edit": "allocation clobbers other strings",
  "claim": "C30: clone",
  "only": [
   "TupleProps"
  ]
 },
 {
  "id": "tu22",
  "file": "Tuple",
  "definition": "block_new",
  "old": "(c <=? 64)%N",
  "new": "(c <=? 63)%N",
  "edit": "capacity 64 refused",
  "claim": "C43: blocks",
  "only": [
   "TupleProps"
  ]
 },
 {
  "id": "tu23",
  "file": "Tuple",
  "definition": "b_fill",
  "old": "(64 - cap b)",
  "new": "(63 - cap b)",
  "edit": "fills one tuple too many",
  "claim": "C43: blocks",
  "only": [
   "TupleProps"
  ]
 },
 {
  "id": "tu24",
  "file": "Tuple",
  "definition": "b_erase",
  "old": "(setbit64 (bmask b) false i)",
  "new": "(setbit64 (bmask b) true i)",
  "edit": "erase revives",
  "claim": "C43: erase",
  "only": [
   "TupleProps"
  ]
 },
 {
  "id": "tu25",
  "file": "Tuple",
  "definition": "b_erase",
  "old": "if (i <? cap b)%N then",
  "new": "if (i <? cap b - 1)%N then",
  "edit": "last tuple cannot be erased",
  "claim": "C43: erase",
  "only": [
   "TupleProps"
  ]
 },
 {
  "id": "tu26",
  "file": "Tuple",
  "definition": "b_clear",
  "old": "mkB (cap b) 0",
  "new": "mkB (cap b) (bmask b)",
  "edit": "clear does nothing",
  "claim": "C43: blocks",
  "only": [
   "TupleProps"
  ]
 },
 {
  "id": "tu27",
  "file": "Tuple",
  "definition": "b_visit",
  "old": "(N.land m (sub64 m 1))",
  "new": "(N.land m (sub64 m 2))",
  "edit": "iteration skips",
  "claim": "C43: iteration",
  "only": [
   "TupleProps"
  ]
 },
 {
  "id": "tu28",
  "file": "Tuple",
  "definition": "b_at",
  "old": "(shl64 (not64 0) i)",
  "new": "(shl64 (not64 0) (i + 1))",
  "edit": "at skips the tuple",
  "claim": "C43: at",
  "only": [
   "TupleProps"
  ]
 },
 {
  "id": "tu29",
  "file": "Tuple",
  "definition": "b_size",
  "old": "popcount (bmask b)",
  "new": "cap b",
  "edit": "size is the capacity",
  "claim": "C43: size",
  "only": [
   "TupleProps"
  ]
 },
 {
  "id": "tu30",
  "file": "Tuple",
  "definition": "b_alive",
  "old": "negb (N.eqb",
  "new": "(N.eqb",
  "edit": "inverted",
  "claim": "C43: alive",
  "only": [
   "TupleProps"
  ]
 }
]