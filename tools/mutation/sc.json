[
 {
  "id": "sc1",
  "file": "Schema",
  "definition": "make_ident",
  "old": "Some \"\"%string => None",
  "new": "Some \"\"%string => Some (mkId None n)",
  "edit": "empty prefix accepted",
  "claim": "C40: identifiers",
  "only": [
   "SchemaProps"
  ]
 },
 {
  "id": "sc2",
  "file": "Schema",
  "definition": "make_ident",
  "old": "| _ => Some (mkId p n)",
  "new": "| _ => None",
  "edit": "every identifier refused",
  "claim": "C40: identifiers",
  "only": [
   "SchemaProps"
  ]
 },
 {
  "id": "sc3",
  "file": "Schema",
  "definition": "opt_string_eqb",
  "old": "| _, _ => false",
  "new": "| _, _ => true",
  "edit": "missing prefix equals every prefix",
  "claim": "C40: has/at",
  "only": [
   "SchemaProps"
  ]
 },
 {
  "id": "sc4",
  "file": "Schema",
  "definition": "ident_eqb",
  "old": "opt_string_eqb (prefix a) (prefix b) &&",
  "new": "",
  "edit": "prefix ignored",
  "claim": "C40: has/at",
  "only": [
   "SchemaProps"
  ]
 },
 {
  "id": "sc5",
  "file": "Schema",
  "definition": "const_id",
  "old": "\"$const\"%string",
  "new": "\"const\"%string",
  "edit": "wrong name",
  "claim": "C40: drop_constants",
  "only": [
   "SchemaProps"
  ]
 },
 {
  "id": "sc6",
  "file": "Schema",
  "definition": "find",
  "old": "negb (find_if id (skipn (S it) s) (S it) =? length s)",
  "new": "false",
  "edit": "ambiguity not reported",
  "claim": "C40: has/at ambiguous",
  "only": [
   "SchemaProps"
  ]
 },
 {
  "id": "sc7",
  "file": "Schema",
  "definition": "find",
  "old": "(skipn (S it) s) (S it)",
  "new": "(skipn it s) it",
  "edit": "everything ambiguous",
  "claim": "C40: has/at",
  "only": [
   "SchemaProps"
  ]
 },
 {
  "id": "sc8",
  "file": "Schema",
  "definition": "find_if",
  "old": "find_if id r (S off)",
  "new": "find_if id r off",
  "edit": "index not advanced",
  "claim": "C40: at",
  "only": [
   "SchemaProps"
  ]
 },
 {
  "id": "sc9",
  "file": "Schema",
  "definition": "has",
  "old": "Some (negb (it =? length s))",
  "new": "Some (it =? length s)",
  "edit": "inverted",
  "claim": "C40: has",
  "only": [
   "SchemaProps"
  ]
 },
 {
  "id": "sc10",
  "file": "Schema",
  "definition": "at_id",
  "old": "| Some it => match nth_error s it with",
  "new": "| Some it => match nth_error s (pred it) with",
  "edit": "entry before",
  "claim": "C40: at",
  "only": [
   "SchemaProps"
  ]
 },
 {
  "id": "sc11",
  "file": "Schema",
  "definition": "add",
  "old": "s ++ [e]",
  "new": "e :: s",
  "edit": "prepends",
  "claim": "C40: order",
  "only": [
   "SchemaProps"
  ]
 },
 {
  "id": "sc12",
  "file": "Schema",
  "definition": "dedup_loop",
  "old": "| Some true => dedup_loop res r",
  "new": "| Some true => Some res",
  "edit": "stops at the first duplicate",
  "claim": "C40: deduplicate",
  "only": [
   "SchemaProps"
  ]
 },
 {
  "id": "sc13",
  "file": "Schema",
  "definition": "dedup_loop",
  "old": "(mkEntry (eid e) (etype e) (econstraints e))",
  "new": "(mkEntry (eid e) (etype e) 0%N)",
  "edit": "constraints lost",
  "claim": "C40: deduplicate",
  "only": [
   "SchemaProps"
  ]
 },
 {
  "id": "sc14",
  "file": "Schema",
  "definition": "drop_constants_loop",
  "old": "if negb (is_constant (eid e))",
  "new": "if is_constant (eid e)",
  "edit": "keeps the constants",
  "claim": "C40: drop_constants",
  "only": [
   "SchemaProps"
  ]
 },
 {
  "id": "sc15",
  "file": "Schema",
  "definition": "drop_constants_loop",
  "old": "(mkEntry (eid e) (etype e) (econstraints e))",
  "new": "(mkEntry (eid e) 0 (econstraints e))",
  "edit": "type lost",
  "claim": "C40: drop_constants",
  "only": [
   "SchemaProps"
  ]
 },
 {
  "id": "sc16",
  "file": "Schema",
  "definition": "concat_assign",
  "old": "| e :: r => concat_assign (add s e) r",
  "new": "| e :: r => concat_assign s r",
  "edit": "nothing added",
  "claim": "C40: concatenation",
  "only": [
   "SchemaProps"
  ]
 },
 {
  "id": "sc17",
  "file": "Schema",
  "definition": "union_assign",
  "old": "| Some true => union_assign s r",
  "new": "| Some true => union_assign (add s e) r",
  "edit": "duplicates added",
  "claim": "C40: union",
  "only": [
   "SchemaProps"
  ]
 },
 {
  "id": "sc18",
  "file": "Schema",
  "definition": "union_assign",
  "old": "| Some false => union_assign (add s e) r",
  "new": "| Some false => union_assign s r",
  "edit": "new entries dropped",
  "claim": "C40: union",
  "only": [
   "SchemaProps"
  ]
 },
 {
  "id": "sc19",
  "file": "Schema",
  "definition": "all_has",
  "old": "| Some false => Some false",
  "new": "| Some false => Some true",
  "edit": "always equal",
  "claim": "C40: equality",
  "only": [
   "SchemaProps"
  ]
 },
 {
  "id": "sc20",
  "file": "Schema",
  "definition": "schema_eq",
  "old": "| Some true => all_has b a",
  "new": "| Some true => Some true",
  "edit": "inclusion instead of equality",
  "claim": "C40: equality",
  "only": [
   "SchemaProps"
  ]
 },
 {
  "id": "sc21",
  "file": "Schema",
  "definition": "inter_loop",
  "old": "if negb (etype e =? etype f) then None",
  "new": "if false then None",
  "edit": "types not compared",
  "claim": "C40: intersection",
  "only": [
   "SchemaProps"
  ]
 },
 {
  "id": "sc22",
  "file": "Schema",
  "definition": "inter_loop",
  "old": "(N.lor (econstraints e) (econstraints f))",
  "new": "(N.land (econstraints e) (econstraints f))",
  "edit": "constraints intersected",
  "claim": "C40: intersection",
  "only": [
   "SchemaProps"
  ]
 },
 {
  "id": "sc23",
  "file": "Schema",
  "definition": "inter_loop",
  "old": "| None => inter_loop res r right",
  "new": "| None => Some res",
  "edit": "stops at the first entry missing",
  "claim": "C40: intersection",
  "only": [
   "SchemaProps"
  ]
 },
 {
  "id": "sc24",
  "file": "Schema",
  "definition": "inter_loop",
  "old": "match find right (eid e) with",
  "new": "match find left (eid e) with",
  "edit": "searches the left schema",
  "claim": "C40: intersection",
  "only": [
   "SchemaProps"
  ]
 }
]