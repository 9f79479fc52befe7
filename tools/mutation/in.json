[
 {
  "id": "in1",
  "file": "Insert",
  "definition": "convert_loop",
  "old": "if is_hidden a then S id else id",
  "new": "if is_hidden a then id else S id",
  "edit": "counts the visible ones",
  "claim": "C45: values",
  "only": [
   "InsertProps"
  ]
 },
 {
  "id": "in2",
  "file": "Insert",
  "definition": "convert_loop",
  "old": "i <=? id",
  "new": "i <? id",
  "edit": "stops early",
  "claim": "C45: values",
  "only": [
   "InsertProps"
  ]
 },
 {
  "id": "in3",
  "file": "Insert",
  "definition": "fill",
  "old": "I_Null => set_nth i None tup",
  "new": "I_Null => tup",
  "edit": "NULL keeps the earlier value",
  "claim": "C45: values",
  "only": [
   "InsertProps"
  ]
 },
 {
  "id": "in4",
  "file": "Insert",
  "definition": "fill",
  "old": "I_Expr v => set_nth (convert_id attrs i) v tup",
  "new": "I_Expr v => set_nth i v tup",
  "edit": "hidden attributes overwritten",
  "claim": "C45: values",
  "only": [
   "InsertProps"
  ]
 },
 {
  "id": "in5",
  "file": "Insert",
  "definition": "fill",
  "old": "I_Default => tup",
  "new": "I_Default => set_nth i (Some 0%Z) tup",
  "edit": "DEFAULT is 0",
  "claim": "C45: DEFAULT",
  "only": [
   "InsertProps"
  ]
 },
 {
  "id": "in6",
  "file": "Insert",
  "definition": "stamp",
  "old": "(Some (-1)%Z)",
  "new": "(Some 0%Z)",
  "edit": "rows end at 0",
  "claim": "C45: timestamps",
  "only": [
   "InsertProps"
  ]
 },
 {
  "id": "in7",
  "file": "Insert",
  "definition": "stamp",
  "old": "set_nth e (Some (-1)%Z) (set_nth b (Some start_time) tup)",
  "new": "set_nth b (Some (-1)%Z) (set_nth e (Some start_time) tup)",
  "edit": "timestamps swapped",
  "claim": "C45: timestamps",
  "only": [
   "InsertProps"
  ]
 },
 {
  "id": "in8",
  "file": "Insert",
  "definition": "insert_loop",
  "old": "tup :: insert_loop attrs ts start_time tup r",
  "new": "tup :: insert_loop attrs ts start_time ts_tup r",
  "edit": "fresh tuple for each row (the repaired code)",
  "claim": "C45: DEFAULT refutation",
  "only": [
   "InsertProps"
  ]
 },
 {
  "id": "in9",
  "file": "Insert",
  "definition": "insert_loop",
  "old": "tup :: insert_loop attrs ts start_time tup r",
  "new": "insert_loop attrs ts start_time tup r ++ [tup]",
  "edit": "rows in reverse order",
  "claim": "C45: order",
  "only": [
   "InsertProps"
  ]
 },
 {
  "id": "in10",
  "file": "Insert",
  "definition": "sema_tuple",
  "old": "I_Null => negb (not_nullable a)",
  "new": "I_Null => true",
  "edit": "NULL accepted for NOT NULL",
  "claim": "C45: accepted",
  "only": [
   "InsertProps"
  ]
 },
 {
  "id": "in11",
  "file": "Insert",
  "definition": "sema_tuple",
  "old": "I_Null => negb (not_nullable a)",
  "new": "I_Null => false",
  "edit": "NULL never accepted",
  "claim": "C45: accepted",
  "only": [
   "InsertProps"
  ]
 },
 {
  "id": "in12",
  "file": "Insert",
  "definition": "sema_tuple",
  "old": "| _, _ => false",
  "new": "| _, _ => true",
  "edit": "number of values not checked",
  "claim": "C45: accepted",
  "only": [
   "InsertProps"
  ]
 },
 {
  "id": "in13",
  "file": "Insert",
  "definition": "sema_insert",
  "old": "negb (is_hidden a)",
  "new": "is_hidden a",
  "edit": "checks the hidden attributes",
  "claim": "C45: accepted",
  "only": [
   "InsertProps"
  ]
 }
]