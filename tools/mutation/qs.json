[
 {
  "id": "qs1",
  "file": "QSort",
  "definition": "verify_partition",
  "old": "(seq b (m - b)) lowest in",
  "new": "(seq b (m - b - 1)) lowest in",
  "edit": "last element of the lower part ignored",
  "claim": "C14: verify_partition decides the partition",
  "only": [
   "QSortProps"
  ]
 },
 {
  "id": "qs2",
  "file": "QSort",
  "definition": "verify_partition",
  "old": "(seq m (e - m)) highest in",
  "new": "(seq (m + 1) (e - m - 1)) highest in",
  "edit": "first element of the upper part ignored",
  "claim": "C14: verify_partition decides the partition",
  "only": [
   "QSortProps"
  ]
 },
 {
  "id": "qs3",
  "file": "QSort",
  "definition": "verify_partition",
  "old": "if negb (lt lowest highest) then None else",
  "new": "",
  "edit": "assertion on the limits dropped",
  "claim": "(harmless: assertion on the type only)",
  "only": [
   "QSortProps"
  ]
 },
 {
  "id": "qs4",
  "file": "QSort",
  "definition": "verify_partition",
  "old": "Some (le max_lo min_hi)",
  "new": "Some (lt max_lo min_hi)",
  "edit": "strict comparison",
  "claim": "C14: equal values around the split point are a valid partition",
  "only": [
   "QSortProps"
  ]
 },
 {
  "id": "qs5",
  "file": "QSort",
  "definition": "part_loop",
  "old": "(if le right pivot then b + 1 else b)",
  "new": "(if lt right pivot then b + 1 else b)",
  "edit": "strict comparison: does not advance on equal",
  "claim": "C14: partition terminates",
  "only": [
   "QSortProps"
  ]
 },
 {
  "id": "qs6",
  "file": "QSort",
  "definition": "part_loop",
  "old": "(if le pivot left then e - 1 else e)",
  "new": "(if le right pivot then e else e - 1)",
  "edit": "decides the right end by the wrong element",
  "claim": "C14: partition splits",
  "only": [
   "QSortProps"
  ]
 },
 {
  "id": "qs7",
  "file": "QSort",
  "definition": "part_loop",
  "old": "let l' := set (set l b right) (e - 1) left in",
  "new": "let l' := set l b right in",
  "edit": "one write of the swap dropped",
  "claim": "C14: partition permutes",
  "only": [
   "QSortProps"
  ]
 },
 {
  "id": "qs8",
  "file": "QSort",
  "definition": "median3",
  "old": "if left_le_right then if mid_le_right then swap l b pm else swap l b (e - 1) else l",
  "new": "if left_le_right then if mid_le_right then swap l b pm else set l b (get l (e-1)) else l",
  "edit": "swap writes only one side",
  "claim": "C14: sort permutes",
  "only": [
   "QSortProps"
  ]
 },
 {
  "id": "qs9",
  "file": "QSort",
  "definition": "median3",
  "old": "let pm := b + (e - b) / 2 in",
  "new": "let pm := b + (e - b) in",
  "edit": "middle one past the end",
  "claim": "C14: range untouched outside",
  "only": [
   "QSortProps"
  ]
 },
 {
  "id": "qs10",
  "file": "QSort",
  "definition": "qsort",
  "old": "if 2 <=? e - mid then",
  "new": "if 3 <=? e - mid then",
  "edit": "right parts of two elements not sorted",
  "claim": "C14: sorted",
  "only": [
   "QSortProps"
  ]
 },
 {
  "id": "qs11",
  "file": "QSort",
  "definition": "qsort",
  "old": "if 2 <=? e - mid then",
  "new": "if 1 <=? e - mid then",
  "edit": "recursion also on one element",
  "claim": "(harmless)",
  "only": [
   "QSortProps"
  ]
 },
 {
  "id": "qs12",
  "file": "QSort",
  "definition": "qsort",
  "old": "qsort f l4 b (mid - 1)",
  "new": "qsort f l4 b mid",
  "edit": "left recursion includes the pivot",
  "claim": "(harmless unless it does not terminate)",
  "only": [
   "QSortProps"
  ]
 },
 {
  "id": "qs13",
  "file": "QSort",
  "definition": "qsort",
  "old": "qsort f l4 b (mid - 1)",
  "new": "qsort f l4 (b + 1) (mid - 1)",
  "edit": "left recursion skips the first element",
  "claim": "C14: sorted",
  "only": [
   "QSortProps"
  ]
 },
 {
  "id": "qs14",
  "file": "QSort",
  "definition": "qsort",
  "old": "let l3 := swap l2 b (mid - 1) in",
  "new": "let l3 := l2 in",
  "edit": "pivot not moved to its place",
  "claim": "C14: sorted",
  "only": [
   "QSortProps"
  ]
 },
 {
  "id": "qs15",
  "file": "QSort",
  "definition": "qsort",
  "old": "else if e - b =? 2 then (if lt (get l (e - 1)) (get l b) then",
  "new": "else if e - b =? 2 then (if lt (get l b) (get l (e - 1)) then",
  "edit": "comparison reversed for two elements",
  "claim": "C14: sorted",
  "only": [
   "QSortProps"
  ]
 }
]