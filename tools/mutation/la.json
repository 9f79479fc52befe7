[
 {
  "id": "la1",
  "file": "LinAlloc",
  "definition": "allocate",
  "old": "let fs := wr 64 (off s + aligned) in",
  "new": "let fs := wr 64 (off s + size) in",
  "edit": "frontier advanced by the unaligned size",
  "claim": "C24: page alignment",
  "only": [
   "LinAllocProps"
  ]
 },
 {
  "id": "la2",
  "file": "LinAlloc",
  "definition": "allocate",
  "old": "AOk (mkLA fs (off s :: allocs s) fs) (off s, aligned)",
  "new": "AOk (mkLA fs (off s :: allocs s) fs) (off s, size)",
  "edit": "memory object has the unaligned size",
  "claim": "C24: page multiples",
  "only": [
   "LinAllocProps"
  ]
 },
 {
  "id": "la3",
  "file": "LinAlloc",
  "definition": "allocate",
  "old": "if aligned <? size then AFail s else",
  "new": "",
  "edit": "wrap of the page rounding not detected",
  "claim": "C24: size",
  "only": [
   "LinAllocProps"
  ]
 },
 {
  "id": "la4",
  "file": "LinAlloc",
  "definition": "allocate",
  "old": "if MAX_FILE <? fs then AFail s else ",
  "new": "if MAX_FILE <=? fs then AFail s else ",
  "edit": "largest file refused",
  "claim": "C24: which requests succeed",
  "only": [
   "LinAllocProps"
  ]
 },
 {
  "id": "la5",
  "file": "LinAlloc",
  "definition": "allocate",
  "old": "AFail (mkLA (off s) (allocs s) fs) else",
  "new": "AFail (mkLA fs (allocs s) fs) else",
  "edit": "failed mapping advances the frontier",
  "claim": "C24: frontier after a failure",
  "only": [
   "LinAllocProps"
  ]
 },
 {
  "id": "la6",
  "file": "LinAlloc",
  "definition": "allocate",
  "old": "AFail (mkLA (off s) (allocs s) fs) else",
  "new": "AFail (mkLA (off s) (off s :: allocs s) fs) else",
  "edit": "failed mapping records an allocation",
  "claim": "C24: all freed after a failure",
  "only": [
   "LinAllocProps"
  ]
 },
 {
  "id": "la7",
  "file": "LinAlloc",
  "definition": "allocate",
  "old": "if size =? 0 then AEmpty else",
  "new": "if size <=? 1 then AEmpty else",
  "edit": "one-byte request refused",
  "claim": "C24: which requests succeed",
  "only": [
   "LinAllocProps"
  ]
 },
 {
  "id": "la8",
  "file": "LinAlloc",
  "definition": "reclaim",
  "old": "if is_marked x then reclaim l' (unmarked x) else (new_size, l)",
  "new": "if is_marked x then reclaim l' new_size else (new_size, l)",
  "edit": "frontier not lowered",
  "claim": "C24: reclaims",
  "only": [
   "LinAllocProps"
  ]
 },
 {
  "id": "la9",
  "file": "LinAlloc",
  "definition": "reclaim",
  "old": "| x :: l' => if is_marked x then reclaim l' (unmarked x) else (new_size, l)",
  "new": "| x :: l' => if is_marked x then (unmarked x, l') else (new_size, l)",
  "edit": "only one allocation reclaimed",
  "claim": "C24: all freed",
  "only": [
   "LinAllocProps"
  ]
 },
 {
  "id": "la10",
  "file": "LinAlloc",
  "definition": "reclaim",
  "old": "reclaim l' (unmarked x) else (new_size, l)",
  "new": "reclaim l' x else (new_size, l)",
  "edit": "mark not removed",
  "claim": "C24: frontier",
  "only": [
   "LinAllocProps"
  ]
 },
 {
  "id": "la11",
  "file": "LinAlloc",
  "definition": "mark_first",
  "old": "if x =? o then Some (mark o :: l')",
  "new": "if x =? o then Some (o :: l')",
  "edit": "not marked",
  "claim": "C24: reclaim",
  "only": [
   "LinAllocProps"
  ]
 },
 {
  "id": "la12",
  "file": "LinAlloc",
  "definition": "mark_first",
  "old": "match mark_first l' o with Some r => Some (x :: r) | None => None end",
  "new": "match mark_first l' o with Some r => Some r | None => None end",
  "edit": "allocations before the freed one are dropped",
  "claim": "C24: free accepts live",
  "only": [
   "LinAllocProps"
  ]
 },
 {
  "id": "la13",
  "file": "LinAlloc",
  "definition": "deallocate",
  "old": "if match allocs s with x :: _ => x =? fst m | [] => false end then",
  "new": "if true then",
  "edit": "releases in the middle run the reclaim loop",
  "claim": "C24: frontier (file truncated)",
  "only": [
   "LinAllocProps"
  ]
 },
 {
  "id": "la14",
  "file": "LinAlloc",
  "definition": "deallocate",
  "old": "if match allocs s with x :: _ => x =? fst m | [] => false end then",
  "new": "if false then",
  "edit": "nothing reclaimed",
  "claim": "C24: all freed",
  "only": [
   "LinAllocProps"
  ]
 },
 {
  "id": "la15",
  "file": "LinAlloc",
  "definition": "deallocate",
  "old": "Some (mkLA n rest n)",
  "new": "Some (mkLA n rest (fsize s))",
  "edit": "file not truncated",
  "claim": "C24: last release truncates",
  "only": [
   "LinAllocProps"
  ]
 },
 {
  "id": "la16",
  "file": "LinAlloc",
  "definition": "deallocate",
  "old": "Some (mkLA n rest n)",
  "new": "Some (mkLA (off s) rest n)",
  "edit": "frontier not moved",
  "claim": "C24: frontier",
  "only": [
   "LinAllocProps"
  ]
 },
 {
  "id": "la17",
  "file": "LinAlloc",
  "definition": "deallocate",
  "old": "else Some (mkLA (off s) l (fsize s))",
  "new": "else Some (mkLA (off s) (allocs s) (fsize s))",
  "edit": "out-of-order release not recorded",
  "claim": "C24: all freed",
  "only": [
   "LinAllocProps"
  ]
 },
 {
  "id": "la18",
  "file": "LinAlloc",
  "definition": "is_marked",
  "old": "negb (N.land o MSB =? 0)",
  "new": "N.land o MSB =? 0",
  "edit": "inverted mark",
  "claim": "C24: reclaim",
  "only": [
   "LinAllocProps"
  ]
 }
]