[
 {
  "id": "li1",
  "file": "ListAlloc",
  "definition": "find_fit",
  "old": "(ext v - 8 <? size)",
  "new": "(ext v <? size)",
  "edit": "size cell not counted",
  "claim": "C23: blocks disjoint",
  "only": [
   "ListAllocProps"
  ]
 },
 {
  "id": "li2",
  "file": "ListAlloc",
  "definition": "find_fit",
  "old": "(ext v - 8 <? size) || is_unaligned a al",
  "new": "(ext v - 8 <? size)",
  "edit": "alignment ignored",
  "claim": "C23: alignment",
  "only": [
   "ListAllocProps"
  ]
 },
 {
  "id": "li3",
  "file": "ListAlloc",
  "definition": "find_fit",
  "old": "(ext v - 8 <? size)",
  "new": "(ext v - 16 <? size)",
  "edit": "exact fits refused",
  "claim": "C23: reuse",
  "only": [
   "ListAllocProps"
  ]
 },
 {
  "id": "li4",
  "file": "ListAlloc",
  "definition": "find_fit",
  "old": "(ext v - 8 <? size)",
  "new": "(v - 8 <? size)",
  "edit": "mark counted as size",
  "claim": "C23: disjoint",
  "only": [
   "ListAllocProps"
  ]
 },
 {
  "id": "li5",
  "file": "ListAlloc",
  "definition": "insert_pos",
  "old": "if b + 8 <? a then",
  "new": "if a <? b + 8 then",
  "edit": "list sorted in descending order",
  "claim": "C23: all freed (coalescing)",
  "only": [
   "ListAllocProps"
  ]
 },
 {
  "id": "li6",
  "file": "ListAlloc",
  "definition": "insert_pos",
  "old": "if b + 8 <? a then",
  "new": "if false then",
  "edit": "chunk always put at the front",
  "claim": "C23: all freed",
  "only": [
   "ListAllocProps"
  ]
 },
 {
  "id": "li7",
  "file": "ListAlloc",
  "definition": "coalesce",
  "old": "if marked w then (c, rest)\n      else",
  "new": "",
  "edit": "coalesces across regions",
  "claim": "C23: destructor returns the regions",
  "only": [
   "ListAllocProps"
  ]
 },
 {
  "id": "li8",
  "file": "ListAlloc",
  "definition": "coalesce",
  "old": "((fst c, snd c + ext w), rest')",
  "new": "((fst c, snd c + ext w), rest)",
  "edit": "coalesced chunk stays in the list",
  "claim": "C23: disjoint",
  "only": [
   "ListAllocProps"
  ]
 },
 {
  "id": "li9",
  "file": "ListAlloc",
  "definition": "coalesce",
  "old": "((fst c, snd c + ext w), rest')",
  "new": "((fst c, snd c), rest')",
  "edit": "coalesced size lost",
  "claim": "C23: all freed",
  "only": [
   "ListAllocProps"
  ]
 },
 {
  "id": "li10",
  "file": "ListAlloc",
  "definition": "coalesce",
  "old": "if fst c + ext (snd c) =? b then",
  "new": "if fst c + snd c =? b then",
  "edit": "mark counted in the end address",
  "claim": "C23: all freed",
  "only": [
   "ListAllocProps"
  ]
 },
 {
  "id": "li11",
  "file": "ListAlloc",
  "definition": "coalesce",
  "old": "if fst c + ext (snd c) =? b then",
  "new": "if fst c + ext (snd c) <=? b then",
  "edit": "coalesces non-adjacent chunks",
  "claim": "C23: disjoint",
  "only": [
   "ListAllocProps"
  ]
 },
 {
  "id": "li12",
  "file": "ListAlloc",
  "definition": "coalesce_last",
  "old": "| [p] => let '(p', r) := coalesce p (c :: rest) in p' :: r",
  "new": "| [p] => p :: c :: rest",
  "edit": "not coalesced with the previous chunk",
  "claim": "C23: all freed",
  "only": [
   "ListAllocProps"
  ]
 },
 {
  "id": "li13",
  "file": "ListAlloc",
  "definition": "reclaim",
  "old": "let '(c, rest) := coalesce (a, v) post in",
  "new": "let '(c, rest) := ((a, v), post) in",
  "edit": "not coalesced with the next chunk",
  "claim": "C23: all freed",
  "only": [
   "ListAllocProps"
  ]
 },
 {
  "id": "li14",
  "file": "ListAlloc",
  "definition": "fresh_size",
  "old": "Z.max (size + 8) (min_size s)",
  "new": "Z.max size (min_size s)",
  "edit": "size cell not requested",
  "claim": "C23: inside the region",
  "only": [
   "ListAllocProps"
  ]
 },
 {
  "id": "li15",
  "file": "ListAlloc",
  "definition": "mmap_len",
  "old": "fresh_size PG s size + eal.",
  "new": "fresh_size PG s size.",
  "edit": "no slack for alignment",
  "claim": "C23: inside memory obtained",
  "only": [
   "ListAllocProps"
  ]
 },
 {
  "id": "li16",
  "file": "ListAlloc",
  "definition": "aligned_addr",
  "old": "if eal =? PG then p else ceil_mult p eal",
  "new": "p",
  "edit": "address not aligned",
  "claim": "C23: alignment",
  "only": [
   "ListAllocProps"
  ]
 },
 {
  "id": "li17",
  "file": "ListAlloc",
  "definition": "take",
  "old": "let first := ceil_mult (Z.max (size + 8) size_of_header) 8 in",
  "new": "let first := ceil_mult (Z.max size size_of_header) 8 in",
  "edit": "split without room for the size cell",
  "claim": "C23: bookkeeping",
  "only": [
   "ListAllocProps"
  ]
 },
 {
  "id": "li18",
  "file": "ListAlloc",
  "definition": "take",
  "old": "let first := ceil_mult (Z.max (size + 8) size_of_header) 8 in",
  "new": "let first := size + 8 in",
  "edit": "split not word aligned",
  "claim": "C23: bookkeeping",
  "only": [
   "ListAllocProps"
  ]
 },
 {
  "id": "li19",
  "file": "ListAlloc",
  "definition": "take",
  "old": "(a + first, eff - first) :: post)",
  "new": "(a + first, eff) :: post)",
  "edit": "size of the rest wrong",
  "claim": "C23: disjoint",
  "only": [
   "ListAllocProps"
  ]
 },
 {
  "id": "li20",
  "file": "ListAlloc",
  "definition": "take",
  "old": "(a + first, eff - first) :: post)",
  "new": "(a + first, v - first) :: post)",
  "edit": "rest inherits the mark",
  "claim": "C23: destructor",
  "only": [
   "ListAllocProps"
  ]
 },
 {
  "id": "li21",
  "file": "ListAlloc",
  "definition": "take",
  "old": "let v1 := first + (if marked v then BIT else 0) in",
  "new": "let v1 := first in",
  "edit": "mark lost at split",
  "claim": "C23: destructor",
  "only": [
   "ListAllocProps"
  ]
 },
 {
  "id": "li22",
  "file": "ListAlloc",
  "definition": "take",
  "old": "(mkL (pre ++ post) (min_size s) (expo s) (upd",
  "new": "(mkL (pre ++ c :: post) (min_size s) (expo s) (upd",
  "edit": "chunk not unlinked",
  "claim": "C23: disjoint",
  "only": [
   "ListAllocProps"
  ]
 },
 {
  "id": "li23",
  "file": "ListAlloc",
  "definition": "take",
  "old": "(mkL (pre ++ post) (min_size s) (expo s) (upd (mem s) (size_addr a size) v)",
  "new": "(mkL (pre ++ post) (min_size s) (expo s) (upd (mem s) (size_addr a size) size)",
  "edit": "requested size stored instead of the chunk size",
  "claim": "C23: all freed",
  "only": [
   "ListAllocProps"
  ]
 },
 {
  "id": "li24",
  "file": "ListAlloc",
  "definition": "allocate",
  "old": "pre (a, n + BIT) post size",
  "new": "pre (a, n) post size",
  "edit": "fresh chunk not marked",
  "claim": "C23: destructor",
  "only": [
   "ListAllocProps"
  ]
 },
 {
  "id": "li25",
  "file": "ListAlloc",
  "definition": "allocate",
  "old": "(if expo s then 2 * min_size s else min_size s)",
  "new": "(min_size s)",
  "edit": "no exponential growth",
  "claim": "C23: growth",
  "only": [
   "ListAllocProps"
  ]
 },
 {
  "id": "li26",
  "file": "ListAlloc",
  "definition": "allocate",
  "old": "match find_fit (fl s) size al with\n  | Some",
  "new": "match (None : option (list chunk * chunk * list chunk)) with\n  | Some",
  "edit": "never reuses",
  "claim": "C23: reuse",
  "only": [
   "ListAllocProps"
  ]
 },
 {
  "id": "li27",
  "file": "ListAlloc",
  "definition": "deallocate",
  "old": "(mem s (size_addr ptr size))",
  "new": "(size + 8)",
  "edit": "uses requested size",
  "claim": "C23: all freed",
  "only": [
   "ListAllocProps"
  ]
 },
 {
  "id": "li28",
  "file": "ListAlloc",
  "definition": "unmapped",
  "old": "filter (fun c => marked (snd c)) (fl s)",
  "new": "filter (fun c => negb (marked (snd c))) (fl s)",
  "edit": "destructor unmaps the wrong chunks",
  "claim": "C23: destructor",
  "only": [
   "ListAllocProps"
  ]
 },
 {
  "id": "li29",
  "file": "ListAlloc",
  "definition": "unmapped",
  "old": "(fst c, ext (snd c))",
  "new": "(fst c, snd c)",
  "edit": "destructor passes the mark",
  "claim": "C23: destructor",
  "only": [
   "ListAllocProps"
  ]
 }
]