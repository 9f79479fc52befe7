[
 {
  "id": "xo1",
  "file": "XorList",
  "definition": "incr",
  "old": "(N.lxor p x, n)",
  "new": "(N.lxor n x, n)",
  "edit": "wrong address",
  "claim": "C34: iteration",
  "only": [
   "XorListProps"
  ]
 },
 {
  "id": "xo2",
  "file": "XorList",
  "definition": "decr",
  "old": "(p, N.lxor x n)",
  "new": "(p, N.lxor x p)",
  "edit": "wrong address",
  "claim": "C34: retreat",
  "only": [
   "XorListProps"
  ]
 },
 {
  "id": "xo3",
  "file": "XorList",
  "definition": "iter_eqb",
  "old": "N.eqb (fst a) (fst b) && N.eqb (snd a) (snd b)",
  "new": "N.eqb (fst a) (fst b) || N.eqb (snd a) (snd b)",
  "edit": "or instead of and",
  "claim": "C34: iteration",
  "only": [
   "XorListProps"
  ]
 },
 {
  "id": "xo4",
  "file": "XorList",
  "definition": "rbegin",
  "old": "(tail s, 0%N)",
  "new": "(head s, 0%N)",
  "edit": "reverse iteration from the head",
  "claim": "C34: reverse iteration",
  "only": [
   "XorListProps"
  ]
 },
 {
  "id": "xo5",
  "file": "XorList",
  "definition": "back",
  "old": "(tail s, 0%N)",
  "new": "(head s, 0%N)",
  "edit": "back is front",
  "claim": "C34: back",
  "only": [
   "XorListProps"
  ]
 },
 {
  "id": "xo6",
  "file": "XorList",
  "definition": "emplace",
  "old": "(Some (N.lxor p n, v))",
  "new": "(Some (N.lxor p a, v))",
  "edit": "wrong links",
  "claim": "C34: insert",
  "only": [
   "XorListProps"
  ]
 },
 {
  "id": "xo7",
  "file": "XorList",
  "definition": "emplace",
  "old": "xor_at h0 p (N.lxor n a)",
  "new": "xor_at h0 p a",
  "edit": "predecessor keeps the old successor",
  "claim": "C34: insert",
  "only": [
   "XorListProps"
  ]
 },
 {
  "id": "xo8",
  "file": "XorList",
  "definition": "emplace",
  "old": "xor_at h1 n (N.lxor p a)",
  "new": "Some h1",
  "edit": "successor not updated",
  "claim": "C34: insert",
  "only": [
   "XorListProps"
  ]
 },
 {
  "id": "xo9",
  "file": "XorList",
  "definition": "emplace",
  "old": "if N.eqb p 0 then a else head s",
  "new": "head s",
  "edit": "head not updated",
  "claim": "C34: push_front",
  "only": [
   "XorListProps"
  ]
 },
 {
  "id": "xo10",
  "file": "XorList",
  "definition": "emplace",
  "old": "if N.eqb n 0 then a else tail s",
  "new": "if N.eqb n 0 then tail s else a",
  "edit": "tail wrong",
  "claim": "C34: push_back",
  "only": [
   "XorListProps"
  ]
 },
 {
  "id": "xo11",
  "file": "XorList",
  "definition": "emplace",
  "old": "(S (size s))",
  "new": "(size s)",
  "edit": "size not updated",
  "claim": "C34: size",
  "only": [
   "XorListProps"
  ]
 },
 {
  "id": "xo12",
  "file": "XorList",
  "definition": "emplace",
  "old": "(a, p))",
  "new": "(n, p))",
  "edit": "iterator to the successor",
  "claim": "C34: insert returns the new element",
  "only": [
   "XorListProps"
  ]
 },
 {
  "id": "xo13",
  "file": "XorList",
  "definition": "push_back",
  "old": "(end_ s)",
  "new": "(begin_ s)",
  "edit": "pushes to the front",
  "claim": "C34: push_back",
  "only": [
   "XorListProps"
  ]
 },
 {
  "id": "xo14",
  "file": "XorList",
  "definition": "insert_count",
  "old": "insert_count r it v s1",
  "new": "insert_count r pos v s1",
  "edit": "stale position",
  "claim": "C34: insert count",
  "only": [
   "XorListProps"
  ]
 },
 {
  "id": "xo15",
  "file": "XorList",
  "definition": "insert_loop",
  "old": "insert_loop r it1 s1",
  "new": "insert_loop r it s1",
  "edit": "stale position",
  "claim": "C34: insert range",
  "only": [
   "XorListProps"
  ]
 },
 {
  "id": "xo16",
  "file": "XorList",
  "definition": "erase",
  "old": "xor_at (hp s) p (N.lxor n next)",
  "new": "xor_at (hp s) p next",
  "edit": "predecessor broken",
  "claim": "C34: erase",
  "only": [
   "XorListProps"
  ]
 },
 {
  "id": "xo17",
  "file": "XorList",
  "definition": "erase",
  "old": "xor_at h1 next (N.lxor n p)",
  "new": "Some h1",
  "edit": "successor not updated",
  "claim": "C34: erase",
  "only": [
   "XorListProps"
  ]
 },
 {
  "id": "xo18",
  "file": "XorList",
  "definition": "erase",
  "old": "(if N.eqb p 0 then next else head s)",
  "new": "(head s)",
  "edit": "head dangling",
  "claim": "C34: erase first",
  "only": [
   "XorListProps"
  ]
 },
 {
  "id": "xo19",
  "file": "XorList",
  "definition": "erase",
  "old": "(if N.eqb next 0 then p else tail s)",
  "new": "(if N.eqb next 0 then n else tail s)",
  "edit": "tail dangling",
  "claim": "C34: erase last",
  "only": [
   "XorListProps"
  ]
 },
 {
  "id": "xo20",
  "file": "XorList",
  "definition": "erase",
  "old": "(upd h2 n None)",
  "new": "h2",
  "edit": "node leaked",
  "claim": "C34: no leak",
  "only": [
   "XorListProps"
  ]
 },
 {
  "id": "xo21",
  "file": "XorList",
  "definition": "erase",
  "old": "(pred (size s)), (next, p)",
  "new": "(pred (size s)), (p, next)",
  "edit": "returns a swapped iterator",
  "claim": "C34: erase returns the successor",
  "only": [
   "XorListProps"
  ]
 },
 {
  "id": "xo22",
  "file": "XorList",
  "definition": "erase",
  "old": "(pred (size s))",
  "new": "(size s)",
  "edit": "size not updated",
  "claim": "C34: size",
  "only": [
   "XorListProps"
  ]
 },
 {
  "id": "xo23",
  "file": "XorList",
  "definition": "reverse",
  "old": "(tail s) (head s)",
  "new": "(head s) (tail s)",
  "edit": "reverse does nothing",
  "claim": "C34: reverse",
  "only": [
   "XorListProps"
  ]
 },
 {
  "id": "xo24",
  "file": "XorList",
  "definition": "pop_back",
  "old": "Some (reverse s1, v)",
  "new": "Some (s1, v)",
  "edit": "list left reversed",
  "claim": "C34: pop_back",
  "only": [
   "XorListProps"
  ]
 },
 {
  "id": "xo25",
  "file": "XorList",
  "definition": "pop_front",
  "old": "match front s with",
  "new": "match back s with",
  "edit": "returns the last value",
  "claim": "C34: pop_front",
  "only": [
   "XorListProps"
  ]
 },
 {
  "id": "xo26",
  "file": "XorList",
  "definition": "clear_loop",
  "old": "if N.eqb (head s) 0 then Some s else",
  "new": "if N.eqb (head s) (tail s) then Some s else",
  "edit": "stops with one element",
  "claim": "C34: clear",
  "only": [
   "XorListProps"
  ]
 },
 {
  "id": "xo27",
  "file": "XorList",
  "definition": "copy",
  "old": "combine addrs vs",
  "new": "combine addrs (rev vs)",
  "edit": "copy reversed",
  "claim": "C34: copy",
  "only": [
   "XorListProps"
  ]
 }
]