[
 {
  "id": "po1",
  "file": "Pool",
  "definition": "find_from",
  "old": "if eqb v u then Some k else find_from (S k) l' u",
  "new": "if eqb v u then Some k else find_from k l' u",
  "edit": "wrong position",
  "claim": "C20: equal handles",
  "only": [
   "PoolProps"
  ]
 },
 {
  "id": "po2",
  "file": "Pool",
  "definition": "emplace",
  "old": "match find l u with Some i => (l, i) | None => (l ++ [(u, 0)], length l) end",
  "new": "match find l u with Some i => (l ++ [(u, 0)], length l) | None => (l ++ [(u, 0)], length l) end",
  "edit": "inserts without re-checking (hint not verified)",
  "claim": "C20: no duplicates under concurrency",
  "only": [
   "PoolProps"
  ]
 },
 {
  "id": "po3",
  "file": "Pool",
  "definition": "bump",
  "old": "(v, (c + d) mod 4294967296) :: l'",
  "new": "(v, c) :: l'",
  "edit": "reference counts not maintained",
  "claim": "C20: count",
  "only": [
   "PoolProps"
  ]
 },
 {
  "id": "po4",
  "file": "Pool",
  "definition": "ps_insert",
  "old": "(mkP (lk p) (bump tb i 1) (set_pc (pcs p) t (PRelW u i)) (live p))",
  "new": "(mkP (lk p) tb (set_pc (pcs p) t (PRelW u i)) (live p))",
  "edit": "handle created by insertion not counted",
  "claim": "C20: count",
  "only": [
   "PoolProps"
  ]
 },
 {
  "id": "po5",
  "file": "Pool",
  "definition": "ps_insert",
  "old": "nth_error (pcs p) t = Some (PIns u) -> nth_error (th (lk p)) t = Some HoldW ->",
  "new": "nth_error (pcs p) t = Some (PIns u) ->",
  "edit": "inserts without holding the write lock",
  "claim": "C20: no data race",
  "only": [
   "PoolProps"
  ]
 },
 {
  "id": "po6",
  "file": "Pool",
  "definition": "ps_upgrade",
  "old": "(match o with Some false => PBack u | _ => PIns u end)",
  "new": "(PIns u)",
  "edit": "ignores a failed upgrade",
  "claim": "C20: progress (inserts only when granted)",
  "only": [
   "PoolProps"
  ]
 },
 {
  "id": "po7",
  "file": "Pool",
  "definition": "ps_back",
  "old": "step (lk p) t UnlockRead = Next s' o ->\n    pstep p (Tau None) (mkP s' (tab p) (set_pc (pcs p) t (PRetry u)) (live p))\n",
  "new": "step (lk p) t Upgrade = Next s' o ->\n    pstep p (Tau None) (mkP s' (tab p) (set_pc (pcs p) t (PBack u)) (live p))\n",
  "edit": "keeps the read lock and retries the upgrade (deadlock)",
  "claim": "C20: progress",
  "only": [
   "PoolProps"
  ]
 },
 {
  "id": "po8",
  "file": "Pool",
  "definition": "ps_destroy",
  "old": "(bump (tab p) i (-1))",
  "new": "(tab p)",
  "edit": "destroyed handles stay counted",
  "claim": "C20: count",
  "only": [
   "PoolProps"
  ]
 },
 {
  "id": "po9",
  "file": "Pool",
  "definition": "ps_copy",
  "old": "(bump (tab p) i 1) (pcs p) (i :: live p)",
  "new": "(tab p) (pcs p) (i :: live p)",
  "edit": "copies not counted",
  "claim": "C20: count",
  "only": [
   "PoolProps"
  ]
 }
]