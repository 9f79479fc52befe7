[
 {
  "id": "rc1",
  "file": "RCHash",
  "definition": "create",
  "old": "(c * ML_DEFAULT / ONE) ML_DEFAULT)",
  "new": "c ML_DEFAULT)",
  "edit": "initial watermark is the capacity",
  "claim": "(harmless? the table may fill up: insertion then fails)",
  "only": [
   "RCHashProofs",
   "RCHashProps"
  ]
 },
 {
  "id": "rc2",
  "file": "RCHash",
  "definition": "set_max_load_factor",
  "old": "(x * cap m / ONE) x",
  "new": "(wm m) x",
  "edit": "watermark not updated with the load factor",
  "claim": "C18: histories with other load factors",
  "only": [
   "RCHashProofs",
   "RCHashProps"
  ]
 },
 {
  "id": "rc3",
  "file": "RCHash",
  "definition": "probe_dup",
  "old": "else probe_dup f t c index (p + 1) (distance + (p + 1))",
  "new": "else probe_dup f t c index (p + 1) (distance + p)",
  "edit": "wrong probing step",
  "claim": "C18: look-ups find duplicates",
  "only": [
   "RCHashProofs",
   "RCHashProps"
  ]
 },
 {
  "id": "rc4",
  "file": "RCHash",
  "definition": "insert_dup_core",
  "old": "let t1 := set (tab m) i (mkSlot 1 k v) in",
  "new": "let t1 := set (tab m) i (mkSlot 0 k v) in",
  "edit": "inserted duplicate not marked as used",
  "claim": "C18: no entry lost",
  "only": [
   "RCHashProofs",
   "RCHashProps"
  ]
 },
 {
  "id": "rc5",
  "file": "RCHash",
  "definition": "insert_dup_core",
  "old": "(mkSlot (p + 1) (skey b) (sval b))",
  "new": "(mkSlot p (skey b) (sval b))",
  "edit": "probe length of the bucket not increased",
  "claim": "C18: look-ups reach the last duplicate",
  "only": [
   "RCHashProofs",
   "RCHashProps"
  ]
 },
 {
  "id": "rc6",
  "file": "RCHash",
  "definition": "insert_dup_core",
  "old": "(set (tab m) index (mkSlot (pl b + 1) k v)) (size m + 1)",
  "new": "(set (tab m) index (mkSlot (pl b + 1) k v)) (size m)",
  "edit": "size not incremented",
  "claim": "C18: size",
  "only": [
   "RCHashProofs",
   "RCHashProps"
  ]
 },
 {
  "id": "rc7",
  "file": "RCHash",
  "definition": "reinsert",
  "old": "if occ s then match ins (skey s) (sval s) m with None => None | Some (m', _) => reinsert ins old' m' end",
  "new": "if 1 <? pl s then match ins (skey s) (sval s) m with None => None | Some (m', _) => reinsert ins old' m' end",
  "edit": "rehash drops entries with probe length one",
  "claim": "C18: growth loses nothing",
  "only": [
   "RCHashProofs",
   "RCHashProps"
  ]
 },
 {
  "id": "rc8",
  "file": "RCHash",
  "definition": "rehash_to",
  "old": "(repeat free_slot (Z.to_nat nc)) 0 (wm m)",
  "new": "(repeat free_slot (Z.to_nat nc)) (size m) (wm m)",
  "edit": "size not reset before re-insertion",
  "claim": "C18: size",
  "only": [
   "RCHashProofs",
   "RCHashProps"
  ]
 },
 {
  "id": "rc9",
  "file": "RCHash",
  "definition": "resize_",
  "old": "if nc =? cap m then Some m else",
  "new": "if nc <=? cap m then Some m else",
  "edit": "never shrinks",
  "claim": "(C18 does not speak of capacities; contents unchanged)",
  "only": [
   "RCHashProofs",
   "RCHashProps"
  ]
 },
 {
  "id": "rc10",
  "file": "RCHash",
  "definition": "resize_",
  "old": "(nc * ml m / ONE) (ml m) in",
  "new": "(wm m) (ml m) in",
  "edit": "watermark not updated on growth",
  "claim": "C18: operations after growth succeed",
  "only": [
   "RCHashProofs",
   "RCHashProps"
  ]
 },
 {
  "id": "rc11",
  "file": "RCHash",
  "definition": "grow",
  "old": "if wm m <=? size m then resize (2 * cap m) m",
  "new": "if wm m <? size m then resize (2 * cap m) m",
  "edit": "grows one insertion later",
  "claim": "(harmless for the default load factor unless the table is full)",
  "only": [
   "RCHashProofs",
   "RCHashProps"
  ]
 },
 {
  "id": "rc12",
  "file": "RCHash",
  "definition": "probe_nodup",
  "old": "if eqb k (skey (get t i)) then Some (inl i) else",
  "new": "if eqb k (skey (get t i)) && false then Some (inl i) else",
  "edit": "duplicates not detected",
  "claim": "C18: insertion without duplicates",
  "only": [
   "RCHashProofs",
   "RCHashProps"
  ]
 },
 {
  "id": "rc13",
  "file": "RCHash",
  "definition": "insert_without_duplicates",
  "old": "let t2 := set t1 index (mkSlot (p + 1) (skey (get t1 index)) (sval (get t1 index))) in",
  "new": "let t2 := t1 in",
  "edit": "bucket's probe length not updated",
  "claim": "C18: look-ups",
  "only": [
   "RCHashProofs",
   "RCHashProps"
  ]
 },
 {
  "id": "rc14",
  "file": "RCHash",
  "definition": "insert_without_duplicates",
  "old": "| Some (inl i) => Some (m, i, false)",
  "new": "| Some (inl i) => Some (mkMap c (set (tab m) i (mkSlot (pl (get (tab m) i)) k v)) (size m) (wm m) (ml m), i, false)",
  "edit": "duplicate insertion overwrites the value",
  "claim": "C18: keeps the first value",
  "only": [
   "RCHashProofs",
   "RCHashProps"
  ]
 },
 {
  "id": "rc15",
  "file": "RCHash",
  "definition": "insert_without_duplicates",
  "old": "| Some (inl i) => Some (m, i, false)",
  "new": "| Some (inl i) => Some (m, i, true)",
  "edit": "reports insertion of a duplicate",
  "claim": "C18: insertion result",
  "only": [
   "RCHashProofs",
   "RCHashProps"
  ]
 },
 {
  "id": "rc16",
  "file": "RCHash",
  "definition": "find_loop",
  "old": "if pl (get t i) =? 0 then None else\n        if eqb",
  "new": "if eqb",
  "edit": "free slots compared",
  "claim": "(harmless within the probe length?)",
  "only": [
   "RCHashProofs",
   "RCHashProps"
  ]
 },
 {
  "id": "rc17",
  "file": "RCHash",
  "definition": "find",
  "old": "find_loop (Z.to_nat (pl (get (tab m) index)))",
  "new": "find_loop (Z.to_nat (pl (get (tab m) index) - 1))",
  "edit": "find stops one probe early",
  "claim": "C18: find",
  "only": [
   "RCHashProofs",
   "RCHashProps"
  ]
 },
 {
  "id": "rc18",
  "file": "RCHash",
  "definition": "for_all_loop",
  "old": "for_all_loop n' t c k (step + 1) (masked c (i + (step + 1)))",
  "new": "for_all_loop n' t c k (step + 1) (masked c (i + 1))",
  "edit": "bucket iterator probes linearly",
  "claim": "C18: for_all visits all values",
  "only": [
   "RCHashProofs",
   "RCHashProps"
  ]
 },
 {
  "id": "rc19",
  "file": "RCHash",
  "definition": "for_all_loop",
  "old": "(if eqb k (skey (get t i)) then [kv (get t i)] else []) ++",
  "new": "(if eqb k (skey (get t i)) || true then [kv (get t i)] else []) ++",
  "edit": "for_all visits other keys of the bucket",
  "claim": "C18: for_all",
  "only": [
   "RCHashProofs",
   "RCHashProps"
  ]
 },
 {
  "id": "rc20",
  "file": "RCHash",
  "definition": "next_slot",
  "old": "if negb (i' =? c) && (pl (get t i') =? 0) then next_slot f t c i' else i'",
  "new": "if negb (i' =? c) && (pl (get t i') =? -1) then next_slot f t c i' else i'",
  "edit": "iterator does not skip free slots",
  "claim": "C19: iteration",
  "only": [
   "RCHashProofs",
   "RCHashProps"
  ]
 },
 {
  "id": "rc21",
  "file": "RCHash",
  "definition": "iterate",
  "old": "(tab m) (cap m) 0)",
  "new": "(tab m) (cap m) 1)",
  "edit": "iteration starts at slot 1",
  "claim": "C19: iteration",
  "only": [
   "RCHashProofs",
   "RCHashProps"
  ]
 }
]