from gen import dump
dump('rc','RCHash.v',['RCHashProofs','RCHashProps'],[
("create","(c * ML_DEFAULT / ONE) ML_DEFAULT)","c ML_DEFAULT)","initial watermark is the capacity","(harmless? the table may fill up: insertion then fails)"),
("set_max_load_factor","(x * cap m / ONE) x","(wm m) x","watermark not updated with the load factor","C18: histories with other load factors"),
("probe_dup","else probe_dup f t c index (p + 1) (distance + (p + 1))","else probe_dup f t c index (p + 1) (distance + p)","wrong probing step","C18: look-ups find duplicates"),
("insert_dup_core","let t1 := set (tab m) i (mkSlot 1 k v) in","let t1 := set (tab m) i (mkSlot 0 k v) in","inserted duplicate not marked as used","C18: no entry lost"),
("insert_dup_core","(mkSlot (p + 1) (skey b) (sval b))","(mkSlot p (skey b) (sval b))","probe length of the bucket not increased","C18: look-ups reach the last duplicate"),
("insert_dup_core","(set (tab m) index (mkSlot (pl b + 1) k v)) (size m + 1)","(set (tab m) index (mkSlot (pl b + 1) k v)) (size m)","size not incremented","C18: size"),
("reinsert","if occ s then match ins (skey s) (sval s) m with None => None | Some (m', _) => reinsert ins old' m' end","if 1 <? pl s then match ins (skey s) (sval s) m with None => None | Some (m', _) => reinsert ins old' m' end","rehash drops entries with probe length one","C18: growth loses nothing"),
("rehash_to","(repeat free_slot (Z.to_nat nc)) 0 (wm m)","(repeat free_slot (Z.to_nat nc)) (size m) (wm m)","size not reset before re-insertion","C18: size"),
("resize_","if nc =? cap m then Some m else","if nc <=? cap m then Some m else","never shrinks","(C18 does not speak of capacities; contents unchanged)"),
("resize_","(nc * ml m / ONE) (ml m) in","(wm m) (ml m) in","watermark not updated on growth","C18: operations after growth succeed"),
("grow","if wm m <=? size m then resize (2 * cap m) m","if wm m <? size m then resize (2 * cap m) m","grows one insertion later","(harmless for the default load factor unless the table is full)"),
("probe_nodup","if eqb k (skey (get t i)) then Some (inl i) else","if eqb k (skey (get t i)) && false then Some (inl i) else","duplicates not detected","C18: insertion without duplicates"),
("insert_without_duplicates","let t2 := set t1 index (mkSlot (p + 1) (skey (get t1 index)) (sval (get t1 index))) in","let t2 := t1 in","bucket's probe length not updated","C18: look-ups"),
("insert_without_duplicates","| Some (inl i) => Some (m, i, false)","| Some (inl i) => Some (mkMap c (set (tab m) i (mkSlot (pl (get (tab m) i)) k v)) (size m) (wm m) (ml m), i, false)","duplicate insertion overwrites the value","C18: keeps the first value"),
("insert_without_duplicates","| Some (inl i) => Some (m, i, false)","| Some (inl i) => Some (m, i, true)","reports insertion of a duplicate","C18: insertion result"),
("find_loop","if pl (get t i) =? 0 then None else\n        if eqb","if eqb","free slots compared","(harmless within the probe length?)"),
("find","find_loop (Z.to_nat (pl (get (tab m) index)))","find_loop (Z.to_nat (pl (get (tab m) index) - 1))","find stops one probe early","C18: find"),
("for_all_loop","for_all_loop n' t c k (step + 1) (masked c (i + (step + 1)))","for_all_loop n' t c k (step + 1) (masked c (i + 1))","bucket iterator probes linearly","C18: for_all visits all values"),
("for_all_loop","(if eqb k (skey (get t i)) then [kv (get t i)] else []) ++","(if eqb k (skey (get t i)) || true then [kv (get t i)] else []) ++","for_all visits other keys of the bucket","C18: for_all"),
("next_slot","if negb (i' =? c) && (pl (get t i') =? 0) then next_slot f t c i' else i'","if negb (i' =? c) && (pl (get t i') =? -1) then next_slot f t c i' else i'","iterator does not skip free slots","C19: iteration"),
("iterate","(tab m) (cap m) 0)","(tab m) (cap m) 1)","iteration starts at slot 1","C19: iteration"),
])
dump('rw','RWLock.v',['RWLockProps','Pool','PoolProps'],[
("can_acquire_read_lock","&& (writers_waiting c =? 0)","","readers overtake waiting writers","C21: try_lock_read fails while a writer waits"),
("can_acquire_read_lock","negb (reader_wants_upgrade c) && negb (writer_active c) &&","negb (reader_wants_upgrade c) &&","readers enter while a writer is active","C21: mutual exclusion"),
("can_acquire_write_lock","negb (writer_active c) && (readers_active c =? 0).","negb (writer_active c).","writer enters while readers are active","C21: mutual exclusion"),
("can_upgrade_lock","(readers_active c =? 1)","(readers_active c <=? 2)","upgrade granted with another reader","C21: upgrade alone"),
("try_request_upgrade","if reader_wants_upgrade c then None else","","two upgraders allowed","C21: one upgrader"),
("acquire_write_lock","(dec16 (writers_waiting c)) (readers_active c) true","(writers_waiting c) (readers_active c) true","writer stays counted as waiting","C21/C22: readers blocked although nobody waits"),
("release_write_lock","(readers_active c) false (reader_wants_upgrade c)","(readers_active c) true (reader_wants_upgrade c)","write lock never released","C21: unlock"),
("upgrade_lock","release_read_lock (set_wants false c)","release_read_lock c","upgrade flag not cleared","C21: later upgrades"),
("step:TryRead","if can_acquire_read_lock c then or_fail (acquire_read_lock (request_read_lock c)) (fun c' => goto s t HoldR c' (Some true)) else Next s (Some false)","if can_acquire_read_lock c then or_fail (acquire_read_lock (request_read_lock c)) (fun c' => goto s t HoldR c' (Some true)) else goto s t Idle (request_read_lock c) (Some false)","failed try leaves a request behind","C21: failing try leaves the lock unchanged"),
("step:UnlockRead","if reader_wants_upgrade c' && (readers_active c' =? 1) then goto s t PendW c' None\n        else","","upgrader not notified when it is the last reader","C22: upgrader not forgotten"),
("step:UnlockRead","else if (readers_active c' =? 0) && negb (writers_waiting c' =? 0) then goto s t PendW c' None","","writers not notified by the last reader","C22: writers not forgotten"),
("step:UnlockWrite","if negb (writers_waiting c' =? 0) then goto s t PendW c' None\n        else if","if","writer does not notify waiting writers","C22: writers not forgotten"),
("step:UnlockWrite","else if negb (readers_waiting c' =? 0) then goto s t PendR c' None","","writer does not notify waiting readers","C22: readers not forgotten"),
("step:NotifyR","Next (mkS (set_th (map (fun x => match x with WaitR => WakeR | y => y end) (th s)) t Idle) c) None","goto s t Idle c None","notification of readers wakes nobody","C22: readers not forgotten"),
("enter_read","if can_acquire_read_lock c then or_fail (acquire_read_lock c) (fun c' => goto s t HoldR c' None) else","","lock_read always blocks","C21: lock_read acquires a free lock"),
("enter_upgrade","| Some true => or_fail (upgrade_lock c) (fun c' => goto s t HoldW c' (Some true))","| Some true => or_fail (upgrade_lock c) (fun c' => goto s t HoldR c' (Some true))","upgrade keeps the thread a reader","C21: upgrade"),
])
dump('po','Pool.v',['PoolProps'],[
("find_from","if eqb v u then Some k else find_from (S k) l' u","if eqb v u then Some k else find_from k l' u","wrong position","C20: equal handles"),
("emplace","match find l u with Some i => (l, i) | None => (l ++ [(u, 0)], length l) end","match find l u with Some i => (l ++ [(u, 0)], length l) | None => (l ++ [(u, 0)], length l) end","inserts without re-checking (hint not verified)","C20: no duplicates under concurrency"),
("bump","(v, (c + d) mod 4294967296) :: l'","(v, c) :: l'","reference counts not maintained","C20: count"),
("ps_insert","(mkP (lk p) (bump tb i 1) (set_pc (pcs p) t (PRelW u i)) (live p))","(mkP (lk p) tb (set_pc (pcs p) t (PRelW u i)) (live p))","handle created by insertion not counted","C20: count"),
("ps_insert","nth_error (pcs p) t = Some (PIns u) -> nth_error (th (lk p)) t = Some HoldW ->","nth_error (pcs p) t = Some (PIns u) ->","inserts without holding the write lock","C20: no data race"),
("ps_upgrade","(match o with Some false => PBack u | _ => PIns u end)","(PIns u)","ignores a failed upgrade","C20: progress (inserts only when granted)"),
("ps_back","step (lk p) t UnlockRead = Next s' o ->\n    pstep p (Tau None) (mkP s' (tab p) (set_pc (pcs p) t (PRetry u)) (live p))\n","step (lk p) t Upgrade = Next s' o ->\n    pstep p (Tau None) (mkP s' (tab p) (set_pc (pcs p) t (PBack u)) (live p))\n","keeps the read lock and retries the upgrade (deadlock)","C20: progress"),
("ps_destroy","(bump (tab p) i (-1))","(tab p)","destroyed handles stay counted","C20: count"),
("ps_copy","(bump (tab p) i 1) (pcs p) (i :: live p)","(tab p) (pcs p) (i :: live p)","copies not counted","C20: count"),
])
