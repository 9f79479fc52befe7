from gen import dump
dump('la','LinAlloc.v',['LinAllocProps'],[
("allocate","let fs := wr 64 (off s + aligned) in","let fs := wr 64 (off s + size) in","frontier advanced by the unaligned size","C24: page alignment"),
("allocate","AOk (mkLA fs (off s :: allocs s) fs) (off s, aligned)","AOk (mkLA fs (off s :: allocs s) fs) (off s, size)","memory object has the unaligned size","C24: page multiples"),
("allocate","if aligned <? size then AFail s else","","wrap of the page rounding not detected","C24: size"),
("allocate","if MAX_FILE <? fs then AFail s else ","if MAX_FILE <=? fs then AFail s else ","largest file refused","C24: which requests succeed"),
("allocate","AFail (mkLA (off s) (allocs s) fs) else","AFail (mkLA fs (allocs s) fs) else","failed mapping advances the frontier","C24: frontier after a failure"),
("allocate","AFail (mkLA (off s) (allocs s) fs) else","AFail (mkLA (off s) (off s :: allocs s) fs) else","failed mapping records an allocation","C24: all freed after a failure"),
("allocate","if size =? 0 then AEmpty else","if size <=? 1 then AEmpty else","one-byte request refused","C24: which requests succeed"),
("reclaim","if is_marked x then reclaim l' (unmarked x) else (new_size, l)","if is_marked x then reclaim l' new_size else (new_size, l)","frontier not lowered","C24: reclaims"),
("reclaim","| x :: l' => if is_marked x then reclaim l' (unmarked x) else (new_size, l)","| x :: l' => if is_marked x then (unmarked x, l') else (new_size, l)","only one allocation reclaimed","C24: all freed"),
("reclaim","reclaim l' (unmarked x) else (new_size, l)","reclaim l' x else (new_size, l)","mark not removed","C24: frontier"),
("mark_first","if x =? o then Some (mark o :: l')","if x =? o then Some (o :: l')","not marked","C24: reclaim"),
("mark_first","match mark_first l' o with Some r => Some (x :: r) | None => None end","match mark_first l' o with Some r => Some r | None => None end","allocations before the freed one are dropped","C24: free accepts live"),
("deallocate","if match allocs s with x :: _ => x =? fst m | [] => false end then","if true then","releases in the middle run the reclaim loop","C24: frontier (file truncated)"),
("deallocate","if match allocs s with x :: _ => x =? fst m | [] => false end then","if false then","nothing reclaimed","C24: all freed"),
("deallocate","Some (mkLA n rest n)","Some (mkLA n rest (fsize s))","file not truncated","C24: last release truncates"),
("deallocate","Some (mkLA n rest n)","Some (mkLA (off s) rest n)","frontier not moved","C24: frontier"),
("deallocate","else Some (mkLA (off s) l (fsize s))","else Some (mkLA (off s) (allocs s) (fsize s))","out-of-order release not recorded","C24: all freed"),
("is_marked","negb (N.land o MSB =? 0)","N.land o MSB =? 0","inverted mark","C24: reclaim"),
])
dump('li','ListAlloc.v',['ListAllocProps'],[
("find_fit","(ext v - 8 <? size)","(ext v <? size)","size cell not counted","C23: blocks disjoint"),
("find_fit","(ext v - 8 <? size) || is_unaligned a al","(ext v - 8 <? size)","alignment ignored","C23: alignment"),
("find_fit","(ext v - 8 <? size)","(ext v - 16 <? size)","exact fits refused","C23: reuse"),
("find_fit","(ext v - 8 <? size)","(v - 8 <? size)","mark counted as size","C23: disjoint"),
("insert_pos","if b + 8 <? a then","if a <? b + 8 then","list sorted in descending order","C23: all freed (coalescing)"),
("insert_pos","if b + 8 <? a then","if false then","chunk always put at the front","C23: all freed"),
("coalesce","if marked w then (c, rest)\n      else","","coalesces across regions","C23: destructor returns the regions"),
("coalesce","((fst c, snd c + ext w), rest')","((fst c, snd c + ext w), rest)","coalesced chunk stays in the list","C23: disjoint"),
("coalesce","((fst c, snd c + ext w), rest')","((fst c, snd c), rest')","coalesced size lost","C23: all freed"),
("coalesce","if fst c + ext (snd c) =? b then","if fst c + snd c =? b then","mark counted in the end address","C23: all freed"),
("coalesce","if fst c + ext (snd c) =? b then","if fst c + ext (snd c) <=? b then","coalesces non-adjacent chunks","C23: disjoint"),
("coalesce_last","| [p] => let '(p', r) := coalesce p (c :: rest) in p' :: r","| [p] => p :: c :: rest","not coalesced with the previous chunk","C23: all freed"),
("reclaim","let '(c, rest) := coalesce (a, v) post in","let '(c, rest) := ((a, v), post) in","not coalesced with the next chunk","C23: all freed"),
("fresh_size","Z.max (size + 8) (min_size s)","Z.max size (min_size s)","size cell not requested","C23: inside the region"),
("mmap_len","fresh_size PG s size + eal.","fresh_size PG s size.","no slack for alignment","C23: inside memory obtained"),
("aligned_addr","if eal =? PG then p else ceil_mult p eal","p","address not aligned","C23: alignment"),
("take","let first := ceil_mult (Z.max (size + 8) size_of_header) 8 in","let first := ceil_mult (Z.max size size_of_header) 8 in","split without room for the size cell","C23: bookkeeping"),
("take","let first := ceil_mult (Z.max (size + 8) size_of_header) 8 in","let first := size + 8 in","split not word aligned","C23: bookkeeping"),
("take","(a + first, eff - first) :: post)","(a + first, eff) :: post)","size of the rest wrong","C23: disjoint"),
("take","(a + first, eff - first) :: post)","(a + first, v - first) :: post)","rest inherits the mark","C23: destructor"),
("take","let v1 := first + (if marked v then BIT else 0) in","let v1 := first in","mark lost at split","C23: destructor"),
("take","(mkL (pre ++ post) (min_size s) (expo s) (upd","(mkL (pre ++ c :: post) (min_size s) (expo s) (upd","chunk not unlinked","C23: disjoint"),
("take","(mkL (pre ++ post) (min_size s) (expo s) (upd (mem s) (size_addr a size) v)","(mkL (pre ++ post) (min_size s) (expo s) (upd (mem s) (size_addr a size) size)","requested size stored instead of the chunk size","C23: all freed"),
("allocate","pre (a, n + BIT) post size","pre (a, n) post size","fresh chunk not marked","C23: destructor"),
("allocate","(if expo s then 2 * min_size s else min_size s)","(min_size s)","no exponential growth","C23: growth"),
("allocate","match find_fit (fl s) size al with\n  | Some","match (None : option (list chunk * chunk * list chunk)) with\n  | Some","never reuses","C23: reuse"),
("deallocate","(mem s (size_addr ptr size))","(size + 8)","uses requested size","C23: all freed"),
("unmapped","filter (fun c => marked (snd c)) (fl s)","filter (fun c => negb (marked (snd c))) (fl s)","destructor unmaps the wrong chunks","C23: destructor"),
("unmapped","(fst c, ext (snd c))","(fst c, snd c)","destructor passes the mark","C23: destructor"),
])
