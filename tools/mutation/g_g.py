from gen import dump
dump('sc','Schema.v',['SchemaProps'],[
("make_ident",'Some ""%string => None','Some ""%string => Some (mkId None n)',"empty prefix accepted","C40: identifiers"),
("make_ident",'| _ => Some (mkId p n)','| _ => None',"every identifier refused","C40: identifiers"),
("opt_string_eqb","| _, _ => false","| _, _ => true","missing prefix equals every prefix","C40: has/at"),
("ident_eqb","opt_string_eqb (prefix a) (prefix b) &&","","prefix ignored","C40: has/at"),
("const_id",'"$const"%string','"const"%string',"wrong name","C40: drop_constants"),
("find","negb (find_if id (skipn (S it) s) (S it) =? length s)","false","ambiguity not reported","C40: has/at ambiguous"),
("find","(skipn (S it) s) (S it)","(skipn it s) it","everything ambiguous","C40: has/at"),
("find_if","find_if id r (S off)","find_if id r off","index not advanced","C40: at"),
("has","Some (negb (it =? length s))","Some (it =? length s)","inverted","C40: has"),
("at_id","| Some it => match nth_error s it with","| Some it => match nth_error s (pred it) with","entry before","C40: at"),
("add","s ++ [e]","e :: s","prepends","C40: order"),
("dedup_loop","| Some true => dedup_loop res r","| Some true => Some res","stops at the first duplicate","C40: deduplicate"),
("dedup_loop","(mkEntry (eid e) (etype e) (econstraints e))","(mkEntry (eid e) (etype e) 0%N)","constraints lost","C40: deduplicate"),
("drop_constants_loop","if negb (is_constant (eid e))","if is_constant (eid e)","keeps the constants","C40: drop_constants"),
("drop_constants_loop","(mkEntry (eid e) (etype e) (econstraints e))","(mkEntry (eid e) 0 (econstraints e))","type lost","C40: drop_constants"),
("concat_assign","| e :: r => concat_assign (add s e) r","| e :: r => concat_assign s r","nothing added","C40: concatenation"),
("union_assign","| Some true => union_assign s r","| Some true => union_assign (add s e) r","duplicates added","C40: union"),
("union_assign","| Some false => union_assign (add s e) r","| Some false => union_assign s r","new entries dropped","C40: union"),
("all_has","| Some false => Some false","| Some false => Some true","always equal","C40: equality"),
("schema_eq","| Some true => all_has b a","| Some true => Some true","inclusion instead of equality","C40: equality"),
("inter_loop","if negb (etype e =? etype f) then None","if false then None","types not compared","C40: intersection"),
("inter_loop","(N.lor (econstraints e) (econstraints f))","(N.land (econstraints e) (econstraints f))","constraints intersected","C40: intersection"),
("inter_loop","| None => inter_loop res r right","| None => Some res","stops at the first entry missing","C40: intersection"),
("inter_loop","match find right (eid e) with","match find left (eid e) with","searches the left schema","C40: intersection"),
])
dump('ty','Types.v',['TypesProps'],[
("max_kind","kind_num a <? kind_num b","kind_num b <? kind_num a","smaller kind","C39: join"),
("kind_num","N_Int => 0 | N_Float => 1 | N_Decimal => 2","N_Int => 0 | N_Float => 2 | N_Decimal => 1","FLOAT before DECIMAL","C39: join"),
("max_cat","cat_num a <? cat_num b then b else a","cat_num a <? cat_num b then a else b","scalar instead of vector","C39: join"),
("max_cat","if cat_num a <? cat_num b then b else a","a","category of the left operand","C39: join"),
("precision_bits","N_Int => 8 * precision t","N_Int => precision t","bytes as bits","C39: join"),
("precision_bits","sf_ceil (SFmul","sf_trunc (SFmul","rounds down","C39: join"),
("arithmetic_join","Z.max (scale lhs) (scale rhs)","scale lhs","scale of the left operand","C39: join"),
("arithmetic_join","Z.max (precision_bits lhs) (precision_bits rhs)","Z.min (precision_bits lhs) (precision_bits rhs)","smaller precision","C39: join"),
("arithmetic_join","(prec / 8)","prec","bits as bytes","C39: join"),
("arithmetic_join","if prec =? 32 then Some (Get_Float c)","if prec <=? 32 then Some (Get_Float c)","no assertion for small ones","C39: none (valid types have at least 32 bits)"),
("arithmetic_join","if prec =? 32 then Some (Get_Float c) else","","no FLOAT result","C39: join of FLOAT and SMALLINT"),
("arithmetic_join","(sf_trunc (SFdiv 53 1024 (d_ofZ prec) LOG_2_OF_10))","(sf_ceil (SFdiv 53 1024 (d_ofZ prec) LOG_2_OF_10))","rounds up","C39: join idempotent"),
("LOG_2_OF_10","3321928094887362","3321928094","truncated constant","C39: join"),
("DECIMAL_TO_BINARY_DIGITS","332192","232192","wrong constant","C39: sizes"),
("size","N_Int => 8 * precision t","N_Int => 64","every integer has 64 bits","C39: sizes"),
("size","N_Float => precision t","N_Float => 64","FLOAT has 64 bits","C39: sizes"),
("size","Arith.ceil_to_pow_2 32 (Z.to_N (sf_ceil","Arith.ceil_to_pow_2 32 (Z.to_N (8 * sf_ceil","8 times too large","C39: sizes"),
("alignment","size t","8","byte alignment","C39: alignment"),
("numeric_eqb","(scale a =? scale b)","true","scale not compared","C39: equality"),
("numeric_eqb","(cat_num (cat a) =? cat_num (cat b)) &&","","category not compared","C39: equality"),
])
dump('sd','Scheduler.v',['SchedulerProps'],[
("enqueue","else if it =? n then queue s ++ [(t, c)]","else if it =? n then (t, c) :: queue s","pushes to the front","C25: order"),
("enqueue","if is_running s t && (it =? 0)","if is_running s t","running transaction overtakes","C25: order within a transaction"),
("pop_ready","t =? u","true","other transactions interleave","C25: isolation"),
("pop_ready","if closed s then true","if closed s then false","worker sleeps although closed","C25: termination"),
("pop_ready","None => true | Some u","None => false | Some u","nothing is ever handed out","C25: progress"),
("timestamp_filter","(ts_begin r <=? tst)","(ts_begin r <? tst)","own writes invisible","C26: snapshot"),
("timestamp_filter","(ts_end r >? tst)","(ts_end r >=? tst)","rows deleted now visible","C26: row versions"),
("timestamp_filter","|| (ts_end r =? -1)","","rows without end invisible","C26: snapshot"),
("assign_start","(next_start_time s + 1)%Z","next_start_time s","start times repeat","C26: start times"),
("assign_start","if (start s t =? -1)%Z then","if true then","new start time for each command","C26: start times"),
("step","if closed s then Some (s, [EReject t c])","if false then Some (s, [EReject t c])","accepts commands after close","C25: closed"),
("step","(enqueue s t c sentinel) (running s) (closed s) (wrk s) (S (pending s))","(enqueue s t c sentinel) (running s) (closed s) (wrk s) (pending s)","push does not notify","C25: wake-up"),
("step","Some (mkState (queue s) None (closed s) (wrk s) (S (pending s))","Some (mkState (queue s) None (closed s) (wrk s) (pending s)","commit does not notify","C25: wake-up"),
("step","Some (mkState (queue s) None (closed s) (wrk s) (S (pending s))","Some (mkState (queue s) (running s) (closed s) (wrk s) (S (pending s))","commit does not end the transaction","C25: other transactions can proceed"),
("step","(match running s with None => Some t | Some u => Some u end)","(running s)","transaction not opened","C25: isolation"),
("step","(match wrk s with Asleep => Ready | w => w end) p","(wrk s) p","notification ignored","C25: wake-up"),
("step","Some (mkState [] (running s) true (wrk s) (S (pending s))","Some (mkState [] (running s) true (wrk s) (pending s)","close does not notify","C25: wake-up"),
("step","map (fun p => EFail (fst p) (snd p)) (queue s)","@nil event","queued commands forgotten","C25: close"),
("step","Some (mkState [] (running s) true","Some (mkState (queue s) (running s) true","queue kept","C25: close"),
("step","[EDone t c tst false []]","[EDone t c tst true []]","invalid commands succeed","C25: results"),
("step","(rows s ++ map (fun v => mkRow tst (-1)%Z v) vs), [EDone t c tst true []]","(rows s ++ map (fun v => mkRow tst tst v) vs), [EDone t c tst true []]","row ended at once","C26: snapshot"),
("step","(rows s ++ map (fun v => mkRow tst (-1)%Z v) vs), [EDone t c tst true []]","(map (fun v => mkRow tst (-1)%Z v) vs), [EDone t c tst true []]","earlier rows lost","C26: snapshot"),
("step","Some (mkState q (match running","Some (mkState (queue s) (match running","command stays in the queue","C25: exactly once"),
])
dump('in','Insert.v',['InsertProps'],[
("convert_loop","if is_hidden a then S id else id","if is_hidden a then id else S id","counts the visible ones","C45: values"),
("convert_loop","i <=? id","i <? id","stops early","C45: values"),
("fill","I_Null => set_nth i None tup","I_Null => tup","NULL keeps the earlier value","C45: values"),
("fill","I_Expr v => set_nth (convert_id attrs i) v tup","I_Expr v => set_nth i v tup","hidden attributes overwritten","C45: values"),
("fill","I_Default => tup","I_Default => set_nth i (Some 0%Z) tup","DEFAULT is 0","C45: DEFAULT"),
("stamp","(Some (-1)%Z)","(Some 0%Z)","rows end at 0","C45: timestamps"),
("stamp","set_nth e (Some (-1)%Z) (set_nth b (Some start_time) tup)","set_nth b (Some (-1)%Z) (set_nth e (Some start_time) tup)","timestamps swapped","C45: timestamps"),
("insert_loop","tup :: insert_loop attrs ts start_time tup r","tup :: insert_loop attrs ts start_time ts_tup r","fresh tuple for each row (the repaired code)","C45: DEFAULT refutation"),
("insert_loop","tup :: insert_loop attrs ts start_time tup r","insert_loop attrs ts start_time tup r ++ [tup]","rows in reverse order","C45: order"),
("sema_tuple","I_Null => negb (not_nullable a)","I_Null => true","NULL accepted for NOT NULL","C45: accepted"),
("sema_tuple","I_Null => negb (not_nullable a)","I_Null => false","NULL never accepted","C45: accepted"),
("sema_tuple","| _, _ => false","| _, _ => true","number of values not checked","C45: accepted"),
("sema_insert","negb (is_hidden a)","is_hidden a","checks the hidden attributes","C45: accepted"),
])
dump('xo','XorList.v',['XorListProps'],[
("incr","(N.lxor p x, n)","(N.lxor n x, n)","wrong address","C34: iteration"),
("decr","(p, N.lxor x n)","(p, N.lxor x p)","wrong address","C34: retreat"),
("iter_eqb","N.eqb (fst a) (fst b) && N.eqb (snd a) (snd b)","N.eqb (fst a) (fst b) || N.eqb (snd a) (snd b)","or instead of and","C34: iteration"),
("rbegin","(tail s, 0%N)","(head s, 0%N)","reverse iteration from the head","C34: reverse iteration"),
("back","(tail s, 0%N)","(head s, 0%N)","back is front","C34: back"),
("emplace","(Some (N.lxor p n, v))","(Some (N.lxor p a, v))","wrong links","C34: insert"),
("emplace","xor_at h0 p (N.lxor n a)","xor_at h0 p a","predecessor keeps the old successor","C34: insert"),
("emplace","xor_at h1 n (N.lxor p a)","Some h1","successor not updated","C34: insert"),
("emplace","if N.eqb p 0 then a else head s","head s","head not updated","C34: push_front"),
("emplace","if N.eqb n 0 then a else tail s","if N.eqb n 0 then tail s else a","tail wrong","C34: push_back"),
("emplace","(S (size s))","(size s)","size not updated","C34: size"),
("emplace","(a, p))","(n, p))","iterator to the successor","C34: insert returns the new element"),
("push_back","(end_ s)","(begin_ s)","pushes to the front","C34: push_back"),
("insert_count","insert_count r it v s1","insert_count r pos v s1","stale position","C34: insert count"),
("insert_loop","insert_loop r it1 s1","insert_loop r it s1","stale position","C34: insert range"),
("erase","xor_at (hp s) p (N.lxor n next)","xor_at (hp s) p next","predecessor broken","C34: erase"),
("erase","xor_at h1 next (N.lxor n p)","Some h1","successor not updated","C34: erase"),
("erase","(if N.eqb p 0 then next else head s)","(head s)","head dangling","C34: erase first"),
("erase","(if N.eqb next 0 then p else tail s)","(if N.eqb next 0 then n else tail s)","tail dangling","C34: erase last"),
("erase","(upd h2 n None)","h2","node leaked","C34: no leak"),
("erase","(pred (size s)), (next, p)","(pred (size s)), (p, next)","returns a swapped iterator","C34: erase returns the successor"),
("erase","(pred (size s))","(size s)","size not updated","C34: size"),
("reverse","(tail s) (head s)","(head s) (tail s)","reverse does nothing","C34: reverse"),
("pop_back","Some (reverse s1, v)","Some (s1, v)","list left reversed","C34: pop_back"),
("pop_front","match front s with","match back s with","returns the last value","C34: pop_front"),
("clear_loop","if N.eqb (head s) 0 then Some s else","if N.eqb (head s) (tail s) then Some s else","stops with one element","C34: clear"),
("copy","combine addrs vs","combine addrs (rev vs)","copy reversed","C34: copy"),
])
