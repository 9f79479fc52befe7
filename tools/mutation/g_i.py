from gen import dump
D=['InterpSpec','InterpProofs','InterpJoins','InterpOps','InterpAggs','InterpProps','InterpClaims']
dump("ip","Interp",D,[
("cell_same","| None, None => true\n  | Some x, Some y => datum_same x y","| None, None => false\n  | Some x, Some y => datum_same x y","NULL not like NULL","C49: NULLs are one group"),
("datum_same","DInt x, DInt y => Z.eqb x y","DInt x, DInt y => Z.leb x y","wrong comparison","C47, C49"),
("key_same","cell_same a b && key_same k1' k2'","cell_same a b","only the first key column compared","C47, C49: keys"),
("cmp_chars","if (y <? x)%N then 1%Z else cmp_chars a' b'","1%Z","strings with common prefix","C50: order"),
("cmp_chars","[], _ :: _ => (-1)%Z","[], _ :: _ => 0%Z","prefix equal","C50: order"),
("of_comparison","Lt => (-1)%Z | Eq => 0%Z | Gt => 1%Z","Lt => 1%Z | Eq => 0%Z | Gt => (-1)%Z","swapped","C50: order"),
("low_ones","sub64 (shl64 1 n) 1","shl64 1 n","wrong mask","C46: last block"),
("load","nth_error rows (N.to_nat i)","nth_error rows (N.to_nat i + 1)","off by one","C46: scan"),
("agg_step","CountAll => Some (DInt (wrap_i (as_i c + 1)))","CountAll => Some (DInt (wrap_i (as_i c + 2)))","counts twice","C49: COUNT"),
("agg_step","match f r with Some _ => 1 | None => 0 end","1","COUNT(x) counts NULLs","C49: COUNT"),
("agg_step","Some x => Some (DInt (wrap_i (as_i c + x)))","Some x => Some (DInt (as_i c + x))","no wrap-around","C49: SUM is 64-bit"),
("agg_step","SumD f => match f r with None => Some (DReal (as_d c))","SumD f => match f r with None => Some (DReal 0)","NULL resets the sum","C49: SUM"),
("agg_step","(x - as_d c) / inject_Z (Z.of_N nth)","(x - as_d c) / inject_Z (Z.of_N nth + 1)","off by one","C49: AVG"),
("agg_step","MinI f => match f r, c with None, _ => c","MinI f => match f r, c with None, _ => None","NULL resets MIN","C49: MIN"),
("agg_step","Z.max (as_i c) x","Z.min (as_i c) x","MAX computes MIN","C49: MAX"),
("agg_step","if Qle_bool (as_d c) x then as_d c else x","if Qle_bool x (as_d c) then as_d c else x","MIN of doubles computes MAX","C49: MIN"),
("agg_step","MaxD f => match f r, c with None, _ => c | Some x, None => Some (DReal x)","MaxD f => match f r, c with None, _ => c | Some x, None => Some (DReal (if Qle_bool x 0 then 0 else x))","initialised with 0","C49: MAX of negative numbers"),
("agg_init","CountAll | Count _ | SumI _ => Some (DInt 0)","CountAll | Count _ | SumI _ => None","COUNT of nothing is NULL","C49: COUNT"),
("add_to_group","else g :: add_to_group aggs k r gs'","else g :: gs'","new keys lost","C49: one row per key"),
("add_to_group","mkGroup (gkey g) (aggs_step aggs n r (gaggs g)) n :: gs'","mkGroup (gkey g) (aggs_step aggs n r (gaggs g)) n :: add_to_group aggs k r gs'","a new group each time","C49: one row per key"),
("add_to_group","mkGroup (gkey g) (aggs_step aggs n r (gaggs g)) n ::","mkGroup (gkey g) (aggs_step aggs n r (gaggs g)) (gcount g) ::","count not updated","C49: AVG"),
("probe_matches","write sts' b' 0%N","write sts' b' 1%N","first slot skipped","C47: rows"),
("probe_matches","if N.eqb i 64\n      then match","if N.eqb i 63\n      then match","block of 63","C47: rows"),
("probe_matches","(bupd b i (join m)) (i + 1)%N","(bupd b i (join m)) i","slot overwritten","C47: rows"),
("probe_all","(fun m => cat [m; t])","(fun m => cat [t; m])","columns swapped","C47: rows"),
("probe_all","probe_all ks cat ht ts' sts' b' i'","probe_all ks cat ht ts' sts' b' 0%N","matches overwritten","C47: rows"),
("probe_all","(with_mask b all_ones) i with","b i with","block not refilled (BUG candidate)","C47: join"),
("probe","else if N.eqb i 0 then Some (sts', false)\n      else match","else if true then Some (sts', false)\n      else match","last block lost","C47: rows"),
("probe","if N.eqb i 64 then all_ones else low_ones i","low_ones i","1 << 64","C47: a full last block"),
("nl_combine","Some true => m | _ => N.clearbit m i end","Some false => N.clearbit m i | _ => m end","NULL kept","C47: TRUE only"),
("nl_combine","cat (ls ++ [r])","cat (r :: ls)","columns swapped","C47: rows"),
("nl_loop","if N.eqb (bmask o) 0 then next sts\n               else","if N.eqb (bmask o) 0 then Some (sts, false)\n               else","stops at an empty combination","C47: rows"),
("nl_loop","nl_loop fuel' c (upd_nat pos' child 0%nat) sts","nl_loop fuel' c (upd_nat pos' child 1%nat) sts","first tuple skipped after reset","C47: rows"),
("nl_loop","if Nat.eqb q (S (length (nth child bufs [])))","if Nat.eqb q (length (nth child bufs []))","last tuple of a buffer skipped","C47: rows"),
("nl_loop","match k sts o with\n                    | None => None\n                    | Some (sts', _, true) => Some (sts', true)\n                    | Some (sts', _, false) => next sts'","match k sts o with\n                    | None => None\n                    | Some (sts', _, true) => next sts'\n                    | Some (sts', _, false) => next sts'","exception ignored","C48: not observable? (limit keeps discarding)"),
("drop_unless","if keep r then m else N.clearbit m i","if keep r then N.clearbit m i else m","inverted","C46: filter"),
("is_true","Some true => true | _ => false","Some false => false | _ => true","NULL kept","C46: filter TRUE only"),
("limit_end","add64 offset limit","limit","offset ignored","C48"),
("limit_mask","(n <? offset)%N ||","(n <=? offset)%N ||","off by one","C48: offset"),
("limit_mask","(limit_end limit offset <=? n)%N then","(limit_end limit offset <? n)%N then","off by one","C48: limit"),
("step","existsb (fun p => is_true (p r)) ps","forallb (fun p => is_true (p r)) ps","AND","C46: disjunction"),
("step","FBuffer => Some (with_buffer s (buffer s ++ tuples b)","FBuffer => Some (with_buffer s (tuples b)","only the last block buffered","C47: rows"),
("step","(table s ++ map (fun t => (map (fun e => e t) ks, t)) (tuples b))","(map (fun t => (map (fun e => e t) ks, t)) (tuples b))","only the last block in the table","C47: rows"),
("step","u || (limit_end limit offset <=? n)%N","u","never stops","C48: not observable"),
("step","u || (limit_end limit offset <=? n)%N","u || (limit_end limit offset <=? n + 64)%N","stops too early","C48: rows"),
("step","match pass (with_counter s n) (with_mask b m) with","match pass s (with_mask b m) with","counter not stored","C48: rows"),
("step","(aggs_step aggs (n + 1)%N t cs, (n + 1)%N)","(aggs_step aggs n t cs, (n + 1)%N)","AVG divides by too little","C49: AVG"),
("step","FSort => Some (with_buffer s (buffer s ++ tuples b)","FSort => Some (with_buffer s (tuples b ++ buffer s)","order of blocks","C50: not observable (sorted anyway)"),
("push_full","push_full fs n' (skipn 64 rows) sts'","push_full fs n' (skipn 63 rows) sts'","row repeated","C46: scan"),
("push_rows","Nat.div (length rows) 64","Nat.div (length rows) 65","a block left over","C46: scan"),
("push_rows","last || negb (Nat.eqb (length rest) 0)","last","last block of a scan lost","C46: scan"),
("sort_cmp","if asc then c else (- c)%Z","c","DESC ignored","C50: direction"),
("sort_cmp","if Z.eqb c' 0 then sort_cmp order' x y else Some c'","Some c'","only the first column","C50: order"),
("sort_less","Z.ltb c 0","Z.leb c 0","not a strict order","C50: std::sort"),
("sort_defined","[] | [_] => true\n  | _ =>","[] => true\n  | _ =>","a single row compared with itself","C50: one row"),
("exec","| Limit limit offset c =>                                                                                    (* 1491-1499: the exception is caught *)\n      match pop (exec c (FLimit limit offset :: fs) (state0 :: sts)) with\n      | Some (sts', _) => Some (sts', false)","| Limit limit offset c =>\n      match pop (exec c (FLimit limit offset :: fs) (state0 :: sts)) with\n      | Some (sts', u) => Some (sts', u)","exception not caught","C48: everything above is cut off"),
("exec","FProbe (map snd ks) cat ht","FProbe (map fst ks) cat ht","probe with the build keys","C47: rows"),
("exec","children cs' (bufs ++ [l]) sts'","children cs' (l :: bufs) sts'","order of children","C47: columns"),
("exec","| [] => Some (sts', false)\n               | l => children","| [] => children cs' bufs sts'\n               | l => children","an empty child ignored","C47: empty product"),
("exec","(map agg_init aggs) 0 :: sts","(map (fun _ => None) aggs) 0 :: sts","not initialised","C49: COUNT of nothing"),
("exec","push_rows fs true (map (fun g => mk (gkey g) (gaggs g)) (shuffle _ (groups s))) sts'","push_rows fs true (map (fun g => mk (gkey g) (gaggs g)) (tl (shuffle _ (groups s)))) sts'","one group lost","C49: one row per key"),
("exec","then if sort_defined order (buffer s) then push_rows fs true (std_sort (sort_less order) (buffer s)) sts'","then if sort_defined order (buffer s) then push_rows fs true (buffer s) sts'","not sorted","C50"),
("run","Some (s :: _, _) => Some (buffer s)","Some (s :: _, u) => if u then None else Some (buffer s)","uncaught exception","C46: not possible"),
])
