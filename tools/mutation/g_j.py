from gen import dump
D=['OptimizerSpec','OptimizerProofs','OptimizerProps','OptimizerClaims']
dump("op","Optimizer",D,[
("classify","then classify cs' n (fun i => filters i ++ [c]) joins","then classify cs' n filters joins","clause without sources dropped","C51: WHERE FALSE"),
("classify","then classify cs' n (fun i => filters i ++ [c]) joins","then classify cs' n (fun i => if N.eqb i 0 then filters i ++ [c] else filters i) joins","clause without sources only at the first source","C51 (still right)"),
("classify","N.eqb i (ctz s) then filters i ++ [c] else filters i","N.eqb i (ctz s) then [c] else filters i","earlier filters of a source are lost","C51: all clauses"),
("classify","if N.eqb i (ctz s) then","if N.eqb i 0 then","filter at the wrong source","C51: all clauses"),
("classify","filters (joins ++ [c])","filters [c]","only the last join condition kept","C51: all clauses"),
("classify","else if sbs_size s =? 1","else if sbs_size s <=? 2","join condition becomes a filter","C51: joins"),
("adjacency","mset (mset m j i true) i j true","mset m i j true","graph not symmetric","C51: plan found"),
("adjacency","| _ => None\n      end\n  end.\n\n(** ** [Optimizer::optimize_filter]","| _ => adjacency joins' m\n      end\n  end.\n\n(** ** [Optimizer::optimize_filter]","larger clauses ignored in the graph","C51_refuted_ternary"),
("clause_sources","N.lor (lit_sources l) s","N.land (lit_sources l) s","intersection","C51: sources of a clause"),
("lit_sources","N.lor (2 ^ i) (2 ^ j)","2 ^ i","one side only","C51: sources of a clause"),
("dissect","match current with [] => done | _ => done ++ [current] end","done","last group of filters dropped","C51: all clauses"),
("dissect","dissect cs' w [c] (done ++ [current])","dissect cs' w [c] done","full group dropped","C51: all clauses"),
("dissect","dissect cs' w [c] (done ++ [current])","dissect cs' w [] (done ++ [current])","clause that overflows dropped","C51: all clauses"),
("dissect","(2 ^ 32)) (current ++ [c]) done","(2 ^ 32)) [c] done","group overwritten","C51: all clauses"),
("dissect","      | [] => None\n      | _ =>\n          let w","      | [] => dissect cs' current_weight current done\n      | _ =>\n          let w","empty clause (FALSE) skipped","C51: empty clause"),
("dissect","(MAX_WEIGHT <? ","(MAX_WEIGHT <=? ","other boundary of weight","none (result the same)"),
("optimize_filter","| [] => None\n  | _ => dissect (std_sort (fun a b => weight_of a <? weight_of b) cs)","| [] => None\n  | _ => dissect (std_sort (fun a b => weight_of a <=? weight_of b) cs)","comparator not strict","C51: std::sort contract"),
("add_filter","[ (_ :: _ :: _) as c ] => Disjunctive","(_ :: _ :: _) as c :: _ => Disjunctive","disjunctive filter for groups","C51: all clauses"),
("add_filter","Filter (fun r => cnf_eval f (get r)) p","p","filter dropped","C51: all clauses"),
("add_filter","Disjunctive (map (fun l r => lit_eval l (get r)) c) p","Disjunctive (map (fun l r => lit_eval l (get r)) (tl c)) p","first predicate dropped","C51: disjunction"),
("source_plan","Some (fold_left add_filter fs p)","Some (add_filter p (hd [] fs))","only the first group applied","C51: all clauses"),
("is_equi","| _ => forallb clause_is_equi cs","| _ => existsb clause_is_equi cs","one equality suffices","C51: executable"),
("clause_is_equi","[l] => lit_is_equi l | _ => false","l :: _ => lit_is_equi l | _ => false","disjunction taken for equality","C51: executable"),
("equi_keys","LEqui false true i f j g","LEqui _ true i f j g","negated inequality accepted","C51_refuted_negated_inequality"),
("equi_keys","Some ((column j g, column i f) :: ks)","Some ((column i f, column j g) :: ks)","sides not swapped","C51: join"),
("equi_keys","then Some ((column i f, column j g) :: ks) else None","then Some ks else None","equality dropped","C51: join"),
("equi_keys","LEqui false true i f j g","LEqui false _ i f j g","different types accepted","C51_refuted_different_types"),
("make_join","| [] => Some (Join JTrue","| [] => Some (Join (JPred (fun _ => None))","no condition is not true","C51: cross product"),
("make_join","(JPred (fun rs => cnf_eval cond (get (concat rs))))","(JPred (fun rs => cnf_eval (firstn 1 cond) (get (concat rs))))","only the first clause","C51: all clauses"),
("make_join","[p; q]) | None => None end","[q; p]) | None => None end","children swapped","C51: hash join"),
("construct","sbs_is_subset (clause_sources c) s in","sbs_is_subset s (clause_sources c) in","subset the wrong way","C51: all clauses"),
("construct","construct fuel' r joins1","construct fuel' r joins","joins of the left child reused","C51 (same result, conditions evaluated twice?)"),
("construct","make_join l r (filter inside joins2)","make_join r l (filter inside joins2)","sides swapped for keys","C51: hash join"),
("construct","make_join l r (filter inside joins2)","make_join l r joins2","all joins applied at once","C51: conditions with all columns"),
("construct","Some (j, filter (fun c => negb (inside c)) joins2)","Some (j, joins2)","joins not removed","C51 (conditions evaluated twice)"),
("construct","Some (j, filter (fun c => negb (inside c)) joins2)","Some (j, [])","remaining joins dropped","C51: all clauses"),
("construct","match construct fuel' l joins with","match construct fuel' l (tl joins) with","one join forgotten","C51: all clauses"),
("optimize_joins","construct PT source_plans fuel (N.ones n) joins","construct PT source_plans fuel (N.ones (n - 1)) joins","last source forgotten","C51: all sources"),
("optimize_joins","Some p => source_plan weight std_sort p (filters i)","Some p => Some p","filters not applied","C51: all clauses"),
("optimize_joins","source_plan weight std_sort p (filters i)","source_plan weight std_sort p (filters 0)","filters of the first source","C51: all clauses"),
("lit_eval","Some x, Some y => eq3 (f x) (g y)","Some x, Some y => eq3 (f x) (f x)","wrong column","C51: equality"),
("and3","Some false, _ | _, Some false => Some false\n  | Some true, Some true => Some true\n  | _, _ => None","Some false, _ | _, Some false => Some false\n  | _, _ => Some true","NULL taken for TRUE","C51: clauses TRUE"),
("or_3","Some true, _ | _, Some true => Some true","Some true, Some true => Some true","OR needs both","C51: disjunction"),
("eq3","Some (DInt x), Some (DInt y) => Some (Z.eqb x y)","Some (DInt x), Some (DInt y) => Some (Z.leb x y)","wrong comparison","C51: equality"),
])
F=['FinishSpec','FinishProps']
dump("fi","Finish",F,[
("find_id","[i] => Some i | _ => None","i :: _ => Some i | _ => None","first of several columns taken","C52_refuted_duplicates (no exception)"),
("positions","ident_eqb x id then [i]","N.eqb (snd x) (snd id) then [i]","table ignored","C52: columns of different tables"),
("ident_eqb","Some p, Some q => N.eqb p q && N.eqb (snd a) (snd b)","Some p, Some q => N.eqb (snd a) (snd b)","prefix ignored","C52: columns of different tables"),
("out_name","Some alias => (None, alias)","Some alias => (Some 0%N, alias)","alias with prefix","C52: names"),
("out_name","ECol t n _ => (t, n) | EConst","ECol t n _ => (None, n) | EConst","prefix lost","C52: names"),
("out_name","match snd p with\n  | Some alias => (None, alias)\n  | None =>","match None : option N with\n  | Some alias => (None, alias)\n  | None =>","alias ignored","C52: names"),
("load_col","Some (fun r => nth i r None)","Some (fun r => nth (S i) r None)","off by one","C52: values",),
("compile","bin_sem o (g x) (h x)","bin_sem o (h x) (g x)","operands swapped","C52: values"),
("compile","un_sem o (g r)","(g r)","operator dropped","C52: values"),
("compile","EFn f e => match compile S e with Some g => Some (fun r => fn_sem f (g r))","EFn f e => match compile S e with Some g => Some (fun r => fn_sem 0%N (g r))","wrong function","C52: values"),
("emit","[] => compile S e\n  | [i]","[] => None\n  | [i]","nothing compiled","C52: values"),
("emit","| [i] => Some (fun r => nth i r None)\n  | _ => None","| _ => compile S e","never taken for computed","C52: SELECT a + b ORDER BY a"),
("emit","[i] => Some (fun r => nth i r None)","[i] => Some (fun r => nth 0 r None)","wrong column","C52: SELECT a + b ORDER BY a"),
("expr_id","EAgg n => (None, n)","EAgg n => (None, text e)","aggregate not found","C52: aggregates"),
("expr_id","| _ => (None, text e)","| _ => (None, 0%N)","wrong name","C52: SELECT a + b ORDER BY a"),
("project","emit S (fst q)","compile S (fst q)","computed columns compiled again in projections","C52: SELECT a + b ORDER BY a"),
("finish","emit S1 (fst o)","compile S1 (fst o)","computed columns compiled again when sorting","C52: ORDER BY ISNULL(a)"),
("project","map out_name ps)","S)","schema not changed","C52: names"),
("project","(fun r => map (fun g => g r) gs)","(fun r => map (fun g => g r) (rev gs))","columns reversed","C52: values"),
("required","ECol _ _ (Some _) => []","ECol _ _ (Some _) => [e]","references also required","C52: names unique"),
("required","  | ECol _ _ None => if existsb (fun q => match snd q with None => expr_eqb e (fst q) | Some _ => false end) P then [] else [e]","  | ECol _ _ None => [e]","required although selected","C52: names unique"),
("required","  | ECol _ _ None => if existsb (fun q => match snd q with None => expr_eqb e (fst q) | Some _ => false end) P then [] else [e]","  | ECol _ _ None => if existsb (fun q => expr_eqb e (fst q)) P then [] else [e]","column with alias taken for delivered","C52: ORDER BY hidden column"),
("required","EUn _ e => required P e","EUn _ e => []","not below operators","C52: ORDER BY -b"),
("required","required P l ++ required P r","required P l","only left operand","C52: ORDER BY a + b"),
("required","EConst _ => []","EConst _ => [e]","constants required","C52"),
("adapt","Some alias => (ECol None alias None, None)","Some alias => (fst q, Some alias)","expression evaluated again","C52: post projection"),
("adapt","None => (fst q, None)","None => (ECol None 0%N None, None)","wrong column","C52: post projection"),
("finish","let post := negb (match additional with [] => true | _ => false end) in","let post := false in","hidden columns stay","C52: columns of the result"),
("finish","let merged := map (fun e => (e, None)) additional ++ P in","let merged := P in","hidden columns not computed","C52: ORDER BY hidden column"),
("finish","let merged := map (fun e => (e, None)) additional ++ P in","let merged := P ++ map (fun e => (e, None)) additional in","hidden columns behind","none (order of hidden columns)"),
("finish","Some (Sort (combine gs (map snd order)) p1)","Some (Sort (combine gs (map (fun _ => true) order)) p1)","DESC ignored","C52: order"),
("finish","Some (Sort (combine gs (map snd order)) p1)","Some (Sort (combine (firstn 1 gs) (map snd order)) p1)","only the first key","C52: order"),
("finish","Some (Sort (combine gs (map snd order)) p1)","Some (Sort (rev (combine gs (map snd order))) p1)","keys reversed","C52: order"),
("finish","Some (Sort (combine gs (map snd order)) p1)","Some p1","not sorted","C52: order"),
("finish","if limited then Limit limit offset p2 else p2","if limited then Limit offset limit p2 else p2","limit and offset swapped","C52: LIMIT"),
("finish","negb (N.eqb limit 0) || negb (N.eqb offset 0) in","negb (N.eqb limit 0) && negb (N.eqb offset 0) in","LIMIT without OFFSET ignored","C52: LIMIT"),
("finish","let p3 := if limited then Limit limit offset p2 else p2 in","let p3 := p2 in","LIMIT ignored","C52: LIMIT"),
("finish","project (map adapt P) S1 p3 else","project P S1 p3 else","projection not adapted","C52: post projection"),
("finish","project (map adapt P) S1 p3 else","project (map adapt merged) S1 p3 else","hidden columns stay","C52: columns of the result"),
("finish","if post || (negb is_projection && q_nested q)","if post","no renaming of nested queries","none modelled (renaming of nested results)"),
("limit_of","None => (0%N, 0%N)","None => (1%N, 0%N)","no LIMIT is LIMIT 1","C52: LIMIT"),
("expr_eqb","EAgg n, EAgg n' => N.eqb n n'","EAgg n, EAgg n' => true","all aggregates equal","C52: ORDER BY aggregate"),
("expr_eqb","EBin o l r, EBin o' l' r' => N.eqb o o' && expr_eqb l l' && expr_eqb r r'","EBin o l r, EBin o' l' r' => N.eqb o o' && expr_eqb l l'","right operand not compared","none (only columns, aggregates and functions are compared)"),
("finish_no_source","map (fun g => g []) gs","[]","empty row","C52: SELECT without FROM"),
])
