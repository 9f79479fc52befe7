from gen import dump
dump('qs','QSort.v',['QSortProps.v'],[
("verify_partition","(seq b (m - b)) lowest in","(seq b (m - b - 1)) lowest in","last element of the lower part ignored","C14: verify_partition decides the partition"),
("verify_partition","(seq m (e - m)) highest in","(seq (m + 1) (e - m - 1)) highest in","first element of the upper part ignored","C14: verify_partition decides the partition"),
("verify_partition","if negb (lt lowest highest) then None else","","assertion on the limits dropped","(harmless: assertion on the type only)"),
("verify_partition","Some (le max_lo min_hi)","Some (lt max_lo min_hi)","strict comparison","C14: equal values around the split point are a valid partition"),
("part_loop","(if le right pivot then b + 1 else b)","(if lt right pivot then b + 1 else b)","strict comparison: does not advance on equal","C14: partition terminates"),
("part_loop","(if le pivot left then e - 1 else e)","(if le right pivot then e else e - 1)","decides the right end by the wrong element","C14: partition splits"),
("part_loop","let l' := set (set l b right) (e - 1) left in","let l' := set l b right in","one write of the swap dropped","C14: partition permutes"),
("median3","if left_le_right then if mid_le_right then swap l b pm else swap l b (e - 1) else l","if left_le_right then if mid_le_right then swap l b pm else set l b (get l (e-1)) else l","swap writes only one side","C14: sort permutes"),
("median3","let pm := b + (e - b) / 2 in","let pm := b + (e - b) in","middle one past the end","C14: range untouched outside"),
("qsort","if 2 <=? e - mid then","if 3 <=? e - mid then","right parts of two elements not sorted","C14: sorted"),
("qsort","if 2 <=? e - mid then","if 1 <=? e - mid then","recursion also on one element","(harmless)"),
("qsort","qsort f l4 b (mid - 1)","qsort f l4 b mid","left recursion includes the pivot","(harmless unless it does not terminate)"),
("qsort","qsort f l4 b (mid - 1)","qsort f l4 (b + 1) (mid - 1)","left recursion skips the first element","C14: sorted"),
("qsort","let l3 := swap l2 b (mid - 1) in","let l3 := l2 in","pivot not moved to its place","C14: sorted"),
("qsort","else if e - b =? 2 then (if lt (get l (e - 1)) (get l b) then","else if e - b =? 2 then (if lt (get l b) (get l (e - 1)) then","comparison reversed for two elements","C14: sorted"),
])
dump('cnf','Cnf.v',['CnfProps.v'],[
("pred_not","p_neg := negb (p_neg p)","p_neg := true","negation always sets the sign","C15: negation"),
("pred_eqb","Bool.eqb (p_neg p) (p_neg q) &&","","sign ignored in equality","C15: equality as sets"),
("clause_eqb","clause_le c2 c1 && clause_le c1 c2","clause_le c1 c2","inclusion instead of equality","C15: equality"),
("clause_eqb","clause_le c2 c1 && clause_le c1 c2","clause_le c2 c1 && clause_le c1 c2 && (length c1 =? length c2)","also requires equal length","C15: equality as sets"),
("cnf_eqb","cnf_le f2 f1 && cnf_le f1 f2","cnf_le f2 f1","inclusion instead of equality","C15: equality"),
("clause_and","[l; r]","[l ++ r]","conjunction of clauses concatenates them","C15: conjunction"),
("cnf_or","flat_map (fun cl => map (fun cr => clause_or cl cr) r) l","l ++ r","disjunction implemented as conjunction","C15: disjunction"),
("cnf_or","| [], _ => r\n","| [], _ => []\n","empty left operand absorbs","C15: disjunction domain"),
("clause_not","map (fun p => [pred_not p]) c","[map pred_not c]","De Morgan missed","C15: negation"),
("cnf_not","fold_left (fun res c => cnf_or res (clause_not c)) f []","fold_left (fun res c => cnf_and res (clause_not c)) f []","negation conjoins","C15: negation"),
("gen","| ENot e => gen (negb neg) e","| ENot e => gen true e","double negation not cancelled","C15: conversion"),
("gen","| EAnd l r => binary l r (fun fl fr => Some (if neg then cnf_or fl fr else cnf_and fl fr))","| EAnd l r => binary l r (fun fl fr => Some (cnf_and fl fr))","AND under negation","C15: conversion"),
("gen","| EEq l r => binary l r (fun fl fr => Some (if neg then cnf_not (equiv fl fr) else equiv fl fr))","| EEq l r => binary l r (fun fl fr => Some (equiv fl fr))","negated equality not negated","C15: conversion"),
("gen","| ENe l r => binary l r (fun fl fr => Some (if neg then equiv fl fr else cnf_not (equiv fl fr)))","| ENe l r => binary l r (fun fl fr => Some (if neg then cnf_not (equiv fl fr) else equiv fl fr))","<> treated as =","C15: conversion"),
("gen","let equiv fl fr := cnf_and (cnf_or (cnf_not fl) fr) (cnf_or (cnf_not fr) fl) in","let equiv fl fr := cnf_or (cnf_not fl) fr in","equivalence is only an implication","C15: conversion"),
("gen","| EOther l r => binary l r (fun _ _ => None)","| EOther l r => binary l r (fun fl fr => Some (cnf_or fl fr))","other operators silently converted","C15: conversion only of operators with three-valued meaning"),
])
dump('ix','Index.v',['IndexFloat.v','IndexProps.v'],[
("bisect","bisect P f (middle + 1) (len - half - 1)","bisect P f (middle + 1) (len - half)","right half one too long","C16: bounds"),
("bisect","let half := len / 2 in","let half := (len + 1) / 2 in","half rounds up","C16: bounds (reads beyond the end)"),
("exp_right","else std_bound P prev (Z.min (curr + 1) last)","else std_bound P prev (Z.min curr last)","upper end of the final binary search one too small","C17 (harmless? curr itself fails the test)"),
("exp_right","else std_bound P prev (Z.min (curr + 1) last)","else std_bound P prev (curr + 1)","final search not limited to the array","C17: bounds"),
("exp_left","else std_bound P (Z.max 0 curr) prev","else std_bound P (Z.max 0 (curr + 1)) prev","lower end one too large (curr passes the test)","(harmless unless curr is 0 and not tested)"),
("exp_left","if (0 <? curr) && negb (P curr)","if (0 <? curr) && P curr","test reversed","C17: bounds"),
("exp_left","(curr - 2 * bound)","(curr + 2 * bound)","moves the wrong way","C17: bounds"),
("add","if cap <? num_entries ix + 1 then Throw","if cap <? num_entries ix then Throw","capacity off by one","C16: additions beyond the capacity are rejected"),
("add","(entries ix ++ [(k, v)]) false","(entries ix ++ [(k, v)]) (finalized ix)","add keeps the index finalized","C16: look-ups after a later add are rejected"),
("lower_bound","std_bound (fun i => lt (key_at (entries ix) i) k) 0","std_bound (fun i => negb (lt k (key_at (entries ix) i))) 0","lower_bound computes the upper bound","C16: bounds"),
("upper_bound","std_bound (fun i => negb (lt k (key_at (entries ix) i))) 0 (num_entries ix)","std_bound (fun i => negb (lt k (key_at (entries ix) i))) 0 (num_entries ix - 1)","last entry not searched","C16: bounds"),
("bulk_add","| None :: col' => bulk_add cap (id + 1) col' ix","| None :: col' => bulk_add cap id col' ix","NULLs not counted in tuple ids","C16: bulkload"),
("bulkload","Ok ix' => Ok (finalize sort ix')","Ok ix' => Ok ix'","bulkload does not finalize","C16: bulkload"),
("finalize","mkIndex (sort (entries ix)) true","mkIndex (entries ix) true","finalize does not sort","C16: sorted"),
("predict","f_to_size (f_clamp (eval m1 key) f_zero (f_ofZ n))","f_to_size (f_clamp (eval m1 key) f_zero (f_ofZ (n + 1)))","prediction clamped one later","C17: prediction at most one past the end"),
("rmi_upper_bound","upper_bound_exponential_search Z.ltb junk (entries (base r)) p key","lower_bound_exponential_search Z.ltb junk (entries (base r)) p key","upper bound searches the lower bound","C17: bounds"),
("rmi_finalize","let b := finalize sort (base r) in","let b := base r in","finalize of the learned index does not sort","C17: entries sorted and look-ups allowed"),
])
