from gen import dump
only=['PhysOptSpec','PhysOptProofs','PhysOptProps']
C="C57: the optimizer finds the cheapest coverings"
L=[
("assign_post_order_ids","let (r, n) := go (id x + 1) r","let (r, n) := go (id x) r","ids of siblings overlap",C),
("assign_post_order_ids","mkOp next c d l","mkOp start c d l","an operator has the id of its first descendant",C),
("set_slot","| x :: T, S i => x :: set_slot T i es","| x :: T, S i => es :: set_slot T i es","all slots before are overwritten",C),
("improve","if ltb (ecost new) (ecost e) then mkEntry (condition e) (match_ new) (ecost new) else e","if ltb (ecost e) (ecost new) then mkEntry (condition e) (match_ new) (ecost new) else e","keeps the more expensive entry",C),
("improve","mkEntry (condition e) (match_ new) (ecost new)","mkEntry (condition e) (match_ e) (ecost new)","match not updated",C),
("improve","mkEntry (condition e) (match_ new) (ecost new)","mkEntry (condition e) (match_ new) (ecost e)","cost not updated",C),
("improve","else e :: improve es new","else e :: es","entries with another condition dropped",C),
("handle_match","add c (ecost child)","c","costs of the children not added",C),
("handle_match","if is_empty post_cond then","if negb (is_empty post_cond) then","adapted conditions if there are own ones",C),
("handle_match","if length ch <=? 1 then","if length ch <=? 2 then","joins deliver the condition of the left input",C),
("handle_match","(map match_ ch)","[]","children's matches lost",C),
("new_child_list","implied_by (pre_condition P i nodes) (condition e)","implied_by (condition e) (pre_condition P i nodes)","implication swapped",C),
("new_child_list","pre_condition P i nodes","pre_condition P 0 nodes","pre-condition of the first child for all",C),
("new_children_list","new_children_list P (S i) nodes os","new_children_list P i nodes os","index of the child not advanced",C),
("new_children_list","if length T <=? id o then None","if length T <=? id o + 1 then None","bound of the table off by one (harmless: a child is never the last)","harmless: only the root has the last id"),
("new_children_list","fun l e => l ++ [e]","fun l e => e :: l","children reversed",C),
("matches","if negb (producer (cls o)) then T","if producer (cls o) then T","wildcard matches non-producers",C),
("matches","if negb (is_a (cls o) c) then T\n        else if consumer c then","if is_a (cls o) c then T\n        else if consumer c then","class test inverted",C),
("matches","if implied_by (pre_condition P base nodes) cempty then k nodes ls T else T","k nodes ls T","pre-condition of a scan ignored",C),
("matches","let T := matches P q a nodes ls (fun nodes ls => matches P r b nodes ls k) T in\n                         matches P q b nodes ls (fun nodes ls => matches P r a nodes ls k) T","matches P q a nodes ls (fun nodes ls => matches P r b nodes ls k) T","second permutation missing",C),
("matches","matches P q b nodes ls (fun nodes ls => matches P r a nodes ls k) T","matches P q b nodes ls (fun nodes ls => matches P r b nodes ls k) T","second permutation matches one child twice",C),
("matches","let base := length (hd [] ls) in","let base := 0 in","index of the pre-condition restarts",C),
("matches","k nodes (product (fun l l' => l ++ l') ls new) T","k nodes (product (fun l l' => l' ++ l) ls new) T","inputs in the wrong order",C),
("matches","match children o with [a] => matches P q a nodes ls k T | _ => T end","match children o with a :: _ => matches P q a nodes ls k T | _ => T end","a pattern with one child fits two",C),
("is_a","| DisjunctiveFilter, Filter => true","","a disjunctive filter is no filter (harmless: the specification uses the same table of classes)","harmless: class hierarchy shared with the specification"),
("consumer","match c with Scan => false | _ => true end","match c with Scan | Filter => false | _ => true end","filters need no input","C57_interpreter: one physical operator per logical one"),
("match_operator","[] [[]] (fun","[] [] (fun","no way to start",C),
("visit_all","visit o (fold_left (fun T c => visit_all c T) l T)","fold_left (fun T c => visit_all c T) l (visit o T)","pre-order",C),
("cover","repeat [] (id plan + 1)","repeat [] (id plan)","table too short",C),
("has_plan","match last T [] with [] => false","match hd [] T with [] => false","asks the first slot",C),
("get_plan_entry","if ltb (ecost e) (snd bm)","if ltb (snd bm) (ecost e)","takes the most expensive",C),
("get_plan_entry","(Some e, ecost e)","(Some e, snd bm)","minimum not updated",C),
]
dump('physopt','PhysOpt',only,L)
