from gen import dump
only=['PlanTableSpec','PlanTableProofs','PlanTableProps','PlanTableEnum','PlanTableEnumProofs','PlanTableEnumProps']
S="C55: both tables give the same results"
U="C55: update keeps the first of the cheapest offers"
Q="C55: equality of tables"
L=[
("dlt","| NegInf, NegInf => false","| NegInf, NegInf => true","-inf < -inf",U),
("dlt","negb (Qle_bool q p)","Qle_bool p q","< becomes <=",U),
("dlt","| Fin _, PosInf => true","| Fin _, PosInf => false","nothing is below infinity",U),
("dlt","| NaN, _ | _, NaN => false","| NaN, _ | _, NaN => true","NaN below everything",U),
("deq","| NegInf, NegInf | PosInf, PosInf => true","| NegInf, NegInf => true","inf != inf",Q),
("deq","Qeq_bool p q","Qle_bool p q","<= instead of ==",Q),
("pe_default","PE 0 0 None PosInf","PE 0 0 None (Fin 0)","initial cost 0","C55: enumerators find optimal plans"),
("pe_default","PE 0 0 None PosInf","PE 0 1 None PosInf","initial right subproblem","C55: has_plan"),
("get_subproblems","(if sbs_empty (p_left e) then [] else [p_left e]) ++","(if sbs_empty (p_left e) then [] else [p_right e]) ++","right named twice","harmless: not part of a claim"),
("pe_eq","deq (p_cost a) (p_cost b) && (p_left a =? p_left b) && (p_right a =? p_right b)","deq (p_cost a) (p_cost b) && (p_left a =? p_left b)","right not compared",Q),
("pe_eq","deq (p_cost a) (p_cost b) && (p_left a =? p_left b)","(p_left a =? p_left b)","cost not compared",Q),
("entry_has_plan","Ok (negb (sbs_empty (p_left e)))","Ok (sbs_empty (p_left e))","has_plan inverted","C55: has_plan"),
("entry_has_plan","if Bool.eqb (sbs_empty (p_left e)) (sbs_empty (p_right e)) then Ok (negb (sbs_empty (p_left e))) else Insist","Ok (negb (sbs_empty (p_left e)))","assertion dropped","C55: update fails iff ..."),
("d_size","shl64 1 (d_sources t) + d_extra t","shl64 1 (d_sources t)","additional entries not counted",S),
("d_new","(repeat pe_default (N.to_nat (shl64 1 num_sources + num_additional_entries)))","(repeat pe_default (N.to_nat (shl64 1 num_sources)))","additional entries not allocated",S),
("list_set","| x :: l', Datatypes.S i' => x :: list_set i' e l'","| x :: l', Datatypes.S i' => e :: list_set i' e l'","assignment overwrites all entries before","C55: writing changes one entry"),
("d_at","if s <? d_size t then","if s <=? d_size t then","bound off by one","harmless: the list has no such entry"),
("d_at","nth_error (d_table t) (N.to_nat s)","nth_error (d_table t) (N.to_nat s - 1)","index off by one",S),
("d_put","list_set (N.to_nat s) e","list_set (N.to_nat s - 1) e","index off by one","C55: writing changes one entry"),
("d_has_plan","if sbs_size s =? 1 then Ok true else do (e, _) <- d_get s t; entry_has_plan e","do (e, _) <- d_get s t; entry_has_plan e","single sources not special","C55: single sources have plans"),
("d_has_plan","if sbs_size s =? 1 then Ok true","if sbs_size s <=? 1 then Ok true","empty set has a plan","C55: has_plan"),
("d_reset_from","if sbs_is_singleton i then e else PE (p_left e) (p_right e) (p_model e) PosInf","PE (p_left e) (p_right e) (p_model e) PosInf","costs of sources reset, too","C55: reset_costs"),
("d_reset_from","PE (p_left e) (p_right e) (p_model e) PosInf","PE (p_left e) (p_right e) None PosInf","models reset, too","C55: reset_costs"),
("d_reset_from","PE (p_left e) (p_right e) (p_model e) PosInf","PE 0 0 (p_model e) PosInf","plans reset, too","C55: reset_costs"),
("d_reset_from","d_reset_from (i + 1) l'","d_reset_from i l'","index not incremented","C55: reset_costs"),
("d_eq_from","if pe_eq e1 e2 then d_eq_from l1' l2' else false","if pe_eq e1 e2 then true else false","only first entries compared",Q),
("d_eq","if negb (d_sources t =? d_sources u) then false else\n    if negb (d_size","if negb (d_size","number of sources not compared",Q),
("d_eq","if negb (d_size t =? d_size u) then false else d_eq_from","d_eq_from","sizes not compared",Q),
("s_new","P num_sources []","P num_additional_entries []","wrong number of sources",S),
("s_find","if s =? k then Some e else","if s <=? k then Some e else","finds a larger key",S),
("s_set","if s =? k then (k, e) :: l'","if s =? k then (k, e') :: l'","assignment lost","C55: writing changes one entry"),
("s_set","| [] => [(s, e)]","| [] => []","assignment lost if missing","harmless: operator[] inserts before"),
("s_at","Some e => Ok e | None => Throw","Some e => Ok e | None => Insist","at fails instead of throwing","C55: at throws"),
("s_get","P (s_sources t) ((s, pe_default) :: s_table t)","P (s_sources t) ((s, pe_default) :: nil)","table cleared on insertion","C55: reading changes no entry"),
("s_get","| None => Ok (pe_default, P (s_sources t) ((s, pe_default) :: s_table t))","| None => Ok (pe_default, t)","lookup does not insert",Q),
("s_put","P (s_sources t) (s_set s e (s_table t))","P (s_sources t) ((s, e) :: s_table t)","assignment inserts a duplicate key",Q),
("s_has_plan","| None => Ok false","| None => Ok true","untouched subproblems have plans",S),
("s_has_plan","if sbs_size s =? 1 then Ok true else\n    match s_find","match s_find","single sources not special","C55: single sources have plans"),
("s_reset_costs","if sbs_is_singleton (fst ke) then snd ke","if sbs_is_singleton (p_left (snd ke)) then snd ke","wrong key","C55: reset_costs"),
("s_reset_costs","PE (p_left (snd ke)) (p_right (snd ke)) (p_model (snd ke)) PosInf","PE (p_right (snd ke)) (p_left (snd ke)) (p_model (snd ke)) PosInf","sides swapped","C55: reset_costs"),
("s_eq_from","| None => false\n        | Some e' => if pe_eq e e' then s_eq_from l1' l2 else false","| None => s_eq_from l1' l2\n        | Some e' => if pe_eq e e' then s_eq_from l1' l2 else false","missing keys ignored",Q),
("s_eq_from","if pe_eq e e' then s_eq_from l1' l2 else false","if pe_eq e e' then true else false","only first entry compared",Q),
("s_eq","if negb (Nat.eqb (length (s_table t)) (length (s_table u))) then false else s_eq_from","s_eq_from","sizes not compared",Q),
("s_eq","if negb (s_sources t =? s_sources u) then false else\n    if negb (Nat","if negb (Nat","sources not compared",Q),
("run_reader","do (e, t') <- a_get A s t; run_reader (k e) t'","do (e, t') <- a_get A s t; run_reader (k e) t","insertions of the cost function lost","harmless: entries are the default ones"),
("b_c","Ok (p_cost e, t')","Ok (p_cost e, t)","insertion lost","harmless"),
("b_get_final","sbs_All (a_num_sources A t)","sbs_All (a_num_sources A t + 1)","wrong final subproblem","C55: get_final"),
("with_model","PE (p_left e) (p_right e) m (p_cost e)","PE (p_right e) (p_left e) m (p_cost e)","sides swapped when the model is set","C55: update changes ..."),
("b_model","| Some _ => Ok t\n        | None =>","| Some _ => Insist\n        | None =>","second offer fails","C55: update fails iff ..."),
("b_model","Some (est l r ml mr)","Some (est l r mr ml)","models swapped","C55: data model of l|r"),
("b_model","| _, _ => Insist ","| _, _ => Ok t ","missing models ignored","C55: update fails iff ..."),
("b_update","if sbs_empty left || sbs_empty right then Insist else","","empty sides allowed","C55: update fails iff ..."),
("b_update","if sbs_empty left || sbs_empty right","if sbs_empty left && sbs_empty right","empty sides allowed","C55: update fails iff ..."),
("b_update","if dlt rl_cost cost then (rl_cost, right, left)","if dlt rl_cost cost then (rl_cost, left, right)","sides not swapped",U),
("b_update","if dlt rl_cost cost then","if dlt cost rl_cost then","the dearer order",U),
("b_update","if dlt rl_cost cost then","if negb (dlt cost rl_cost) then","later offer preferred",U),
("b_update","if negb hp || dlt cost (p_cost entry) then","if dlt cost (p_cost entry) then","no plan if the cost is infinite",U),
("b_update","if negb hp || dlt cost (p_cost entry) then","if negb hp || negb (dlt (p_cost entry) cost) then","later offers of the same cost win",U),
("b_update","if negb hp || dlt cost (p_cost entry) then","if negb hp then","never improved",U),
("b_update","PE lhs rhs (p_model entry) cost","PE lhs rhs None cost","model lost","C55: data model of l|r"),
("b_update","PE lhs rhs (p_model entry) cost","PE lhs rhs (p_model entry) rl_cost","wrong cost",U),
("d_print","(1 <=? fst ke) && (fst ke <? shl64 1 (d_sources t))","(fst ke <? shl64 1 (d_sources t))","empty set printed","harmless: no claim about dense printing"),
("s_print","if n <? fst ke then acc","if n <=? fst ke then acc","fixed printing","refutation of printing"),
]
dump("pt",'PlanTable',only,L)
