from gen import dump
only=['ConditionSpec','ConditionProofs','ConditionProps']
C="C59: an implied order is fulfilled by all rows"
Q="C59: promised orders are fulfilled"
E="C59: equality and implication of condition sets"
L=[
("find","if a =? b then Some (i, o) else find a os (S i)","if a =? b then Some (i, o) else find a os i","distance not counted",C),
("find","if a =? b then","if negb (a =? b) then","finds another attribute",C),
("has","Some _ => true | None => false","Some _ => false | None => true","has inverted",C),
("add","os ++ [(a, o)]","(a, o) :: os","added at the front",Q),
("add","if has a os then None else","if has a os then Some os else","a duplicate is dropped silently","C59: projection fails if two attributes get the same new name"),
("merge","Some (os ++ other)","Some (other ++ os)","merged in the wrong order",Q),
("merge","Some (os ++ other)","Some os","merge drops the other orders","C59: what the join promises"),
("merge","if forallb (fun p => negb (has (fst p) os)) other then","if true then","duplicates merged","C59: merge fails on duplicates"),
("project_from","None => project_from old old2new os\n","None => None\n","a renaming of an unsorted attribute ends the projection","C59: projection"),
("project_from","add new_id o os","add old_id o os","not renamed",Q),
("orders_eqb","(x =? y) && order_eqb o p && orders_eqb a b","(x =? y) && orders_eqb a b","directions not compared",E),
("orders_eqb","(x =? y) && order_eqb o p && orders_eqb a b","order_eqb o p && orders_eqb a b","attributes not compared",E),
("orders_eqb","| _, _ => false end.","| [], _ => true | _, _ => false end.","prefix counts as equal",E),
("order_eqb","| O_UNDEF, O_UNDEF => true","| O_UNDEF, O_UNDEF | O_ASC, O_DESC => true","ascending equals descending",C),
("order_eqb","| O_UNDEF, O_UNDEF => true","=> true","undefined differs from itself",E),
("implied_from","None => false\n","None => true\n","missing attribute accepted",C),
("implied_from","(i =? j) && order_eqb o o'","order_eqb o o'","position ignored",C),
("implied_from","(i =? j) && order_eqb o o'","(i =? j)","direction ignored",C),
("implied_from","is_undef o' || is_undef o","is_undef o'","a request for any order is not fulfilled by a definite order","C59: grouping sorted input"),
("implied_from","is_undef o' || is_undef o","is_undef o","undefined orders of the other must be equal","C59: aggregation"),
("implied_from","&& implied_from (S i) this other","|| implied_from (S i) this other","one attribute suffices",C),
("implied_from","implied_from (S i) this other","implied_from i this other","index not advanced",C),
("opt_implied","None, _ => true","None, None => true | None, Some _ => false","an extra condition of the other is a failure",E),
("opt_implied","Some _, None => false","Some _, None => true","missing condition accepted",E),
("opt_implied","implied a b end","implied b a end","implication swapped",C),
("implied_by","negb (unsatisfiable this) && ","","unsatisfiable is implied by everything","C59: nothing implies an unsatisfiable set"),
("implied_by","opt_implied Nat.eqb (simd this) (simd other) &&\n","\n","lanes ignored",E),
("implied_by","(if no_simd this then no_simd other else true)","true","no SIMD ignored",E),
("implied_by","opt_implied Bool.eqb (predicated this) (predicated other)","true","predication ignored",E),
("conditions_eqb","(count this =? count other) && ","","counts not compared",E),
("conditions_eqb","opt_implied orders_eqb (sortedness this) (sortedness other)","opt_implied sortedness_implied_by (sortedness this) (sortedness other)","equality of orders replaced by implication",E),
("conditions_eqb","(if unsatisfiable this then unsatisfiable other else true)","true","unsatisfiable not compared",E),
("conditions_eqb","opt_implied Nat.eqb (simd this) (simd other)","true","lanes not compared",E),
("count","(if no_simd c then 1 else 0) + ","","no SIMD not counted",E),
("add_new","if has (fst p) os then os else","if negb (has (fst p) os) then os else","only duplicates added",Q),
("add_new","if has (fst p) os then os else os ++ [p]","p :: filter (fun q => negb (fst q =? fst p)) os","the last occurrence wins",Q),
("sorting_orders","then O_ASC else O_DESC","then O_DESC else O_ASC","directions swapped",Q),
("sorting_orders","fold_left add_new (map","(fun l => fold_left add_new l) (map","(eta; harmless)","harmless"),
("grouping_required","(k, O_UNDEF)","(k, O_ASC)","grouping requires ascending input","C59: what grouping requires"),
("grouping_orders","add_new os (alias, o)","add_new os (k, o)","aliases forgotten","C59: grouping promises the order of its output"),
("grouping_orders","add_new os (alias, o)","add_new os (alias, O_ASC)","always ascending","C59: grouping promises the order of its output"),
("merge_join_orders","if sort_left then Some [] else merge [] ol","merge [] ol","order of the left input kept although it is sorted again",Q),
("merge_join_orders","if sort_right then os else","if negb sort_right then os else","right order only if sorted",Q),
("merge_join_orders","(k, O_ASC)) keys_parent","(k, O_ASC)) keys_child","right keys in place of the left ones",Q),
("merge_join_orders","(k, O_ASC)) keys_child","(k, O_DESC)) keys_child","right keys descending",Q),
("merge_join_orders","if sort_left then fold_left add_new (map (fun k => (k, O_ASC)) keys_parent) os else os","os","left keys not promised","C59: what the join promises"),
]
dump('cond','Condition',only,L)
