from gen import dump
only=['PartialPlanSpec','PartialPlanProofs','PartialPlanProps']
C="C58: every complete partial plan is found exactly once"
L=[
("is_singleton","negb (s =? 0)%N && (N.land s (s - 1) =? 0)%N","(N.land s (s - 1) =? 0)%N","the empty set is a singleton (harmless: subproblems are not empty)","harmless: subproblems of a plan are never empty"),
("is_singleton","N.land s (s - 1)","N.land s (s + 1)","wrong bit trick",C),
("step","cs ++ [rev pp]","cs","callback not invoked",C),
("step","Next (mkState Loop (c :: pp) cands (true :: ds) cs)","Next (mkState Loop (c :: pp) cands ds cs)","decision not recorded",C),
("step","N.lor l r :: cands","r :: cands","rejected plan not reconstructed",C),
("step","N.lor l r :: cands","cands","rejected plan lost",C),
("step","Next (mkState Unwind pp (N.lor l r :: cands) ds cs)","Next (mkState Unwind pp (N.lor l r :: cands) (false :: ds) cs)","decision not popped",C),
("step","Next (mkState Unwind pp (p :: cands) ds cs)","Next (mkState Unwind pp cands ds cs)","leaves do not become candidates again",C),
("step","snd (PT p) :: fst (PT p) :: cands","fst (PT p) :: cands","right child forgotten",C),
("step","snd (PT p) :: fst (PT p) :: cands","fst (PT p) :: snd (PT p) :: cands","children in the other order","harmless: another order of enumeration"),
("step","(false :: ds) cs)\n      end","(true :: ds) cs)\n      end","rejected plan counts as taken",C),
("step","if is_singleton p then","if negb (is_singleton p) then","leaves are split",C),
("for_each_complete_partial_plan","| 1 => Some [[1%N]]","| 1 => Some []","no call for one relation",C),
("for_each_complete_partial_plan","N.lor (fst final) (snd final)","fst final","starts with the left child",C),
("for_each_complete_partial_plan","mkState Loop [root] [] [true] []","mkState Loop [root] [] [] []","decision of the root not recorded",C),
("for_each_complete_partial_plan","N.ones (N.of_nat n)","N.ones (N.of_nat (n - 1))","last relation missing",C),
("write_trees",'(if first then "" else ", ")','""',"no separator","C58_json"),
("write_partial_plan",'(if is_first then "" else ",")','(if is_first then "," else "")',"separator inverted","C58_json"),
("write_all","write_all name false ps","write_all name is_first ps","flag not reset","C58_json"),
("write_partial_plans_JSON",'("[" ++ o ++ nl ++ "]" ++ nl, f)','("[" ++ o ++ nl ++ "]" ++ nl, true)',"flag reset after each output (the repair)","C58_refuted_json_second is about the missing reset"),
("write_tree",'write_tree PT source fuel (fst (PT s)) ++ " " ++','write_tree PT source fuel (snd (PT s)) ++ " " ++',"right child twice","C58_notation"),
("write_tree","N.to_nat (N.log2 s)","N.to_nat s","wrong source","C58_notation"),
]
dump('partial','PartialPlan',only,L)
