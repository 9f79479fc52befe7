from gen import dump
only=['PlanTableEnumProofs','PlanTableEnumProps']
O="C55: the enumerators find optimal plans on both tables"
L=[
("insist_plan","if b then k else Abort","if b then Abort else k","assertion inverted",O),
("continue_unless_plan","if b then k else skip","if b then skip else k","condition inverted",O),
("c_sources","foreach (range 0 n)","foreach (range 1 n)","first source not initialized",O),
("c_sources","(cost i)) skip","(cost 0)) skip","cost of the first source for all",O),
("c_sources","Some (model (shl64 1 i))","None","no model of the sources",O),
("c_pe_all","foreach (range 1 (shl64 1 n))","foreach (range 1 (shl64 1 n - 1))","final subproblem missed",O),
("c_pe_all","insist_plan S1 (insist_plan S2 (update S1 S2))","insist_plan S1 (insist_plan S2 (update S1 S1))","update with the same side",O),
("c_pair","if negb (is_connected2 m S1 S2) then skip else update S1 S2","update S1 S2","cross products admitted",O),
("c_pair","if negb (sbs_empty (sbs_inter S1 S2)) then skip else","","overlapping pairs",O),
("c_dpsize_inner","k_subsets next fuel (s - s1) n","k_subsets next fuel s1 n","wrong size",O),
("c_dpsize","range 2 (n + 1)","range 2 n","final size missed",O),
("c_dpsizeopt_inner","k_subsets_after next fuel S1 n","k_subsets next fuel S1 n","wrong enumeration",O),
("c_dpsizeopt","range 1 (s / 2 + 1)","range 1 (s / 2)","half size missed",O),
("c_split","if negb (is_connected2 m O Comp) then Abort","if is_connected2 m O Comp then Abort","assertion inverted",O),
("c_split_all","subset_loop fuel (least_subset S) S S","subset_loop fuel (least_subset S) S (least_subset S)","no subsets",O),
("c_dpsizesub","range 2 (n + 1)","range 2 n","final size missed",O),
("c_dpsub","if sbs_size S =? 1 then skip else","if sbs_size S =? 2 then skip else","pairs skipped",O),
("c_split_half","(least_subset S) S limit","(least_subset S) S (least_subset S)","no subsets",O),
("c_dpsubopt","foreach (range 1 (shl64 1 n))","foreach (range 1 (shl64 1 n - 1))","final subproblem missed",O),
("c_dpccp","update (fst p) (snd p)","update (fst p) (fst p)","same side",O),
("c_plan_gen","if least_subset sub <? least_subset complement then","if least_subset complement <? least_subset sub then","other half (harmless: symmetric)","harmless: the other half of the partitions"),
("c_plan_gen","andthen (c_plan_gen f sub) (andthen (c_plan_gen f complement) (update sub complement))","andthen (c_plan_gen f sub) (update sub complement)","complement not solved",O),
("c_plan_gen","HasPlan S (fun b => if b then skip else","HasPlan S (fun b => if negb b then skip else","memoization inverted",O),
("c_mc_solve","insist_plan (fst p)\n              (andthen","insist_plan (snd p)\n              (andthen","wrong assertion",O),
("c_mc_solve","update (fst p) (snd p)","update (snd p) (snd p)","same side",O),
("c_tdmincut","if 1 <? n then","if 2 <? n then","two sources not joined",O),
]
dump("pte",'PlanTableEnum',only,L)
