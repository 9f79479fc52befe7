from gen import dump
only=['GridSearchSpec','GridSearchProofs','GridSearchFloat','GridSearchProps']
S="C60: the search visits every grid point exactly once"
A="C60: points of linear spaces"
F="C60: points of floating-point spaces"
L=[
("advance","| S idx' => advance steps (set_nth idx 0 counters) idx'","| S idx' => advance steps counters idx'","counter not reset",S),
("advance","| O => None","| O => Some counters","no end",S),
("advance","Some (set_nth idx (S (nth idx counters 0)) counters)","Some (set_nth idx (S (S (nth idx counters 0))) counters)","step of two",S),
("advance","Nat.eqb (nth idx counters 0) (nth idx steps 0)","Nat.eqb (S (nth idx counters 0)) (nth idx steps 0)","stops one early",S),
("advance","Nat.eqb (nth idx counters 0) (nth idx steps 0)","Nat.eqb (nth idx counters 0) (nth 0 steps 0)","bound of the first space for all",S),
("advance","advance steps (set_nth idx 0 counters) idx'","advance steps (set_nth idx 1 counters) idx'","reset to one",S),
("set_nth","| _ :: r, O => v :: r","| _ :: r, O => v :: map (fun _ => 0) r","clobbers the rest (harmless: the rest is zero anyway)","harmless: the counters after idx have been reset"),
("make_args","at_ s c :: make_args spaces' counters'","make_args spaces' counters' ++ [at_ s c]","arguments reversed",S),
("make_args","at_ s c :: make_args spaces' counters'","at_ s (S c) :: make_args spaces' counters'","position off by one",S),
("search_loop","| None => Some [call]","| None => Some []","last point missing",S),
("search_loop","Some calls => Some (call :: calls)","Some calls => Some calls","only the last point",S),
("search_loop","length spaces - 1","length spaces - 2","last space not varied",S),
("search_loop","length spaces - 1","0","only the first space varied",S),
("search","(map (fun _ => 0) spaces)","(map (fun _ => 1) spaces)","starts at one",S),
("search","(map (fun _ => 0) spaces)","(map num_steps spaces)","starts at the end",S),
("num_points","(s + 1) mod 2 ^ 32","s mod 2 ^ 32","steps instead of points","C60: num_points"),
("num_points","* acc) mod 2 ^ 32","+ acc) mod 2 ^ 32","sum instead of product","C60: num_points"),
("num_points","* acc) mod 2 ^ 32","* acc)","product in 64 bits (a repair)","C60_refuted_num_points"),
("sequence_loop","(i <=? num_steps)%N","(i <? num_steps)%N","last value missing","C60: sequence"),
("sequence_loop","Some l => Some (at_ i :: l)","Some l => Some (at_ num_steps :: l)","always the last value","C60: sequence"),
("sequence","at_ num_steps 0%N","at_ num_steps 1%N","starts at one","C60: sequence"),
("convert","sgn t && ","","unsigned types become negative",A),
("convert","(2 ^ (bits t - 1) <=? u)","(2 ^ (bits t - 1) <? u)","the least value is wrong",A),
("make_linear","if (highest <? lowest)%Z","if (highest <=? lowest)%Z","ranges of one value rejected","C60: the constructor"),
("make_linear","else if (num_steps =? 0)%Z then None","else if (num_steps =? 1)%Z then None","one step rejected","C60: the constructor"),
("make_linear","/ IZR num_steps","/ (IZR num_steps + 1)","too small a step",A),
("make_linear","RZ (IZR highest) - RZ (IZR lowest)","RZ (IZR highest) + RZ (IZR lowest)","sum of the bounds",A),
("make_linear","RZ (RZ (RZ (IZR highest) - RZ (IZR lowest)) / IZR num_steps)","IZR (Zfloor (RZ (RZ (IZR highest) - RZ (IZR lowest)) / IZR num_steps))","integral step",A),
("delta_at","std_round (RN (IZR n * step S))","Zfloor (RN (IZR n * step S))","truncation instead of rounding",A),
("delta_at","std_round (RN (IZR n * step S))","Zceil (RN (IZR n * step S))","rounded up: still an end and near (harmless for the claim unless beyond the bound)","C60: near; equivalent claims still hold"),
("at_int","if (steps S <? n)%Z","if (steps S <=? n)%Z","last position rejected",A),
("at_int","Some (convert t (lo S + delta)) else","Some (convert t (hi S - delta)) else","ascending spaces descend",A),
("at_int","Some (convert t (hi S - delta))","Some (convert t (hi S + delta))","descending spaces ascend beyond the bound",A),
("at_int","let delta := to_unsigned t (delta_at S n) in","let delta := convert t (delta_at S n) in","signed delta (harmless: two's complement)","harmless: addition modulo 2^bits"),
("make_linear_fp","RZ (highest - lowest)","RZ (lowest - highest)","negative step",F),
("clamp","if Rlt_bool v l then l else","","lower bound not checked",F),
("clamp","if Rlt_bool h v then h else v","v","upper bound not checked",F),
("at_fp","(clamp (RN (flo S + RN (IZR n * fstep S)))","(clamp (RN (flo S - RN (IZR n * fstep S)))","minus",F),
("at_fp","(clamp (RN (fhi S - RN (IZR n * fstep S)))","(clamp (RN (flo S - RN (IZR n * fstep S)))","descends from the lower bound",F),
]
dump('grid','GridSearch',only,L)
