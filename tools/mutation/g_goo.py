from gen import dump
only=['GooSpec','GooProps']
G="C64: greedy joins"
L=[
("can_merge_with","negb (sbs_empty (sbs_inter (fst a) (snd b)))","true","any two parts merged",G),
("can_merge_with","sbs_inter (fst a) (snd b)","sbs_inter (fst a) (fst b)","subproblems intersected",G),
("can_merge_with","sbs_inter (fst a) (snd b)","sbs_inter (snd a) (snd b)","neighbors intersected",G),
("can_merge_with","negb (sbs_empty","(sbs_empty","negated",G),
("merge","sbs_diff (sbs_union (snd a) (snd b)) S","sbs_union (snd a) (snd b)","own sources among the neighbors",G),
("merge","sbs_diff (sbs_union (snd a) (snd b)) S","sbs_diff (snd a) S","neighbors of the other lost",G),
("merge","sbs_diff (sbs_union (snd a) (snd b)) S","sbs_diff (sbs_inter (snd a) (snd b)) S","common neighbors only",G),
("merge","let S := sbs_union (fst a) (fst b) in","let S := fst a in","sources of the other lost",G),
("merge","sbs_diff (sbs_union (snd a) (snd b)) S","sbs_diff (sbs_union (snd a) (snd b)) (fst a)","only the left sources removed from the neighbors",G),
("pairs","seq (S i) (n - S i)","seq (S i) (n - S i - 1)","last node not looked at",G),
("pairs","seq (S i) (n - S i)","seq i (n - i)","node paired with itself",G),
("pairs","(seq 0 n)","(seq 1 (n - 1))","first node not looked at",G),
("pairs","seq (S i) (n - S i)","seq (S i) 1","only next nodes looked at",G),
("scan","if c <? least","if least <? c","greatest result",G),
("scan","if c <? least then Some (c, (i, j)) else best","Some (c, (i, j))","last pair",G),
("scan","if c <? least then Some (c, (i, j)) else best","best","first pair",G),
("scan","if c <? least then Some (c, (i, j)) else best","if c <? least then Some (least, (i, j)) else best","least cardinality not updated",G),
("scan","card (sbs_union (fst outer) (fst inner))","card (fst outer)","cardinality of the left side",G),
("scan","card (sbs_union (fst outer) (fst inner))","(card (fst outer) + card (fst inner))","sum of the inputs",G),
("scan","if c <? least","if c <=? least","last of the least ones","none: any least one is allowed"),
("set_nth","skipn (S i) l","skipn i l","inserted",G),
("set_nth","firstn i l ++ x","firstn (S i) l ++ x","one behind",G),
("for_each_join","[_] => Some []","[_; _] => Some []","stops with two parts",G),
("for_each_join","set_nth i (merge left right) nodes","set_nth i left nodes","not merged",G),
("for_each_join","set_nth i (merge left right) nodes","set_nth j (merge left right) nodes","merged into the right one",G),
("for_each_join","removelast (set_nth j (last nodes1 (0, 0)) nodes1)","removelast nodes1","last node erased",G),
("for_each_join","removelast (set_nth j (last nodes1 (0, 0)) nodes1)","set_nth j (last nodes1 (0, 0)) nodes1","nothing erased",G),
("for_each_join","removelast (set_nth j (last nodes1 (0, 0)) nodes1)","removelast (set_nth i (last nodes1 (0, 0)) nodes1)","merged node erased",G),
("for_each_join","removelast (set_nth j (last nodes1 (0, 0)) nodes1)","removelast (set_nth j (last nodes (0, 0)) nodes1)","last node of before the merge",G),
("for_each_join","cons (fst left, fst right)","cons (fst left, fst left)","left twice in the callback",G),
("for_each_join","cons (fst left, fst right)","cons (fst right, fst left)","sides swapped","none: either order of the sides is a greedy join"),
("goo","(S, neighbors m S)","(S, m S)","row of the matrix for the neighbors",G),
("goo","(S, neighbors m S)","(S, 0)","no neighbors",G),
("goo","for_each_join (length parts)","for_each_join (length parts - 2)","ends early",G),
("goo_query","2 ^ N.of_nat i","N.of_nat i","positions for sets",G),
("goo_query","(seq 0 n)","(seq 1 n)","first source missed",G),
("goo_query","(seq 0 n)","(seq 0 (n - 1))","last source missed",G),
]
dump("goo","Goo",only,L)
