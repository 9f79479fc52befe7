from gen import dump
only=['TdGooSpec','TdGooProps']
G="C64: top-down greedy joins"
L=[
("best_cut","card l + card r in","card l in","left side only",G),
("best_cut","card l + card r in","card l * card r in","product",G),
("best_cut","card l + card r in","card (sbs_union l r) in","cardinality of the result",G),
("best_cut","if c <? c_min","if c_min <? c","greatest sum",G),
("best_cut","if c <? c_min then Some (c, (l, r)) else best","Some (c, (l, r))","last cut",G),
("best_cut","if c <? c_min then Some (c, (l, r)) else best","best","first cut",G),
("best_cut","if c <? c_min then Some (c, (l, r)) else best","if c <? c_min then Some (c_min, (l, r)) else best","minimum not updated",G),
("best_cut","if c <? c_min then Some (c, (l, r)) else best","if c <? c_min then Some (c, (l, l)) else best","left twice",G),
("cut_loop","if sbs_is_singleton top then cut_loop f m card fuel' worklist'","if sbs_is_singleton top then Some []","stops at the first singleton",G),
("cut_loop","(r :: l :: worklist')","(l :: worklist')","right side not cut further",G),
("cut_loop","(r :: l :: worklist')","(r :: worklist')","left side not cut further",G),
("cut_loop","(r :: l :: worklist')","(r :: l :: nil)","rest of the worklist lost",G),
("cut_loop","option_map (cons (l, r))","option_map (cons (r, r))","right twice",G),
("cut_loop","mc_partition f m top","mc_partition f m (N.land top (top - 1))","source lost",G),
("cut_loop","(r :: l :: worklist')","(l :: r :: worklist')","order of the stack","C64_topdown: order of the joins"),
("tdgoo","option_map (@rev _) (cut_loop f m card f worklist)","cut_loop f m card f worklist","joins top down",G),
]
dump("tdgoo","TdGoo",only,L)
