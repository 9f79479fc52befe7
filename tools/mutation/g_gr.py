from gen import dump
F="C13: minimum spanning forest"
D="C13: directed tree"
L=[
("explore","sbs_inter (neighbors m next_vertex) rem","neighbors m next_vertex","edges to visited vertices pushed (harmless: filtered later)","harmless"),
("explore","mkEdge u v (w u v)","mkEdge u v (w v u)","weight of the reverse edge (harmless: symmetric)","harmless: weights are symmetric"),
("explore","mkEdge u v (w u v)","mkEdge v u (w u v)","source and sink swapped",F),
("explore","sbs_inter (neighbors m next_vertex) rem","rem","edges not in the graph",F),
("search","Some false => search f rem Q'","Some false => Some (Some (E, Q'))","edges to visited vertices taken",F),
("search","| Some true => Some (Some (E, Q'))\n            | Some false => search f rem Q'","| Some false => Some (Some (E, Q'))\n            | Some true => search f rem Q'","condition inverted",F),
("prim","sbs_set rem (sink E) false","sbs_set rem (source E) false","wrong vertex removed",F),
("prim","sbs_Singleton (sink E)","sbs_Singleton (source E)","wrong vertex explored",F),
("prim","(mset (mset MSF (sink E) (source E) true) (source E) (sink E) true)","(mset MSF (source E) (sink E) true)","forest not symmetric",F),
("prim","prim f next' rem' Q' (mset","prim f next' rem' Q (mset","edge not removed from queue (harmless: sink visited)","harmless: filtered later"),
("prim","prim f next' rem' Q' (mset","prim f next' rem' [] (mset","queue cleared",F),
("prim","| Some None => Some (rem, MSF)","| Some None => Some (0, MSF)","other components dropped",F),
("forest","(sbs_diff rem next_vertex) [] MSF","rem [] MSF","start vertex not removed",F),
("forest","[] MSF with","[] (fun _ => 0) with","forest of other components lost",F),
("minimum_spanning_forest","sbs_All n with","sbs_All (n - 1) with","last vertex missed",F),
("minimum_spanning_forest","if n =? 0 then Some (fun _ => 0) else","","no special case for 0 (harmless)","harmless"),
("pop_min","if (weight x <? weight e)%Z then","if (weight e <? weight x)%Z then","maximum","queue of the examples only"),
("assign_rows","sbs_diff (m v) X","m v","edges back",D),
("assign_rows","if k =? v then sbs_diff (m v) X else T k","if k =? v then sbs_diff (m v) X else 0","rows lost",D),
("directed_loop","let X := sbs_union X V in\n      let T","let X := V in\n      let T","visited vertices forgotten",D),
("directed_loop","directed_loop m f (neighbors T V) X T","directed_loop m f (neighbors m V) X T","all neighbours",D),
("tree_directed_away_from","directed_loop m 66 root 0","directed_loop m 66 root root","root visited (harmless: added anyway)","harmless"),
("tree_directed_away_from","if sbs_is_singleton root then","if negb (sbs_empty root) then","root need not be a singleton",D),
]
dump("msf",'Msf',['Forest','MsfProps'],L)
R="C08/C09: reachability and connectedness"; T="C10: transitive closure"; C="C11/C12: connected subgraphs and pairs"
only=['GraphProofs','ClosureProofs','CSGProofs','GraphProps']
L=[
("reach_loop","reach_loop step f R_new (union_over step R R_new)","reach_loop step f R_new (union_over step R 0)","previous vertices lost",R),
("reach_loop","let R := sbs_diff R_new R_old in","let R := sbs_diff R_old R_new in","difference swapped",R),
("reachable","reach_loop m 66 0 src","reach_loop m 66 src src","sources not expanded",R),
("reachable_in","(fun x => sbs_inter (m x) S)","m","leaves the subgraph",R),
("reachable_in","66 0 (sbs_inter src S)","66 0 src","sources outside of S",R),
("neighbors","sbs_diff (union_over m S 0) S","union_over m S 0","S itself included","C08: neighbors"),
("neighbors","sbs_diff (union_over m S 0) S","sbs_diff (union_over m S S) S","(harmless: S removed anyway)","harmless"),
("is_connected","Some (R =? S)","Some (sbs_is_subset R S)","always connected",R),
("is_connected","it_as_set S","S","starts everywhere",R),
("is_connected2","sbs_inter left (union_over m right 0)","sbs_inter right (union_over m right 0)","connected with itself",R),
("is_connected2","union_over m right 0","union_over m right left","always connected",R),
("mset","if k =? i then","if k =? j then","wrong row",T),
("closure_loop","if changed then closure_loop body f m' else Some m'","Some m'","one round only",T),
("closure_loop","else Some m'","else Some m","(harmless: unchanged)","harmless"),
("tcd_cell","if N.testbit (c i) j then st","if N.testbit (c j) i then st","wrong cell",T),
("tcd_cell","(mset c i j true, true)","(mset c j i true, true)","transposed",T),
("tcd_cell","(mset c i j true, true)","(mset c i j true, changed)","change not reported",T),
("tcd_cell","sbs_Singleton j","sbs_Singleton i","wrong column",T),
("tcd_body","(range 0 n) st) (range 0 n)","(range i n) st) (range 0 n)","upper triangle only",T),
("tcu_cell","(mset (mset c j i dot) i j dot,","(mset c i j dot,","not symmetric",T),
("tcu_cell","changed || xorb before dot","xorb before dot","only last change",T),
("tcu_body","(range i n) st)","(range (i + 1) n) st)","diagonal not computed",T),
("csg_while","sbs_diff (sbs_inter (neighbors m V) super) X_old","sbs_inter (neighbors m V) super","duplicates",C),
("csg_while","sbs_inter (neighbors m V) super","neighbors m V","leaves super",C),
("csg_while","let X_new := sbs_union X_old Nb in","let X_new := X_old in","duplicates",C),
("csg_while","Q' ++ map (fun n => (sbs_union V n, X_new)) ns","map (fun n => (sbs_union V n, X_new)) ns ++ Q'","depth first",C),
("csg_while","Some (V :: out)","Some out","nothing reported",C),
("csg_sources","sbs_inter source (sbs_not lo)","source","too many forbidden",C),
("csg_sources","sbs_inter source (sbs_not lo)","0","nothing forbidden: duplicates",C),
("csg_sources","sbs_inter source (sbs_not lo)","sbs_inter source lo","wrong half forbidden",C),
("for_each_CSG","let source := sbs_inter source super in","","sources outside of super",C),
("csg_partners","sbs_inter (neighbors m first) super","super","all partners",C),
("csg_partners","sbs_hi first with","Some (it_as_set first) with","wrong mask",C),
("csg_partners","sbs_inter (sbs_diff super first) lo","sbs_diff super first","pairs twice",C),
("csg_partners","(first, second)","(second, first)","pair swapped",C),
]
dump("gr",'Graph',only,L)
