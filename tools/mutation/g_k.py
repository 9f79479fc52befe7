from gen import dump
only=['MinimizeSpec','MinimizeSim','MinimizeSchemas','MinimizeRows','MinimizeSem','MinimizeSound','MinimizeProofs','MinimizeProps']
C="C53: minimization does not change the answers"
L=[
("has","| [_] => Some true |","| [_] => Some false |","never found",C),
("has","match positions S id 0 with [] => Some false | [_] => Some true | _ => None end.","match positions S id 0 with [] => Some false | _ => Some true end.","ambiguous names accepted","C53: refuted_duplicates (exception)"),
("union","union (if h then S else S ++ [id]) A'","union (if h then S else id :: S) A'","new names in front","C53: order of columns"),
("union","union (if h then S else S ++ [id]) A'","union (S ++ [id]) A'","duplicates added","C53: minimization succeeds"),
("union","union (if h then S else S ++ [id]) A'","union S A'","nothing added",C),
("inter","Some (if h then id :: I else I)","Some (if h then I else id :: I)","complement",C),
("all_in","if h then all_in A' S else Some false","if h then Some true else Some false","only the first name compared","C53: insist of the minimizer (a failed assertion in the refuted case)"),
("same_names","do x <- all_in A B; if x then all_in B A else Some false","all_in B A","only one inclusion","C53: refuted_computed"),
("add_name","Some false => S ++ [id]","Some false => S","name dropped",C),
("need","| ECol t n _ => add_name acc (t, n)","| ECol t n _ => acc","columns not required",C),
("need","| EAgg n => add_name acc (None, n)","| EAgg n => acc","aggregates not required",C),
("need","| EFn _ e => need e acc","| EFn _ e => acc","arguments of functions not required",C),
("need","| EUn _ e => need e acc","| EUn _ e => acc","operands not required",C),
("need","need r (need l acc)","need l acc","right operand not required",C),
("need","need r (need l acc)","need r acc","left operand not required",C),
("unions","do S' <- union S (required_by e); unions S' es'","do S' <- union S (required_by e); Some S'","only the first expression",C),
("cnf_required","do S' <- union S R; cnf_required f' S'","do S' <- union S R; Some S'","only the first clause",C),
("keep_columns","(if top then Some true else has R id)","has R id","top projection loses columns","C53: columns of the result"),
("keep_columns","(if top then Some true else has R id)","Some true","nothing removed","C53: scans deliver used columns only"),
("keep_columns","Some (if k then (e :: fst r, id :: snd r) else r)","Some (if k then (e :: fst r, id :: snd r) else (fst r, id :: snd r))","schema keeps the names of removed columns",C),
("keep_columns","Some (if k then (e :: fst r, id :: snd r) else r)","Some (if k then r else (e :: fst r, id :: snd r))","the wrong columns stay",C),
("keep_aggs","(if top then Some true else has R (agg_id a))","has R (agg_id a)","top aggregation loses aggregates","C53: columns of the result"),
("keep_aggs","Some (a :: r)","Some r","aggregate removed",C),
("insist_subset","do I <- inter R S; same_names R I","Some true","no assertion","C53: refuted_computed"),
("j_required","do S' <- union S (add_name [fst k] (snd k))","do S' <- union S [fst k]","right key not required",C),
("j_required","do S' <- union S (add_name [fst k] (snd k))","do S' <- union S [snd k]","left key not required",C),
("minimize","if top then Some o else do R' <- inter R Sc; Some (OScan T rows R')","do R' <- inter R Sc; Some (OScan T rows R')","top scan loses columns","C53: columns of the result"),
("minimize","do R' <- inter R Sc; Some (OScan T rows R')","do R' <- inter Sc R; Some (OScan T rows R')","scan keeps the order of the table","C53 (allowed: order only matters for operators above)"),
("minimize","do R' <- inter R Sc; Some (OScan T rows R')","Some o","scan keeps all columns","C53: scans deliver used columns only"),
("minimize","then do c' <- minimize Sc false c; if searchable Sc (sch c') then Some (OFilter d f Sc c') else None","then do c' <- minimize Sc true c; if searchable Sc (sch c') then Some (OFilter d f Sc c') else None","the child is still the top","C53 (allowed: the child keeps everything)"),
("minimize","do R1 <- union R F;\n        do c' <- minimize R1 false c;\n        if searchable R (sch c') then Some (OFilter d f R c') else None","do c' <- minimize R false c;\n        if searchable R (sch c') then Some (OFilter d f R c') else None","columns of the condition not required",C),
("minimize","do R1 <- union R F;\n        do c' <- minimize R1 false c;\n        if searchable R (sch c') then Some (OFilter d f R c') else None","do R1 <- union F R;\n        do c' <- minimize R1 false c;\n        if searchable R (sch c') then Some (OFilter d f R c') else None","own columns first",C),
("minimize","do R1 <- union R F;\n        do c' <- minimize R1 false c;\n        if searchable R (sch c') then Some (OFilter d f R c') else None","do R1 <- union R F;\n        do c' <- minimize R1 false c;\n        if searchable R (sch c') then Some (OFilter d f Sc c') else None","filter keeps its schema",C),
("minimize","do below <- (if top then Some Sc else union R F);","do below <- (if top then Some Sc else Some R);","columns of the join predicate not required",C),
("minimize","do below <- (if top then Some Sc else union R F);","do below <- (if top then Some F else union R F);","top join requires only the predicate",C),
("minimize","let S' := if top then Sc else R in","let S' := Sc in","join keeps its schema",C),
("minimize","let S' := if top then Sc else R in","let S' := R in","top join loses its schema","C53: columns of the result"),
("minimize","do Rc <- inter below (sch c);\n            do c' <- minimize Rc false c;","do c' <- minimize below false c;","children asked for columns of the others","C53: minimization succeeds"),
("minimize","do c' <- minimize Rc false c;","do c' <- minimize Rc top c;","children are still the top",C),
("minimize","do R1 <- unions [] (fst kept);\n      match es with\n      | [] => None\n      | _ :: _ =>\n          do c' <- minimize R1 false c;","do R1 <- unions R (fst kept);\n      match es with\n      | [] => None\n      | _ :: _ =>\n          do c' <- minimize R1 false c;","projection also requires what is above","C53: minimization succeeds"),
("minimize","do R1 <- unions [] (fst kept);\n      match es with\n      | [] => None\n      | _ :: _ =>\n          do c' <- minimize R1 false c;","do R1 <- unions [] es;\n      match es with\n      | [] => None\n      | _ :: _ =>\n          do c' <- minimize R1 false c;","removed projections still require columns","C53: scans deliver used columns only"),
("minimize","Some (OProject (fst kept) (snd kept) c')","Some (OProject es (snd kept) c')","projections not removed",C),
("minimize","Some (OProject (fst kept) (snd kept) c')","Some (OProject (fst kept) Sc c')","schema of the projection not changed",C),
("minimize","| OLimit limit offset Sc c => do c' <- minimize R top c; Some (OLimit limit offset (sch c') c')","| OLimit limit offset Sc c => do c' <- minimize R false c; Some (OLimit limit offset (sch c') c')","limit at the top takes the requirement of nobody","C53: columns of the result"),
("minimize","Some (OLimit limit offset (sch c') c')","Some (OLimit limit offset Sc c')","limit keeps its schema",C),
("minimize","Some (OLimit limit offset (sch c') c')","Some (OLimit offset limit (sch c') c')","limit and offset swapped",C),
("minimize","do R1 <- unions K (flat_map agg_args kept);","do R1 <- unions [] (flat_map agg_args kept);","keys not required",C),
("minimize","do R1 <- unions K (flat_map agg_args kept);","do R1 <- Some K;","arguments of aggregates not required",C),
("minimize","do R1 <- unions K (flat_map agg_args kept);","do R1 <- unions K (flat_map agg_args aggs);","arguments of removed aggregates required","C53: scans deliver used columns only"),
("minimize","let ours := firstn (length ks) Sc ++ map agg_id kept in","let ours := map agg_id kept ++ firstn (length ks) Sc in","aggregates before keys",C),
("minimize","Some (OGroup ks kept ours c')","Some (OGroup ks aggs ours c')","aggregates not removed",C),
("minimize","Some (OAggregate kept (map agg_id kept) c')","Some (OAggregate aggs (map agg_id kept) c')","aggregates not removed",C),
("minimize","do R1 <- unions [] (flat_map agg_args kept);\n          do c' <- minimize R1 false c;","do c' <- minimize R false c;","aggregation requires what is above","C53: minimization succeeds"),
("minimize","do F <- unions [] (map fst order);\n        do ok <- insist_subset R Sc;\n        if negb ok then None else\n        do R1 <- union R F;\n        do c' <- minimize R1 false c;","do ok <- insist_subset R Sc;\n        if negb ok then None else\n        do c' <- minimize R false c;","columns of ORDER BY not required",C),
("minimize","if searchable R (sch c') then Some (OSort order R c') else None","if searchable R (sch c') then Some (OSort order Sc c') else None","sort keeps its schema",C),
("minimize","then do c' <- minimize Sc false c; if searchable Sc (sch c') then Some (OSort order Sc c') else None","then do c' <- minimize R false c; if searchable Sc (sch c') then Some (OSort order Sc c') else None","sort at the top requires nothing",C),
("pipe","| OFilter _ _ _ c | OLimit _ _ _ c | OSort _ _ c => pipe c","| OFilter _ _ X _ | OLimit _ _ X _ | OSort _ X _ => X","tuples assumed to have the schema of the operator",C),
("load_multi","do g <- load_multi Ss' id; Some (fun rs => g (tl rs))","do g <- load_multi Ss' id; Some (fun rs => g rs)","wrong tuple",C),
("load_multi","nth i (hd [] rs) None","nth 0 (hd [] rs) None","wrong column",C),
("set_nth","| _ :: r', 0%nat => v :: r'","| x :: r', 0%nat => x :: r'","not written",C),
("load_attrs","do rest <- load_attrs S I' (Datatypes.S i);","do rest <- load_attrs S I' i;","wrong source column",C),
("load_attrs","set_nth j (nth i r None) out","set_nth i (nth j r None) out","source and target swapped",C),
("comp_agg","do g <- on S e; Some (mk_agg k g)","do g <- on S e; Some CountAll","aggregate function lost",C),
("mk_agg","| KMinI => MinI (fun r => int_of (g r)) | KMaxI => MaxI","| KMinI => MaxI (fun r => int_of (g r)) | KMaxI => MaxI","MIN computes MAX","C53: aggregates (shared with the specification)"),
("side","if h then k else (snd k, fst k)","if h then (snd k, fst k) else k","sides of the equality swapped",C),
("side","do h <- has S (fst k); Some (if h then k else (snd k, fst k))","Some k","sides not exchanged",C),
("clones","n :: ((_ :: _) as ns'), r :: rs' => firstn n r :: clones ns' rs'","n :: ((_ :: _) as ns'), r :: rs' => firstn (n - 1) r :: clones ns' rs'","last column lost",C),
("load_all","load_all ls' rs' (l r out)","load_all ls' rs' out","nothing loaded",C),
("comp_lit","if fst l then not3 (truth (g x)) else truth (g x)","truth (g x)","negation ignored",C),
("comp_clause","fold_right (fun g b => or3 (g x) b) (Some false) gs","fold_right (fun g b => and3 (g x) b) (Some true) gs","conjunction instead of disjunction",C),
("comp_cnf","fold_right (fun g b => and3 (g x) b) (Some true) gs","fold_right (fun g b => or3 (g x) b) (Some false) gs","disjunction instead of conjunction",C),
("lower","do g <- comp_cnf (on (pipe c)) f; Some (Filter g p)","do g <- comp_cnf (on (sch c)) f; Some (Filter g p)","filter compiled with the schema of the child",C),
("lower","do gs <- all_some (map (on (pipe c)) es);\n      Some (Project","do gs <- all_some (map (on (sch c)) es);\n      Some (Project","projection compiled with the schema of the child",C),
("lower","Some (Sort (combine gs (map snd order)) p)","Some (Sort (combine gs (map (fun o => negb (snd o)) order)) p)","direction reversed",C),
("lower","do gs <- all_some (map (fun o => on (pipe c) (fst o)) order);","do gs <- all_some (map (fun o => on (sch c) (fst o)) order);","sort compiled with the schema of the child",C),
("lower","Some (Limit limit offset p)","Some p","limit dropped",C),
("lower","do gs <- all_some (map (fun k => load_col (pipe c1) (snd k)) ks');","do gs <- all_some (map (fun k => load_col (pipe c1) (fst k)) ks');","left keys looked up on the right",C),
("lower","Some (Group gs as' (fun k cs => k ++ cs) p)","Some (Group gs as' (fun k cs => cs ++ k) p)","aggregates before keys",C),
("lower","do gs <- all_some (map (on (sch c)) ks);","do gs <- all_some (map (on (pipe c)) ks);","keys compiled with the schema of the pipeline (a repair)","C53 (allowed)"),
]
dump('mi','Minimize',only,L)
