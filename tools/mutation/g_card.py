from gen import dump
only=['CardEstSpec','CardEstProps']
B="C63: bound"; O="C63: join order"; I="C63: injected cardinalities"; D="C63: identifiers"
L=[
("limit_size","if size <? offset then 0 else size - offset","size","offset ignored",B),
("limit_size","if size <? offset then 0 else size - offset","if size <? offset then limit else size - offset","offset behind the end: limit",B),
("limit_size","N.min (if size <? offset then 0 else size - offset) limit","if size <? offset then 0 else size - offset","limit ignored",B+" (tight)"),
("limit_size","N.min (if size <? offset then 0 else size - offset) limit","(N.min size limit) - offset","limit before offset",B),
("cart","Filter p => cart sizes p","Filter p => N.div (cart sizes p) 10","filters estimated to keep a tenth",B),
("cart","Group p _ => cart sizes p","Group p _ => 1","groupings estimated to give one row",B),
("cart","mul (cart sizes l) (cart sizes r)","N.max (cart sizes l) (cart sizes r)","joins estimated by the larger side",B),
("cart","mul (cart sizes l) (cart sizes r)","(cart sizes l + cart sizes r)","sum instead of product",B),
("cart","mul (cart sizes l) (cart sizes r)","mul (cart sizes l) (cart sizes l)","left side twice",B),
("cart","mul (cart sizes l) (cart sizes r)","(cart sizes l * cart sizes r) mod 2 ^ 32","32-bit product",B),
("cart_all","fold_left (fun acc i => mul acc (size i)) to_join 1","fold_left (fun acc i => mul acc (size i)) to_join 0","starts at 0",O),
("cart_all","fold_left (fun acc i => mul acc (size i)) to_join 1","fold_left (fun acc i => mul acc (size i)) (tl to_join) 1","first source missed",O),
("cart_all","mul acc (size i)","size i","last source only",O),
("le_str","(x <? y)%nat || ((x =? y)%nat && le_str a' b')","(x <=? y)%nat","first characters compared only",D),
("le_str","[], _ => true","[], _ => false","prefixes behind",D),
("insert","if le_str x y then x :: l else y :: insert x l'","x :: l","not sorted",D),
("insert","if le_str x y then x :: l else y :: insert x l'","if le_str x y then x :: l' else y :: insert x l'","names lost",D),
("sort","fold_right insert [] l","l","names not sorted",D),
("join_names","n ++ 36%nat :: join_names l'","n ++ join_names l'","no separators",D),
("join_names","n ++ 36%nat :: join_names l'","n","first name only",D),
("inject","match table (name i) with Some n => n | None => sizes i end","sizes i","entries of sources not used",I),
("inject","match table (name i) with Some n => n | None => sizes i end","match table (name i) with Some n => n | None => 1 end","sources without entries have a row",I),
("inject","match table (identifier name (ps ++ qs)) with Some c => N.min c (mul n m) | None => mul n m end","mul n m","entries of joins not used",I),
("inject","match table (identifier name (ps ++ qs))","match table (identifier name ps)","entry of the left side",I),
("inject","match table (identifier name (ps ++ qs))","match table (identifier name qs ++ identifier name ps)","names of the sides concatenated",I),
("inject","Some c => N.min c (mul n m)","Some c => c","not clamped",I),
("inject","Some c => N.min c (mul n m)","Some c => N.max c (mul n m)","clamped from below",I),
("inject","Some c => N.min c (mul n m)","Some c => N.min c (n + m)","clamped to the sum",I),
("inject","None => mul n m","None => mul n n","left side twice without an entry",I),
("inject","(ps ++ qs, match","(ps, match","right sources forgotten",I),
("inject","Filter p => inject name sizes table p","Filter p => let '(ps, n) := inject name sizes table p in (ps, N.div n 2)","filters estimated","C63: filters under injected cardinalities"),
("inject","(ps, limit_size n l o)","(ps, N.min n l)","offset ignored","C63: limits under injected cardinalities"),
("inject","Group p [] => let '(ps, _) := inject name sizes table p in (ps, 1)","Group p [] => inject name sizes table p","aggregations not one row","C63: aggregations under injected cardinalities"),
("inject","Some c => N.min c n |","Some c => c |","groups not clamped","C63: groupings under injected cardinalities"),
("inject_all","Some c => N.min c (fold","Some c => N.max c (fold","not clamped","C63: joins of all sources under injected cardinalities"),
]
L += [("inject","Group p keys => let","Group p (_ :: _ as keys) => let","same program","none (equivalent)"),("group_identifier","103%nat :: flat_map","flat_map","no g before the keys","C63: identifiers of groupings (the specification uses the same identifier)"),("inject_all","fold_left (fun acc i => mul acc (size i)) to_join 1)","fold_left (fun acc i => mul acc (size i)) (tl to_join) 1)","clamped without the first source","C63: joins of all sources under injected cardinalities")]
dump("card","CardEst",only,L)
