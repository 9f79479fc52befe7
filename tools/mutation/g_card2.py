from gen import dump
only=['CardEstSpec','CardEstProps']
D="C63: identifiers of groupings"
L=[
("group_identifier","fun k => 35%nat :: k","fun k => k","no separators of keys",D),
("group_identifier","fun k => 35%nat :: k","fun k => [35%nat]","keys not in the identifier",D),
("group_identifier","flat_map (fun k => 35%nat :: k) keys","flat_map (fun k => 35%nat :: k) (firstn 1 keys)","first key only",D),
("inject","table (group_identifier keys)","table (group_identifier (tl keys))","first key missed","C63: groupings under injected cardinalities"),
]
dump("card2","CardEst",only,L)
