from gen import dump
dump('bs','Bitset',["WordProofs","BitsetProofs","GosperProofs","BitsetProps"],[
("sbs_get","N.land (N.shiftr s offset) 1 =? 1","N.land (N.shiftr s (offset+1)) 1 =? 1","reads the next bit","C01: reading an element"),
("sbs_set","if offset <? CAPACITY then Some (setbit64 s v offset) else None","if offset <=? CAPACITY then Some (setbit64 s v offset) else None","wrong boundary in the assertion","C01: out-of-range access is rejected"),
("setbit64","(if value then neg64 1 else 0)","(if value then 1 else 0)","missing negation of the value: only bit 0 can be set","C01: writing an element"),
("sbs_All","if n =? CAPACITY then not64 0 else","if n =? 63 then not64 0 else","wrong boundary in All()","C01: All(n) = {0..n-1}"),
("sbs_is_subset","s =? N.land other s","other =? N.land other s","superset instead of subset","C01: is_subset"),
("sbs_diff","N.land l (not64 r)","N.land (not64 l) r","swapped arguments of the difference","C01: difference"),
("sbs_hi","sbs_Singleton (64 - clz s - 1)","sbs_Singleton (64 - clz s)","off by one in hi()","C01: greatest element"),
("sbs_mask_to_lo","Some (N.lxor s (sub64 s 1))","Some (N.land s (sub64 s 1))","and instead of xor","C01: mask_to_lo"),
("sbs_is_singleton","sbs_size s =? 1","sbs_size s <=? 1","empty set counts as singleton","C01: is_singleton"),
("it_next","Definition it_next (bits : N) : N := N.land bits (sub64 bits 1)","Definition it_next (bits : N) : N := N.land bits (sub64 bits 2)","iterator clears the wrong bit","C01: iteration"),
("rit_deref","Some (64 - 1 - clz bits)","Some (64 - clz bits)","off by one in the reverse iterator","C01: reverse iteration"),
("least_subset","Definition least_subset (s : sbs) : sbs := N.land s (neg64 s)","Definition least_subset (s : sbs) : sbs := N.land s (not64 s)","complement instead of negation","C02: subset enumeration"),
("next_subset","N.land (sub64 subset set) set","N.land (add64 subset 1) set","increment without borrowing through the gaps","C02: subset enumeration"),
("gh_enumerate_all","gh_limit := shl64 1 n |}\n    | None","gh_limit := shl64 1 k |}\n    | None","limit computed from k instead of n","C03: all k-subsets"),
("gh_next_bmi2","N.lor (N.shiftr l 2) r.\n\n(** [operator++] without","N.lor (N.shiftr l 1) r.\n\n(** [operator++] without","wrong shift in Gosper's hack","C03: k-element subsets only"),
("gh_loop","| S f => if gh_set g <? gh_limit g\n           then option_map (cons (gh_set g))","| S f => if gh_set g <=? gh_limit g\n           then option_map (cons (gh_set g))","wrong loop bound","C03: subsets of {0..n-1} only"),
("pdep_loop","N.lor (if N.testbit src k then N.shiftl 1 i else 0) (pdep_loop n' (i + 1) (k + 1) src mask)","N.lor (if N.testbit src k then N.shiftl 1 i else 0) (pdep_loop n' (i + 1) k src mask)","source bit not advanced","C04: k-subsets of an arbitrary set"),
("se_make","gh_enumerate_all size (sbs_size set)","gh_enumerate_all (sbs_size set) size","swapped arguments","C04: k-subsets"),
("sbs_incr","if not64 s =? 0 then None else Some (add64 s 1)","Some (add64 s 1)","overflow check dropped","C01: ++ on the full set is rejected"),
("sbs_decr","if s =? 0 then None else Some (sub64 s 1)","Some (sub64 s 1)","underflow check dropped","C01: -- on the empty set is rejected"),
("gh_enumerate_from","if s <=? shl64 1 n then","if true then","check of the start set dropped","C03: enumerate_from rejects sets beyond the universe"),
("gh_next_portable","popcount (m mod 2 ^ 32)","popcount (m mod 2 ^ 16)","population count truncated to 16 bits","C03: portable build correct up to n = 32"),
])
