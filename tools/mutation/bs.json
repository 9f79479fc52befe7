[
 {
  "id": "bs1",
  "file": "Bitset",
  "definition": "sbs_get",
  "old": "N.land (N.shiftr s offset) 1 =? 1",
  "new": "N.land (N.shiftr s (offset+1)) 1 =? 1",
  "edit": "reads the next bit",
  "claim": "C01: reading an element",
  "only": [
   "WordProofs",
   "BitsetProofs",
   "GosperProofs",
   "BitsetProps"
  ]
 },
 {
  "id": "bs2",
  "file": "Bitset",
  "definition": "sbs_set",
  "old": "if offset <? CAPACITY then Some (setbit64 s v offset) else None",
  "new": "if offset <=? CAPACITY then Some (setbit64 s v offset) else None",
  "edit": "wrong boundary in the assertion",
  "claim": "C01: out-of-range access is rejected",
  "only": [
   "WordProofs",
   "BitsetProofs",
   "GosperProofs",
   "BitsetProps"
  ]
 },
 {
  "id": "bs3",
  "file": "Bitset",
  "definition": "setbit64",
  "old": "(if value then neg64 1 else 0)",
  "new": "(if value then 1 else 0)",
  "edit": "missing negation of the value: only bit 0 can be set",
  "claim": "C01: writing an element",
  "only": [
   "WordProofs",
   "BitsetProofs",
   "GosperProofs",
   "BitsetProps"
  ]
 },
 {
  "id": "bs4",
  "file": "Bitset",
  "definition": "sbs_All",
  "old": "if n =? CAPACITY then not64 0 else",
  "new": "if n =? 63 then not64 0 else",
  "edit": "wrong boundary in All()",
  "claim": "C01: All(n) = {0..n-1}",
  "only": [
   "WordProofs",
   "BitsetProofs",
   "GosperProofs",
   "BitsetProps"
  ]
 },
 {
  "id": "bs5",
  "file": "Bitset",
  "definition": "sbs_is_subset",
  "old": "s =? N.land other s",
  "new": "other =? N.land other s",
  "edit": "superset instead of subset",
  "claim": "C01: is_subset",
  "only": [
   "WordProofs",
   "BitsetProofs",
   "GosperProofs",
   "BitsetProps"
  ]
 },
 {
  "id": "bs6",
  "file": "Bitset",
  "definition": "sbs_diff",
  "old": "N.land l (not64 r)",
  "new": "N.land (not64 l) r",
  "edit": "swapped arguments of the difference",
  "claim": "C01: difference",
  "only": [
   "WordProofs",
   "BitsetProofs",
   "GosperProofs",
   "BitsetProps"
  ]
 },
 {
  "id": "bs7",
  "file": "Bitset",
  "definition": "sbs_hi",
  "old": "sbs_Singleton (64 - clz s - 1)",
  "new": "sbs_Singleton (64 - clz s)",
  "edit": "off by one in hi()",
  "claim": "C01: greatest element",
  "only": [
   "WordProofs",
   "BitsetProofs",
   "GosperProofs",
   "BitsetProps"
  ]
 },
 {
  "id": "bs8",
  "file": "Bitset",
  "definition": "sbs_mask_to_lo",
  "old": "Some (N.lxor s (sub64 s 1))",
  "new": "Some (N.land s (sub64 s 1))",
  "edit": "and instead of xor",
  "claim": "C01: mask_to_lo",
  "only": [
   "WordProofs",
   "BitsetProofs",
   "GosperProofs",
   "BitsetProps"
  ]
 },
 {
  "id": "bs9",
  "file": "Bitset",
  "definition": "sbs_is_singleton",
  "old": "sbs_size s =? 1",
  "new": "sbs_size s <=? 1",
  "edit": "empty set counts as singleton",
  "claim": "C01: is_singleton",
  "only": [
   "WordProofs",
   "BitsetProofs",
   "GosperProofs",
   "BitsetProps"
  ]
 },
 {
  "id": "bs10",
  "file": "Bitset",
  "definition": "it_next",
  "old": "Definition it_next (bits : N) : N := N.land bits (sub64 bits 1)",
  "new": "Definition it_next (bits : N) : N := N.land bits (sub64 bits 2)",
  "edit": "iterator clears the wrong bit",
  "claim": "C01: iteration",
  "only": [
   "WordProofs",
   "BitsetProofs",
   "GosperProofs",
   "BitsetProps"
  ]
 },
 {
  "id": "bs11",
  "file": "Bitset",
  "definition": "rit_deref",
  "old": "Some (64 - 1 - clz bits)",
  "new": "Some (64 - clz bits)",
  "edit": "off by one in the reverse iterator",
  "claim": "C01: reverse iteration",
  "only": [
   "WordProofs",
   "BitsetProofs",
   "GosperProofs",
   "BitsetProps"
  ]
 },
 {
  "id": "bs12",
  "file": "Bitset",
  "definition": "least_subset",
  "old": "Definition least_subset (s : sbs) : sbs := N.land s (neg64 s)",
  "new": "Definition least_subset (s : sbs) : sbs := N.land s (not64 s)",
  "edit": "complement instead of negation",
  "claim": "C02: subset enumeration",
  "only": [
   "WordProofs",
   "BitsetProofs",
   "GosperProofs",
   "BitsetProps"
  ]
 },
 {
  "id": "bs13",
  "file": "Bitset",
  "definition": "next_subset",
  "old": "N.land (sub64 subset set) set",
  "new": "N.land (add64 subset 1) set",
  "edit": "increment without borrowing through the gaps",
  "claim": "C02: subset enumeration",
  "only": [
   "WordProofs",
   "BitsetProofs",
   "GosperProofs",
   "BitsetProps"
  ]
 },
 {
  "id": "bs14",
  "file": "Bitset",
  "definition": "gh_enumerate_all",
  "old": "gh_limit := shl64 1 n |}\n    | None",
  "new": "gh_limit := shl64 1 k |}\n    | None",
  "edit": "limit computed from k instead of n",
  "claim": "C03: all k-subsets",
  "only": [
   "WordProofs",
   "BitsetProofs",
   "GosperProofs",
   "BitsetProps"
  ]
 },
 {
  "id": "bs15",
  "file": "Bitset",
  "definition": "gh_next_bmi2",
  "old": "N.lor (N.shiftr l 2) r.\n\n(** [operator++] without",
  "new": "N.lor (N.shiftr l 1) r.\n\n(** [operator++] without",
  "edit": "wrong shift in Gosper's hack",
  "claim": "C03: k-element subsets only",
  "only": [
   "WordProofs",
   "BitsetProofs",
   "GosperProofs",
   "BitsetProps"
  ]
 },
 {
  "id": "bs16",
  "file": "Bitset",
  "definition": "gh_loop",
  "old": "| S f => if gh_set g <? gh_limit g\n           then option_map (cons (gh_set g))",
  "new": "| S f => if gh_set g <=? gh_limit g\n           then option_map (cons (gh_set g))",
  "edit": "wrong loop bound",
  "claim": "C03: subsets of {0..n-1} only",
  "only": [
   "WordProofs",
   "BitsetProofs",
   "GosperProofs",
   "BitsetProps"
  ]
 },
 {
  "id": "bs17",
  "file": "Bitset",
  "definition": "pdep_loop",
  "old": "N.lor (if N.testbit src k then N.shiftl 1 i else 0) (pdep_loop n' (i + 1) (k + 1) src mask)",
  "new": "N.lor (if N.testbit src k then N.shiftl 1 i else 0) (pdep_loop n' (i + 1) k src mask)",
  "edit": "source bit not advanced",
  "claim": "C04: k-subsets of an arbitrary set",
  "only": [
   "WordProofs",
   "BitsetProofs",
   "GosperProofs",
   "BitsetProps"
  ]
 },
 {
  "id": "bs18",
  "file": "Bitset",
  "definition": "se_make",
  "old": "gh_enumerate_all size (sbs_size set)",
  "new": "gh_enumerate_all (sbs_size set) size",
  "edit": "swapped arguments",
  "claim": "C04: k-subsets",
  "only": [
   "WordProofs",
   "BitsetProofs",
   "GosperProofs",
   "BitsetProps"
  ]
 },
 {
  "id": "bs19",
  "file": "Bitset",
  "definition": "sbs_incr",
  "old": "if not64 s =? 0 then None else Some (add64 s 1)",
  "new": "Some (add64 s 1)",
  "edit": "overflow check dropped",
  "claim": "C01: ++ on the full set is rejected",
  "only": [
   "WordProofs",
   "BitsetProofs",
   "GosperProofs",
   "BitsetProps"
  ]
 },
 {
  "id": "bs20",
  "file": "Bitset",
  "definition": "sbs_decr",
  "old": "if s =? 0 then None else Some (sub64 s 1)",
  "new": "Some (sub64 s 1)",
  "edit": "underflow check dropped",
  "claim": "C01: -- on the empty set is rejected",
  "only": [
   "WordProofs",
   "BitsetProofs",
   "GosperProofs",
   "BitsetProps"
  ]
 },
 {
  "id": "bs21",
  "file": "Bitset",
  "definition": "gh_enumerate_from",
  "old": "if s <=? shl64 1 n then",
  "new": "if true then",
  "edit": "check of the start set dropped",
  "claim": "C03: enumerate_from rejects sets beyond the universe",
  "only": [
   "WordProofs",
   "BitsetProofs",
   "GosperProofs",
   "BitsetProps"
  ]
 },
 {
  "id": "bs22",
  "file": "Bitset",
  "definition": "gh_next_portable",
  "old": "popcount (m mod 2 ^ 32)",
  "new": "popcount (m mod 2 ^ 16)",
  "edit": "population count truncated to 16 bits",
  "claim": "C03: portable build correct up to n = 32",
  "only": [
   "WordProofs",
   "BitsetProofs",
   "GosperProofs",
   "BitsetProps"
  ]
 }
]