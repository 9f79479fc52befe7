from gen import dump
only=['ArgSpec','ArgProofs','ArgProps']
P="C62: command lines"; N="C62: numbers"; L_="C62: lists"
L=[
("streq","(x =? y) && streq a' b'","(x =? y)","only the first characters compared",P),
("is_space","(c <=? 13)","(c <? 13)","carriage return no space",N),
("is_digit","(c <=? 57)","(c <? 57)","9 no digit",N),
("is_digit","(48 <=? c)","(48 <? c)","0 no digit",N),
("digits","10 * acc + Z.of_nat (c - 48)","16 * acc + Z.of_nat (c - 48)","base 16",N),
("digits","Z.of_nat (c - 48)","Z.of_nat c","character code added",N),
("strto","option_map (pair true) (magnitude s')","option_map (pair false) (magnitude s')","minus ignored",N),
("strto","if c =? 43 then option_map (pair false) (magnitude s')\n               else","","plus not accepted",N),
("strto","match skip_space s with","match s with","white space not skipped",N),
("parse_signed","if ((- 2 ^ (w - 1) <=? z) && (z <? 2 ^ (w - 1)))%Z then Some z else None","Some z","int not checked",N),
("parse_signed","(z <? 2 ^ (w - 1))","(z <=? 2 ^ (w - 1))","one too large accepted",N),
("parse_signed","(- 2 ^ (w - 1) <=? z)","(- 2 ^ (w - 1) <? z)","least value rejected",N),
("parse_unsigned","(2 ^ w - 1 <? v)%Z","(2 ^ w - 1 <=? v)%Z","greatest value rejected",N),
("parse_unsigned","if (2 ^ w - 1 <? v)%Z then None else Some v","Some (v mod 2 ^ w)%Z","truncated",N),
("parse_unsigned","if neg : bool then ((- m) mod 2 ^ 64)%Z else m","m","sign dropped","C62_refuted_negative, value_of"),
("split","if c =? 44","if c =? 59","semicolons",L_),
("split","rev part :: split [] s'","part :: split [] s'","parts reversed",L_),
("split","[] => [rev part]","[] => []","last part lost",L_),
("split","rev part :: split [] s'","match part with [] => split [] s' | _ => rev part :: split [] s' end","empty parts skipped",L_),
("parse_list","match s with [] => [] | _ => split [] s end","split [] s","empty list is a list of an empty string",L_),
("key_map","key_map (S i) opts'","key_map i opts'","all options are the first one",P),
("key_map","match long_name o with Some n => [(n, (i, o_kind o))] | None => [] end ++ ","","long names not known",P),
("lookup","if streq m n then Some x else lookup keys' n","if streq m n then Some x else None","first name only",P),
("parse_loop","if streq a dashes then Ran [] rest","if streq a dashes then parse_loop keys rest","-- ignored",P),
("parse_loop","if streq a dashes then Ran [] rest","if streq a dashes then Ran [] argv","-- kept",P),
("parse_loop","Some x => event (i, x) (parse_loop keys rest')","Some x => event (i, x) (parse_loop keys rest)","value also read as an argument",P),
("parse_loop","| None => Exit []\n                                            end","| None => parse_loop keys rest'\n                                            end","bad value ignored",P),
("parse_loop","| [] => Exit []","| [] => Ran [] []","missing value ignored",P),
("parse_loop","if starts_with_dashes a then parse_loop keys rest else positional a (parse_loop keys rest)","positional a (parse_loop keys rest)","unknown options kept",P),
("parse_loop","if starts_with_dashes a then parse_loop keys rest else","if starts_with_dashes a then Exit [] else","unknown options end the program",P),
("starts_with_dashes","streq (firstn 2 a) dashes","streq (firstn 1 a) [45]","one dash suffices",P),
("parse_args","parse_loop (key_map 0 opts) args","parse_loop (key_map 0 opts) argv","program name read",P),
("positional","Ran es (a :: args)","Ran es (args ++ [a])","arguments reversed",P),
("event","Ran (e :: es) args","Ran (es ++ [e]) args","events reversed",P),
("event","Exit es => Exit (e :: es)","Exit es => Exit es","events lost at the exit",P),
]
dump('arg','ArgParser',only,L)
