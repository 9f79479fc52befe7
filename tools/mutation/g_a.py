from gen import dump
dump('ar','Arith',None,[
("is_pow_2","if n =? 0 then false else","","zero counts as a power of two","C05: is_pow_2"),
("ceil_to_pow_2","builtin_clz (builtin_width w) (n - 1)","builtin_clz (builtin_width w) n","clz of n instead of n-1: powers of two are doubled","C05: least power of two >= n"),
("ceil_to_pow_2","if n <=? 1 then Some 1 else\n  match builtin_clz","if n =? 0 then Some 1 else\n  match builtin_clz","boundary case n = 1 missed (undefined clz(0))","C05: least power of two >= n"),
("ceil_to_multiple_of_pow_2","(wr w (n + wsub w p 1))","(wr w (n + p))","adds p instead of p-1","C05: least multiple"),
("round_up_to_multiple","if factor =? 0 then None else","if factor =? 0 then Some 0 else","no exception for factor 0","C05: factor 0 is rejected"),
("round_up_to_multiple","let differ := if negb (wr w (d * factor) =? val) then 1 else 0 in","let differ := 1 in","always rounds up","C05: least multiple"),
("log2_floor","wr w (wsub 64 (wsub 64 w lz) 1)","wr w (wsub 64 w lz)","missing -1","C05: floor of log2"),
("log2_ceil","match log2_floor w (n - 1) with","match log2_floor w n with","log of n instead of n-1","C05: ceil of log2"),
("ceil_to_next_page","wr 64 (N.lor (wsub 64 n 1) (wsub 64 P 1) + 1)","wr 64 (N.lor n (wsub 64 P 1) + 1)","missing -1: aligned sizes are rounded up","C05: next page"),
("add_wo_overflow","let s := snd a + snd b in\n  if 2 ^ w <=? s then (w, 2 ^ w - 1)","let s := snd a + snd b in\n  if 2 ^ w <? s then (w, 2 ^ w - 1)","wrong overflow boundary","C06: saturating sum"),
("mul_wo_overflow","let s := snd a * snd b in\n  if 2 ^ w <=? s then (w, 2 ^ w - 1) else (w, s)","let s := snd a * snd b in\n  (w, s mod 2 ^ w)","saturation dropped","C06: saturating product"),
("powi_pos","| xI q => match sq q with None => None | Some t => zmul lo hi base t end","| xI q => match sq q with None => None | Some t => Some t end","odd exponents lose a factor","C06: powi"),
("powu_pos","| xI q => wr w (base * sq q) end","| xI q => wr w (base * base * sq q) end","odd exponents gain a factor","C06: powi unsigned"),
("setbit","(wr w (N.shiftl 1 n))))\n  else None","(wr w (N.shiftl 1 (n + 1)))))\n  else None","wrong bit","C44: setbit"),
("sequence_number","wsub w (2 ^ (w - 1)) u'","wsub w (2 ^ (w - 1) + 1) u'","off by one for negative numbers (-0 differs from +0)","C41: sequence numbers"),
("sequence_number","wr w (u + 2 ^ (w - 1))","u","positive numbers not shifted","C41: sequence numbers"),
("range_wide_signed","(n <=? a_abs) || (wsub 64","(n <? a_abs) && (wsub 64","wrong connective","C41: range width of signed integers"),
("range_wide_signed","let '(a, b) := if (b <? a)%Z then (b, a) else (a, b) in","","no swap of the bounds","C41: range width of signed integers"),
("range_wide_unsigned","if n =? 0 then true else wsub 64 n 1 <=? wsub w b a","if n =? 0 then true else n <=? wsub w b a","off by one","C41: range width of unsigned integers"),
("range_wide_float","if n =? 0 then true else wsub 64 n 1 <=? wsub w (sequence_number w b) (sequence_number w a)","wsub 64 n 1 <=? wsub w (sequence_number w b) (sequence_number w a)","n = 0 not handled","C41: range width of floats"),
("is_page_aligned","N.land n (wsub 64 P 1) =? 0","N.land n P =? 0","mask is P instead of P-1","C05: page alignment"),
])
dump('st','Strings',None,[
("escape","else if c =? NL then [esc; \"n\"]","","newlines are not escaped","C07: no raw newline"),
("escape","(if (c =? esc) || (c =? quote) then [esc; c]","(if (c =? quote) then [esc; c]","escape characters are not escaped","C07: round trip"),
("unescape","else if d =? \"n\" then option_map (cons NL) (unescape esc quote s'')","else if d =? \"n\" then option_map (cons d) (unescape esc quote s'')","\\n unescaped to n","C07: round trip"),
("unescape","else option_map (cons esc) (unescape esc quote s')","else option_map (cons esc) (unescape esc quote s'')","the character after an invalid escape is dropped","C07: unescape of texts with invalid escapes"),
("unquote","if negb (last s c =? q) then None else Some (removelast (tl s))","if negb (last s c =? q) then None else Some (tl s)","closing quote kept","C07: unquote"),
("unquote","if negb (c =? q) then Some s else","if negb (c =? q) then None else","unquoted text rejected","C07: unquoting an unquoted text returns it"),
("unquote","if negb (last s c =? q) then None else Some","Some","missing closing quote accepted","C07: unbalanced quotes are rejected"),
("replace_loop","replace_loop f (replace s p (length from) to) from to (p + length to)","replace_loop f (replace s p (length from) to) from to p","rescans the replacement","C07: replace_all does not rescan"),
("replace_loop","replace_loop f (replace s p (length from) to) from to (p + length to)","replace_loop f (replace s p (length from) to) from to (p + length from)","continues at the wrong position","C07: replace_all replaces all occurrences"),
("html_escape","[\"&\"; \"g\"; \"t\"; \";\"]","[\"&\"; \"l\"; \"t\"; \";\"]","> escaped as &lt;","C07: html_escape"),
("like_col0","let er' := if negb escaped && (c =? esc) then S i else er in","let er' := if (c =? esc) then S i else er in","an escaped escape character escapes the next character","C08: LIKE"),
("like_row","(negb escaped && (c =? \"_\")) || (x =? c)","(c =? \"_\") || (x =? c)","escaped underscore matches any character","C08: LIKE"),
("like_row","if negb escaped && (c =? \"%\") then left || u","if negb escaped && (c =? \"%\") then left || diag","% must consume a character","C08: LIKE"),
("like_rows","(c0 :: like_row escaped c s d up c0)","(c0 :: like_row escaped c s d up false)","left neighbour of the first column lost","C08: LIKE"),
("like_col0","if escaped && negb (c =? \"_\") && negb (c =? \"%\") && negb (c =? esc) then None else","","invalid escape sequences accepted","C08: invalid patterns are rejected"),
("like_col0","[] => if (i =? er)%nat then None else Some []","[] => Some []","pattern ending in an escape character accepted","C08: invalid patterns are rejected"),
])
