from gen import dump
dump('tu','Tuple.v',['TupleProps'],[
("slots","Some _ => Ptr a i | None","Some _ => Ptr a 0 | None","all strings share a buffer","C30: clones have memory of their own"),
("new_tuple","(not64 0)","0","new tuples are not NULL","C30: new tuples"),
("upd","| _ :: l', O => x :: l'","| y :: l', O => y :: l'","value not stored","C30: set"),
("upd","y :: upd l' i' x","x :: upd l' i' x","all earlier values overwritten","C30: set"),
("set","(sbs_set (mask t) (N.of_nat i) b)","(Some (mask t))","set does not clear the NULL bit","C30: set"),
("set_null","(sbs_set (mask t) (N.of_nat i) b)","(sbs_set (mask t) (N.of_nat i) true)","not_null sets NULL","C30: null/not_null"),
("clear","mkT (vals t) (not64 0)","mkT (vals t) (not64 1)","slot 0 not cleared","C30: clear"),
("is_null","if in_bounds t i then sbs_get (mask t) (N.of_nat i)","if in_bounds t i then option_map negb (sbs_get (mask t) (N.of_nat i))","inverted","C30: read"),
("get","match is_null t i with Some false => at_ t i | _ => None end","at_ t i","get returns values of NULL slots","C30: read"),
("insert_loop","set t (pos + i) v b","set t (pos + i) v false","insert loses NULL","C30: insert"),
("insert_loop","set t (pos + i) v b","set t pos v b","insert writes to one slot","C30: insert"),
("value_eqb","Nat.eqb a b && Nat.eqb i j","Nat.eqb a b","pointers into the same allocation are equal","C30: equality"),
("tuple_eq","if N.eqb (mask t) (mask o) then","if true then","NULL masks not compared","C30: equality"),
("tuple_eq","iterate 65 (sbs_not (mask t))","iterate 65 (mask t)","compares the NULL slots","C30: equality"),
("eq_loop","if value_eqb v w then eq_loop l' t o else Some false","eq_loop l' t o","values not compared","C30: equality"),
("tuple_hash","iterate 65 (sbs_not (mask t))","iterate 65 (N.of_nat 1)","hashes slot 0 even if NULL","C30: hash agrees with equality"),
("clone_loop","Nat.eqb a' c && Nat.eqb i' k then h b j","Nat.eqb a' c && Nat.eqb i' k then []","string not copied","C30: clone"),
("clone_loop","if Nat.leb (length (h b j)) len","if Nat.ltb (length (h b j)) len","longest string refused","C30: clone"),
("clone_loop","set cpy i v false","set cpy i v true","clone is NULL","C30: clone"),
("clone_loop","match set_null cpy i false with","match Some cpy with","string slots stay NULL","C30: clone"),
("new_heap","if Nat.eqb a' a then [] else h a' i","[]","allocation clobbers other strings","C30: clone"),
("block_new","(c <=? 64)%N","(c <=? 63)%N","capacity 64 refused","C43: blocks"),
("b_fill","(64 - cap b)","(63 - cap b)","fills one tuple too many","C43: blocks"),
("b_erase","(setbit64 (bmask b) false i)","(setbit64 (bmask b) true i)","erase revives","C43: erase"),
("b_erase","if (i <? cap b)%N then","if (i <? cap b - 1)%N then","last tuple cannot be erased","C43: erase"),
("b_clear","mkB (cap b) 0","mkB (cap b) (bmask b)","clear does nothing","C43: blocks"),
("b_visit","(N.land m (sub64 m 1))","(N.land m (sub64 m 2))","iteration skips","C43: iteration"),
("b_at","(shl64 (not64 0) i)","(shl64 (not64 0) (i + 1))","at skips the tuple","C43: at"),
("b_size","popcount (bmask b)","cap b","size is the capacity","C43: size"),
("b_alive","negb (N.eqb","(N.eqb","inverted","C43: alive"),
])
dump('da','Dates.v',['DatesProps'],[
("encode","(Z.shiftl (uint32 year) 9)","(Z.shiftl (uint32 year) 8)","year shifted by 8","C42: round trip"),
("encode","(Z.shiftl month 5)","(Z.shiftl month 4)","month shifted by 4","C42: round trip"),
("encode","uint32 (Z.shiftl (uint32 year) 9)","uint32 (Z.shiftl (Z.abs year) 9)","sign of the year dropped","C42: round trip / order"),
("encode","int32 (Z.lor","uint32 (Z.lor","result unsigned","C42: order of negative years"),
("year_of","Z.shiftr date 9","Z.shiftr date 8","wrong shift","C42: round trip"),
("year_of","Z.shiftr date 9","Z.shiftr (uint32 date) 9","logical instead of arithmetic shift","C42: negative years"),
("month_of","15","7","mask too small","C42: round trip"),
("month_of","(Z.shiftr date 5)","(Z.shiftr date 4)","wrong shift","C42: round trip"),
("day_of","31","15","mask too small","C42: round trip"),
("sema_accepts","negb (year =? 0) &&","","year 0 accepted","C42: validation"),
("sema_accepts","(month >? 12)","(month >? 13)","month 13 accepted","C42: validation"),
("sema_accepts","(month <? 1)","(month <? 0)","month 0 accepted","C42: validation"),
("sema_accepts","(day >? 29)","(day >? 28)","February 29 refused","C42: validation"),
("sema_accepts","|| (month =? 11)) && (day >? 30)",") && (day >? 30)","November 31 accepted","C42: validation"),
("sema_accepts","(day >? 31)","(day >? 30)","31st refused","C42: validation"),
("sema_accepts","(day <? 1) ||","false ||","day 0 accepted","C42: validation"),
("pad","repeat 48","repeat 32","padded with blanks","C42: printing"),
("put_int","pad (w - 1) (digits (- n))","pad w (digits (- n))","sign not counted in the width","C42: printing"),
("put_int","45 :: pad","43 :: pad","wrong sign","C42: printing"),
("print_date","then 4 else 5","then 4 else 4","width of negative years","C42: printing"),
("print_date","then 4 else 5","then 2 else 5","two digit years","C42: printing"),
("print_date","year_of date >? 0","year_of date >? 1000","five digits for small years","C42: printing"),
("print_date","[45] ++ put_int 2 (month_of date)","[45] ++ put_int 1 (month_of date)","month not padded","C42: printing"),
("print_date","[45] ++ put_int 2 (month_of date)","[47] ++ put_int 2 (month_of date)","slash as separator","C42: printing"),
("print_date","put_int 2 (month_of date) ++ [45] ++ put_int 2 (day_of date)","put_int 2 (day_of date) ++ [45] ++ put_int 2 (month_of date)","day before month","C42: printing"),
("scan_int","(- fst p, snd p)","(fst p, snd p)","sign ignored","C42: parsing"),
("scan_digits","acc * 10 + (c - 48)","acc * 8 + (c - 48)","octal","C42: parsing"),
("scan_date","Some (y, m, d)","Some (y, d, m)","day and month swapped","C42: parsing"),
("eval_date","encode y m d","encode y d m","arguments swapped","C42: parsing"),
])

