[
{"id":"dsv1","file":"DSV","definition":"quoted_rfc","old":"if c2 =? q then let '(a, b) := quoted_rfc q r2 in (c2 :: a, b) else ([], r)","new":"if c2 =? q then let '(a, b) := quoted_rfc q r2 in (a, b) else ([], r)","edit":"a doubled quote inside a quoted string is dropped instead of read as one quote","claim":"C38: quoted strings are read back exactly"},
{"id":"dsv2","file":"DSV","definition":"finish","old":"(if neg then wrap (- i) else i)","new":"i","edit":"the sign of a number is dropped","claim":"C38: values of the record"},
{"id":"dsv3","file":"DSV","definition":"read_decimal","old":"let p := wrap (p * powi n) in","new":"let p := p in","edit":"fraction with fewer digits than the scale is not scaled","claim":"C38: decimal values"},
{"id":"dsv4","file":"DSV","definition":"read_cells","old":"match cols' with [] => cur s =? 10 | _ => cur s =? delimiter cfg end","new":"match cols' with [] => false | _ => cur s =? delimiter cfg end","edit":"empty last cell is not recognised as NULL","claim":"C38: NULLs of the record"},
{"id":"dsv5","file":"DSV","definition":"read_rows","old":"read_rows f cfg cols ts idx (tl s) t (drop st)","new":"read_rows f cfg cols ts idx (tl s) t st","edit":"the row appended for a short record is not dropped","claim":"C38: a record with too few cells leaves no trace"},
{"id":"dsv6","file":"DSV","definition":"read_rows","old":"if (idx <? limit cfg)%nat then","new":"if (idx <=? limit cfg)%nat then","edit":"off by one in the limit","claim":"C38: at most limit rows"},
{"id":"dsv7","file":"DSV","definition":"stamp","old":"update e (Some (VInt (-1))) (update b (Some (VInt start)) t)","new":"update b (Some (VInt (-1))) (update e (Some (VInt start)) t)","edit":"ts_begin and ts_end swapped","claim":"C38: time stamps"},
{"id":"dsv8","file":"DSV","definition":"find_from","old":"if list_eq_dec N.eq_dec (aname a) name then Some (i, aty a) else find_from (S i) name r","new":"if list_eq_dec N.eq_dec (aname a) name then Some (i, aty a) else find_from i name r","edit":"wrong attribute id for named columns","claim":"C38: values at the attributes of their columns"},
{"id":"dsv9","file":"DSV","definition":"visible_from","old":"if ahidden a then visible_from (S i) r","new":"if ahidden a then visible_from i r","edit":"hidden attributes are not counted","claim":"C38: values at the attributes of their columns"},
{"id":"dsv10","file":"DSV","definition":"write","old":"mkStore (update n (Some t) (rows st)) (Some (S n))","new":"mkStore (update n (Some t) (rows st)) (Some n)","edit":"writer does not advance to the next row","claim":"C38: one row per record"},
{"id":"dsv11","file":"DSV","definition":"write","old":"| None => length (rows st) - 1 end","new":"| None => 0 end","edit":"first row is written at row 0 instead of after the old rows","claim":"C38: old rows are kept"},
{"id":"dsv12","file":"DSV","definition":"read_post","old":"| S k => match s with","new":"| S k => match tl s with","edit":"first fractional digit skipped","claim":"C38: decimal values"},
{"id":"dsv13","file":"DSV","definition":"update","old":"| y :: r, S k => y :: update k x r","new":"| y :: r, S k => x :: update k x r","edit":"update overwrites all earlier slots","claim":"C38: values at the attributes of their columns"},
{"id":"dsv14","file":"DSV","definition":"header","old":"let '(cols, s) := read_header (S (length s)) cfg attrs s in (cols, tl s)","new":"let '(cols, s) := read_header (S (length s)) cfg attrs s in (cols, s)","edit":"line feed of header not consumed","claim":"C38: one row per record"}
]
