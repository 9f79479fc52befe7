from gen import dump
only=['DdlSpec','DdlProofs','DdlStep','DdlProps']
E_="C61: effect of statements"
C="C61: no crash"
I="C61: indexes in use are current"
L=[
("resolve","if ty_eqb t (a_type ra) then Some (t_obj rt, p) else None","Some (t_obj rt, p)","types of references not compared",E_),
("resolve","Some (t_obj rt, p) else None","Some (p, p) else None","reference to a wrong table",C),
("analyze_attrs","| Some _ => None\n      | None =>\n          match r with","| Some _ => analyze_attrs d done ds'\n      | None =>\n          match r with","duplicate attributes skipped",E_),
("analyze_attrs","| None => None\n                      end","| None => analyze_attrs d (done ++ [mkattr n t None]) ds'\n                      end","bad references ignored",E_),
("analyze_attrs","| None => analyze_attrs d (done ++ [mkattr n t None]) ds'","| None => analyze_attrs d (mkattr n t None :: done) ds'","attributes in reverse",E_),
("create_table","| None, Some attrs =>","| _, Some attrs =>","existing tables not rejected by the analysis",C),
("create_table","(S (next st))) true","(next st)) true","addresses reused","harmless? the address of a live table is given to another one"),
("create_table","n attrs [] :: tables d","n attrs [] :: []","all other tables lost",E_),
("drop_indexes","if t_name t =? n then rest else i :: rest","i :: rest","indexes of dropped tables kept",C),
("drop_indexes","if t_name t =? n then rest else i :: rest","rest","all indexes dropped",E_),
("drop_tables","| Some is => drop_tables (mkdb (d_obj d) (d_name d) (filter (fun t => negb (t_name t =? n)) (tables d)) is) ok ns'","| Some is => drop_tables (mkdb (d_obj d) (d_name d) (filter (fun t => negb (t_name t =? n)) (tables d)) (indexes d)) ok ns'","indexes left with dangling references",C),
("drop_tables","drop_tables d false ns'","Some (d, false)","stops at a missing table","harmless for the theorem about distinct present names"),
("drop_tables","filter (fun t => negb (t_name t =? n)) (tables d)","filter (fun t => t_name t =? n) (tables d)","the others dropped",E_),
("drop_table","if if_exists || (length present =? length ns) then","if true then","missing tables not reported",E_),
("drop_table","if if_exists || (length present =? length ns) then","if length present =? length ns then","IF EXISTS ignored",E_),
("drop_table","drop_tables d true present","drop_tables d true ns","missing tables dropped, too: error",E_),
("bulk","| _ => bulk rows' pos (S i)","| _ => (0%Z, i) :: bulk rows' pos (S i)","NULL indexed as 0",I),
("bulk","(v, i) :: bulk rows' pos (S i)","(v, i) :: bulk rows' pos i","row numbers do not advance",I),
("create_index","bulk (t_rows t) p 0","bulk (t_rows t) 0 0","first attribute indexed",I),
("create_index","bulk (t_rows t) p 0","bulk (t_rows t) p 1","row numbers from 1",I),
("create_index","p 0) true])) true","p 0) false])) true","new index not usable","C61_index_available"),
("create_index","| Some _ => Done st if_not_exists","| Some _ => Done st true","existing index not reported",E_),
("create_index","| Some _ => Done st if_not_exists","| Some _ => Done st (negb if_not_exists)","IF NOT EXISTS swapped",E_),
("create_index","if method_eqb m RMI && ty_eqb (a_type a) TChar then Done st false","if false then Done st false","RMI on character sequences",E_),
("create_index","if method_eqb m RMI && ty_eqb (a_type a) TChar then Done st false","if method_eqb m RMI || ty_eqb (a_type a) TChar then Done st false","too many rejected",E_),
("create_index","indexes d ++ [mkindex","[mkindex","other indexes lost",E_),
("create_index","if negb (schema_ok d t) then Crash","if false then Crash","schema not asked for: no crash","C61_refuted_reference only (a repair)"),
("remove_first","if i_name i =? n then is' else","if i_name i =? n then is else","nothing removed",E_),
("drop_index_loop","| None => drop_index_loop d false ns'","| None => drop_index_loop d ok ns'","missing index not reported when executed","harmless: only after a duplicate name"),
("drop_index_loop","remove_first n (indexes d)","[]","all indexes dropped",E_),
("drop_index","if if_exists || (length present =? length ns) then","if if_exists || (0 <? length present) then","missing indexes not reported if one is there",E_),
("append","t_rows t ++ rows","rows ++ t_rows t","rows put before",E_),
("append","t_rows t ++ rows","rows","rows replaced",E_),
("append","if t_name t =? tn then","if negb (t_name t =? tn) then","rows into the others",E_),
("invalidate","(i_entries i) false else i","(i_entries i) true else i","not invalidated",I),
("invalidate","if t_name t =? n then","if negb (t_name t =? n) then","the others invalidated",I),
("invalidate","if t_name t =? n then","if i_name i =? n then","index name compared",I),
("insert","invalidate d' tn (indexes d')","Some (indexes d')","indexes not invalidated",I),
("insert","invalidate d' tn (indexes d')","invalidate d tn (indexes d')","database before the rows: harmless","harmless: same names"),
("import","set_tables d (append tn rows (tables d))","set_tables d (append tn (tl rows) (tables d))","first row lost",E_),
("create_database","| Some _ => Done st false","| Some _ => Done st true","existing database not reported",E_),
("create_database","mkdb (next st) n [] [] :: dbs st","dbs st ++ [mkdb (next st) n [] []]","at the end: harmless","harmless: order of databases"),
("drop_database","| None => Done st if_exists","| None => Done st (negb if_exists)","IF EXISTS swapped",E_),
("drop_database","if d_name d =? n then Done st false else go","go","database in use dropped",C),
("drop_database","negb (d_obj e =? d_obj d)","d_obj e =? d_obj d","others dropped",E_),
("use_database","Some (d_obj d)) (next st)) true","in_use st) (next st)) true","not used",E_),
("use_database","| None => Done st false","| None => Done (mkstate (dbs st) None (next st)) false","failed USE forgets the database",E_),
("lookup_index","if i_valid i && (t_name t =? tn)","if (t_name t =? tn)","invalid indexes used",I),
("lookup_index","(a_name a =? an) && ","","attribute not compared",I),
("lookup_index"," && (t_name t =? tn)","","table not compared",I),
("lookup_index"," && method_eqb (i_method i) m","","method not compared","get_index gives an index of the method"),
("schema_ok","| Some (o, _) =>","| Some (_, o) =>","position taken for the table",C),
("select","if schema_ok d t then Done st true else Crash","Done st true","schema not asked for","C61_refuted_reference (a repair)"),
]
dump('ddl','Ddl',only,L)
