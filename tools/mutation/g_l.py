from gen import dump
only=['LoadStoreSim','LoadStoreSpec','LoadStoreTree','LoadStoreJump','LoadStoreStrides','LoadStoreBits','LoadStoreAccess','LoadStoreRun','LoadStoreStatic','LoadStoreMain','LoadStoreProofs','LoadStoreLayouts','LoadStoreProps']
A="C54: what is stored is loaded"
L=[
("read_le","m a + 256 * read_le m (a + 1) w'","m a + 255 * read_le m (a + 1) w'","wrong base of bytes",A),
("write_le","write_le (set_byte m a (v mod 256)) (a + 1) w' (v / 256)","write_le (set_byte m a (v mod 256)) (a + 1) w' (v / 128)","wrong shift of bytes",A),
("signed","if z <? 2 ^ (8 * Z.of_nat w - 1) then z","if z <=? 2 ^ (8 * Z.of_nat w - 1) then z","smallest integer read as positive",A),
("read_str","if m a =? 0 then []","if m a =? 32 then []","strings end at blanks",A),
("write_str","match s with [] => write_str (set_byte m a 0) (a + 1) n' []","match s with [] => m","string not terminated",A),
("setbit","(if value then 255 else 0)","(if value then 0 else 255)","bit inverted","C54: stored booleans"),
("step","Is_Null => match stk s with (_, n) :: r => Some (mkState ((VB n, false) :: r)","Is_Null => match stk s with (_, n) :: r => Some (mkState ((VB (negb n), false) :: r)","IS NULL inverted","C54: NULL bits"),
("store","if n : bool then mem s else f (mem s) (as_i p) v","f (mem s) (as_i p) v","values of NULL attributes are stored","C54: value bits of NULL attributes are unchanged"),
("step","(if n : bool then (old, true) else","(if n : bool then (old, false) else","NULL strings not NULL","C54: NULL loaded"),
("step","if nc : bool then (t, true) else if as_b c then (t, nt) else (f, nf)","if nc : bool then (t, true) else if as_b c then (f, nf) else (t, nt)","select swapped","C54: NULL loaded"),
("step","| Ld_i16 => ld_int 2 s","| Ld_i16 => ld_int 4 s","16 bit integers loaded with 32 bits",A),
("step","| St_f => st_int 4 s","| St_f => st_int 8 s","floats stored with 8 bytes","C54: other bits are unchanged"),
("step","Neg_i => unary (fun v => VI (Z.lnot (as_i v)))","Neg_i => unary (fun v => VI (- as_i v))","arithmetic instead of bitwise negation","C54: other bits are unchanged"),
("slot","Some (id, _) => position id ts","Some (id, _) => Some i","entry of the tuple by position in the layout","C54: attributes are found by name"),
("needs_null_bitmap","existsb (fun id =>","forallb (fun id =>","bitmap only if all attributes can be NULL","C54: NULL bits"),
("find_null","let a := off + row * st in Some (mkNull (base + a / 8) (a mod 8) st num row)","let a := off in Some (mkNull (base + a / 8) (a mod 8) st num row)","bitmap of row 0","C54: from any row on"),
("find_null_node","let a := off + row * st in Some (mkNull (base + a / 8) (a mod 8) st num row)","let a := off + row * st in Some (mkNull (base + a / 8) 0 st num row)","bit offset of bitmap dropped","C54: NULL bits"),
("find_null_node","(base + (off / 8 + (row / n) * st / 8)) (row mod n)","(base + (off / 8 + row * st / 8)) (row mod n)","block number is the row","C54: NULL bits of rows in later blocks",{"occ":1}),
("emit_St","| TVarchar n => [Const (VI (Z.of_nat n + 1)); Emit St_s]","| TVarchar n => [Const (VI (Z.of_nat n)); Emit St_s]","terminating NUL of VARCHAR not stored","C54: harmless: loading stops at n characters"),
("emit_St","| TChar n => [Const (VI (Z.of_nat n)); Emit St_s]","| TChar n => [Const (VI (Z.of_nat n + 1)); Emit St_s]","NUL stored after CHAR","C54: other bits are unchanged"),
("emit_St_Tup","| TChar n | TVarchar n => [Const (VI (Z.of_nat n)); Emit (St_Tup_s (u8 k))]","| TChar n | TVarchar n => [Const (VI (Z.of_nat n - 1)); Emit (St_Tup_s (u8 k))]","last character lost",A),
("null_fixed","if b <? 8 then [Load NullP]","if b <=? 8 then [Load NullP]","bit 8 of the bitmap in byte 0","C54: NULL bits"),
("null_fixed","[Const (VI (b / 8)); Load NullP; Emit Add_p] ++ access (b mod 8)","[Const (VI (b / 8)); Load NullP; Emit Add_p] ++ access b","bit index beyond the byte","C54: NULL bits"),
("null_fixed","let b := n_bit_offset x + Z.of_nat i in","let b := n_bit_offset x in","same NULL bit for all attributes","C54: NULL bits"),
("null_adjustable","Emit (SARi_i 3); Load NullP","Emit (SARi_i 2); Load NullP","wrong byte of the bitmap","C54: NULL bits"),
("null_adjustable","Const (VI 7); Emit And_i; Emit ShL_i","Const (VI 15); Emit And_i; Emit ShL_i","wrong mask of the NULL bit","C54: NULL bits"),
("null_adjustable","[Update (NMask i); Load (NAddr i); Emit Ld_i8; Emit Or_i;","[Update (NMask i); Load (NAddr i); Emit Ld_i8; Emit And_i;","other NULL bits cleared","C54: other bits are unchanged"),
("access_null","if nullable ls i then","if negb (nullable ls i) then","NULL bits of attributes that cannot be NULL","C54: NULL bits"),
("access_bit","Const (VI 256); Emit Eq_i","Const (VI 128); Emit Eq_i","seven bits per byte","C54: booleans of a PAX block"),
("access_bit","Emit Cast_i_b; Load (Ptr i); Emit Add_p; Update (Ptr i); Emit Pop]","Load (Ptr i); Emit Add_p; Update (Ptr i); Emit Pop]","cast dropped (a boolean is added to the pointer: it reads as 1)","C54: harmless in the model: as_i of a boolean is the integer"),
("access_bit","[New (Mask i) (VI (2 ^ bit_offset))]","[New (Mask i) (VI 1)]","first row assumed at bit 0","C54: from any row on"),
("access_bytes","Const (VI byte_stride); Load (Ptr i); Emit Add_p; Update (Ptr i); Emit Pop]","Const (VI byte_stride); Load (Ptr i); Emit Add_p; Emit Pop]","pointer not written back","C54: next row"),
("access_bytes","(if can_be_null i then [Emit Sel] else [])","(if can_be_null i then [] else [])","loaded value without its NULL bit","C54: NULL loaded",{"occ":2}),
("access_leaf","(if st mod 8 =? 0 then access_bytes","(if st =? 0 then access_bytes","columns as bits","C54: next row"),
("access_leaf","let a := off + row * st in\n          access_null","let a := off in\n          access_null","loads from row 0 of the block","C54: from any row on"),
("access_node","accesses cs (base + (off / 8 + (row / n) * st / 8)) (row mod n)","accesses cs (base + (off / 8 + (row / n) * st / 8)) row","row not reduced","C54: rows in later blocks"),
("advance_null","Const (VI (n_num x)); Emit NE_i; Emit Dup; Emit Dup","Const (VI (n_num x + 1)); Emit NE_i; Emit Dup; Emit Dup","block one row longer","C54: NULL bits of rows in later blocks"),
("advance_null","Emit Cast_i_b; Load NullCtr; Emit Mul_i; Update NullCtr; Emit Pop]","Emit Pop]","counter not reset","C54: NULL bits of rows in later blocks"),
("advance_null","[Load NullOfs; Const (VI (n_stride x)); Emit Add_i; Update NullOfs; Emit Pop;","[Load NullOfs; Const (VI (n_stride x)); Emit Add_i; Emit Pop;","bit offset not advanced","C54: next row"),
("advance_null","NewLoad NullCtr (VI (n_row x))","NewLoad NullCtr (VI 0)","counter starts at 0","C54: from any row on"),
("sub64","(a - b) mod 2 ^ 64","(b - a) mod 2 ^ 64","remaining stride negated","C54: rows in later blocks"),
("reset_mask","Load (Ctr c); Const (VI n); Emit Eq_i; Const (VI 1); Load (Mask i); Emit Sel","Load (Ctr c); Const (VI n); Emit Eq_i; Load (Mask i); Const (VI 1); Emit Sel","mask reset in the wrong rows","C54: booleans in later blocks"),
("reset_null","[Load (Ctr c); Const (VI n); Emit NE_i; Emit Cast_i_b]","[Load (Ctr c); Const (VI n); Emit Eq_i; Emit Cast_i_b]","offset reset in the wrong rows","C54: NULL bits in later blocks"),
("advance_ptr","Const (VI n); Emit Eq_i; Emit Cast_i_b; Const (VI bytes); Emit Mul_i","Const (VI n); Emit NE_i; Emit Cast_i_b; Const (VI bytes); Emit Mul_i","jump in the wrong rows","C54: rows in later blocks"),
("jumps","let rem := sub64 st ((n / prev_num) * prev_stride) in","let rem := sub64 st (n * prev_stride) in","nested blocks counted as rows","C54: nested linearizations"),
("jumps","else (if Nat.eqb i (length ls) then reset_null c n else reset_mask i c n) ++ advance_ptr x c n (rem / 8 + 1)) ++","else (if Nat.eqb i (length ls) then reset_null c n else reset_mask i c n) ++ advance_ptr x c n (rem / 8)) ++","partial byte not skipped","C54: booleans in later blocks"),
("jumps","jumps i x n st r\n","[]\n","only the innermost level jumps","C54: nested linearizations"),
("stride_leaf","| Some _, true, _ => jumps i NullP 1 st lv","| Some _, true, _ => []","bitmap never jumps","C54: NULL bits in later blocks"),
("stride_node","[NewLoad (Ctr id) (VI (row mod n)); Emit Inc; Update (Ctr id); Emit Pop]","[NewLoad (Ctr id) (VI 0); Emit Inc; Update (Ctr id); Emit Pop]","block counter starts at 0","C54: from any row on"),
("stride_node","strides cs (row mod n) ((id, n, st) :: lv)","strides cs (row mod n) [(id, n, st)]","outer levels forgotten","C54: nested linearizations"),
("stride_node","else [Load (Ctr id); Const (VI n); Emit NE_i; Emit Cast_i_b; Load (Ctr id); Emit Mul_i]) ++","else [Load (Ctr id)]) ++","counter not reset","C54: rows in later blocks"),
("u8","Nat.modulo k 256","k","indices of any size","C54: refuted_many_columns"),
("assemble","| Const v => ([ILd (u8 (length c))], c ++ [(None, v)])","| Const v => ([ILd (u8 (length c))], (None, v) :: c)","constants in front","C54: context"),
("compile","if needs_null_bitmap ls ts then find_null (length ls) (root L) 0 base row else None","None","no NULL bitmap","C54: NULL bits"),
("compile_store","Definition compile_store := compile true.","Definition compile_store := compile false.","store loads","C54: store"),
]
dump('ls','LoadStore',only,L)
only2=['LoadStoreProps']
L=[
("attribute_leaves","(Z.of_N (Layout.lstride D i)) (attribute_leaves D r (S i) bitmap)","0 (attribute_leaves D r (S i) bitmap)","attributes without stride","C54: PAX tables"),
("bitmap_leaf","if remove_null then Nil else","if negb remove_null then Nil else","bitmap inverted","C54: NULL bits of tables"),
("tree","(Z.of_N (Layout.rows D))","1","one row per block","C54: PAX tables"),
]
dump('ly54','LoadStoreLayouts',only2,L)
