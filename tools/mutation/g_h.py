from gen import dump
dump('ly','Layout.v',['LayoutProps','LayoutExact'],[
("CHAR","(8 * n) 8","n 8","length in bytes as bits","C27: CHAR slots"),
("VARCHAR","(n + 1)","n","no room for the terminating NUL","C27: VARCHAR slots"),
("DATETIME","64 64","64 32","alignment of DATE","C27: alignment"),
("sort_insert","talign (ty types x) <? talign (ty types y)","talign (ty types y) <? talign (ty types x)","ascending order","C27: aligned"),
("compute_attribute_order","if reorder then","if negb reorder then","inverted","C27: aligned"),
("row_offsets","(off + tsize (ty types i))","(off + talign (ty types i))","advances by the alignment","C27: no overlap"),
("row_offsets","(N.max al (talign (ty types i)))","(talign (ty types i))","alignment of the last attribute","C27: aligned"),
("row_offsets","(N.max al (talign (ty types i)))","al","byte alignment","C27: aligned"),
("pad","x + (al - rem)","x + rem","wrong padding","C27: inside row, byte"),
("pad","if rem =? 0 then x else","","pads full rows by a whole alignment","C27: compact"),
("row_layout","if remove_null then off else off + N.of_nat n","off","no room for the NULL bits","C27: no overlap"),
("row_layout","if remove_null then off else off + N.of_nat n","off + N.of_nat n","NULL bits although removed","C27: compact"),
("row_layout","set offs n off","set offs n (off + 1)","NULL bitmap one bit further","C27: no overlap"),
("size_in_bytes","(tsize t + 7) / 8","tsize t / 8","rounds down: BOOL has size 0","C28: exists"),
("min_size_in_bytes","N.min m","N.max m","largest","C28: geometry"),
("num_not_byte_aligned","negb (tsize t mod 8 =? 0)","tsize t mod 8 =? 0","inverted","C28: inside block"),
("floor_lanes","if lanes <? r then","if r <? lanes then","inverted: 0 rows","C28: no overlap"),
("floor_lanes","(r / lanes) * lanes","r / lanes","number of groups instead of rows","C28: geometry"),
("column_offsets","(offs i * R + padding)","(offs i + padding)","offset not scaled","C28: no overlap"),
("column_offsets","if bit =? 0 then padding else padding + (8 - bit)","padding","no padding to bytes","C28: byte columns"),
("column_offsets","padding + (8 - bit)","(8 - bit)","forgets the earlier padding","C28: no overlap"),
("pax_rows","(k * 7)","k","wrong slack","C28: inside block"),
("pax_rows","N.max 1 (sub64 (b * 8) (k * 7) / row)","sub64 (b * 8) (k * 7) / row","no minimum of one row","C28: rows per block"),
("pax_rows","(row + b * 8 - 1) / (b * 8)","row / (b * 8)","blocks per row rounded down","C28: inside block"),
("pax_rows","(row + b * 8 - 1) / (b * 8)","1","one block per row","C28: inside block"),
("pax_rows","if less && (1 <? r1) then r1 - 1 else r1","r1","less ignored","C28: geometry"),
("pax_rows","if less && (1 <? r1) then r1 - 1 else r1","if less then r1 - 1 else r1","possibly no rows","C28: rows per block"),
("pax_layout","N.max p 8","p","small bitmaps","C28: geometry"),
("pax_layout","(Arith.ceil_to_pow_2 64 (N.of_nat n))","(Some (N.of_nat n))","no power of two","C28: geometry"),
("pax_layout","16 / m","16","lanes for bytes","C28: geometry"),
("pax_layout","off * R + padding","off * R","padding of the columns ignored","C28: no overlap"),
("pax_layout","pad (offn + nb * R) al","pad (offn + nb) al","one NULL bitmap per block","C28: inside block"),
("pax_layout","NBytes b => b * 8 end","NBytes b => b end","bytes as bits","C28: inside block"),
("pax_layout","if Nat.eqb i n then nb else tsize (ty types i)","tsize (ty types i)","stride of the bitmap","C28: no overlap"),
("address","r / rows L","r","block of the row","C28: no overlap"),
("address","r mod rows L","r","row in block","C28: inside block"),
("address","lin_id * block L / 8","lin_id * block L","bits as bytes","C27: inside row"),
("address","inner * lstride L i","inner * lstride L 0%nat","stride of the first attribute","C28: no overlap"),
("append","num_rows s =? capacity s","false","no check of the capacity","C29: rows"),
("append","num_rows s =? capacity s","true","always full","C29: rows"),
("drop","num_rows s =? 0","num_rows s =? 1","cannot drop the last row","C29: drop"),
("make_row_store","alloc / (size / 8)","alloc / size","bits as bytes","C29: row store capacity"),
("make_row_store","(off + N.of_nat n)","off","no NULL bits","C29: row store"),
("make_row_store","stable_sort types (seq 0 n)","seq 0 n","not sorted","C29: aligned, equals layout"),
("pax_offsets","if bit =? 0 then running else w32 (running + (8 - bit))","running","no padding","C29: pax store (byte columns)"),
("make_pax_store","(num_not_byte_aligned types * 7)","0","no slack","C29: pax store"),
("make_pax_store","(alloc / block_size) * R","alloc / block_size","one row per block","C29: pax store capacity"),
("make_pax_store","w32 (w32 off * R + running)","w32 (w32 off * R)","padding ignored","C29: pax store"),
("make_column_store","alloc * (n + 1)","alloc * n","no column for the bitmap","C29: column store"),
("make_column_store","N.max m nb","m","bitmap column may overflow","C29: column store"),
("make_column_store","N.max m (tsize t)","N.min m (tsize t)","smallest","C29: column store"),
("make_column_store","alloc * 8 / N.max m nb","alloc / N.max m nb","bytes as bits","C29: column store capacity"),
("column","8 * (alloc * N.of_nat i)","alloc * N.of_nat i","bytes as bits","C29: column store"),
])
