[
 {
  "id": "ly1",
  "file": "Layout",
  "definition": "CHAR",
  "old": "(8 * n) 8",
  "new": "n 8",
  "edit": "length in bytes as bits",
  "claim": "C27: CHAR slots",
  "only": [
   "LayoutProps",
   "LayoutExact"
  ]
 },
 {
  "id": "ly2",
  "file": "Layout",
  "definition": "VARCHAR",
  "old": "(n + 1)",
  "new": "n",
  "edit": "no room for the terminating NUL",
  "claim": "C27: VARCHAR slots",
  "only": [
   "LayoutProps",
   "LayoutExact"
  ]
 },
 {
  "id": "ly3",
  "file": "Layout",
  "definition": "DATETIME",
  "old": "64 64",
  "new": "64 32",
  "edit": "alignment of DATE",
  "claim": "C27: alignment",
  "only": [
   "LayoutProps",
   "LayoutExact"
  ]
 },
 {
  "id": "ly4",
  "file": "Layout",
  "definition": "sort_insert",
  "old": "talign (ty types x) <? talign (ty types y)",
  "new": "talign (ty types y) <? talign (ty types x)",
  "edit": "ascending order",
  "claim": "C27: aligned",
  "only": [
   "LayoutProps",
   "LayoutExact"
  ]
 },
 {
  "id": "ly5",
  "file": "Layout",
  "definition": "compute_attribute_order",
  "old": "if reorder then",
  "new": "if negb reorder then",
  "edit": "inverted",
  "claim": "C27: aligned",
  "only": [
   "LayoutProps",
   "LayoutExact"
  ]
 },
 {
  "id": "ly6",
  "file": "Layout",
  "definition": "row_offsets",
  "old": "(off + tsize (ty types i))",
  "new": "(off + talign (ty types i))",
  "edit": "advances by the alignment",
  "claim": "C27: no overlap",
  "only": [
   "LayoutProps",
   "LayoutExact"
  ]
 },
 {
  "id": "ly7",
  "file": "Layout",
  "definition": "row_offsets",
  "old": "(N.max al (talign (ty types i)))",
  "new": "(talign (ty types i))",
  "edit": "alignment of the last attribute",
  "claim": "C27: aligned",
  "only": [
   "LayoutProps",
   "LayoutExact"
  ]
 },
 {
  "id": "ly8",
  "file": "Layout",
  "definition": "row_offsets",
  "old": "(N.max al (talign (ty types i)))",
  "new": "al",
  "edit": "byte alignment",
  "claim": "C27: aligned",
  "only": [
   "LayoutProps",
   "LayoutExact"
  ]
 },
 {
  "id": "ly9",
  "file": "Layout",
  "definition": "pad",
  "old": "x + (al - rem)",
  "new": "x + rem",
  "edit": "wrong padding",
  "claim": "C27: inside row, byte",
  "only": [
   "LayoutProps",
   "LayoutExact"
  ]
 },
 {
  "id": "ly10",
  "file": "Layout",
  "definition": "pad",
  "old": "if rem =? 0 then x else",
  "new": "",
  "edit": "pads full rows by a whole alignment",
  "claim": "C27: compact",
  "only": [
   "LayoutProps",
   "LayoutExact"
  ]
 },
 {
  "id": "ly11",
  "file": "Layout",
  "definition": "row_layout",
  "old": "if remove_null then off else off + N.of_nat n",
  "new": "off",
  "edit": "no room for the NULL bits",
  "claim": "C27: no overlap",
  "only": [
   "LayoutProps",
   "LayoutExact"
  ]
 },
 {
  "id": "ly12",
  "file": "Layout",
  "definition": "row_layout",
  "old": "if remove_null then off else off + N.of_nat n",
  "new": "off + N.of_nat n",
  "edit": "NULL bits although removed",
  "claim": "C27: compact",
  "only": [
   "LayoutProps",
   "LayoutExact"
  ]
 },
 {
  "id": "ly13",
  "file": "Layout",
  "definition": "row_layout",
  "old": "set offs n off",
  "new": "set offs n (off + 1)",
  "edit": "NULL bitmap one bit further",
  "claim": "C27: no overlap",
  "only": [
   "LayoutProps",
   "LayoutExact"
  ]
 },
 {
  "id": "ly14",
  "file": "Layout",
  "definition": "size_in_bytes",
  "old": "(tsize t + 7) / 8",
  "new": "tsize t / 8",
  "edit": "rounds down: BOOL has size 0",
  "claim": "C28: exists",
  "only": [
   "LayoutProps",
   "LayoutExact"
  ]
 },
 {
  "id": "ly15",
  "file": "Layout",
  "definition": "min_size_in_bytes",
  "old": "N.min m",
  "new": "N.max m",
  "edit": "largest",
  "claim": "C28: geometry",
  "only": [
   "LayoutProps",
   "LayoutExact"
  ]
 },
 {
  "id": "ly16",
  "file": "Layout",
  "definition": "num_not_byte_aligned",
  "old": "negb (tsize t mod 8 =? 0)",
  "new": "tsize t mod 8 =? 0",
  "edit": "inverted",
  "claim": "C28: inside block",
  "only": [
   "LayoutProps",
   "LayoutExact"
  ]
 },
 {
  "id": "ly17",
  "file": "Layout",
  "definition": "floor_lanes",
  "old": "if lanes <? r then",
  "new": "if r <? lanes then",
  "edit": "inverted: 0 rows",
  "claim": "C28: no overlap",
  "only": [
   "LayoutProps",
   "LayoutExact"
  ]
 },
 {
  "id": "ly18",
  "file": "Layout",
  "definition": "floor_lanes",
  "old": "(r / lanes) * lanes",
  "new": "r / lanes",
  "edit": "number of groups instead of rows",
  "claim": "C28: geometry",
  "only": [
   "LayoutProps",
   "LayoutExact"
  ]
 },
 {
  "id": "ly19",
  "file": "Layout",
  "definition": "column_offsets",
  "old": "(offs i * R + padding)",
  "new": "(offs i + padding)",
  "edit": "offset not scaled",
  "claim": "C28: no overlap",
  "only": [
   "LayoutProps",
   "LayoutExact"
  ]
 },
 {
  "id": "ly20",
  "file": "Layout",
  "definition": "column_offsets",
  "old": "if bit =? 0 then padding else padding + (8 - bit)",
  "new": "padding",
  "edit": "no padding to bytes",
  "claim": "C28: byte columns",
  "only": [
   "LayoutProps",
   "LayoutExact"
  ]
 },
 {
  "id": "ly21",
  "file": "Layout",
  "definition": "column_offsets",
  "old": "padding + (8 - bit)",
  "new": "(8 - bit)",
  "edit": "forgets the earlier padding",
  "claim": "C28: no overlap",
  "only": [
   "LayoutProps",
   "LayoutExact"
  ]
 },
 {
  "id": "ly22",
  "file": "Layout",
  "definition": "pax_rows",
  "old": "(k * 7)",
  "new": "k",
  "edit": "wrong slack",
  "claim": "C28: inside block",
  "only": [
   "LayoutProps",
   "LayoutExact"
  ]
 },
 {
  "id": "ly23",
  "file": "Layout",
  "definition": "pax_rows",
  "old": "N.max 1 (sub64 (b * 8) (k * 7) / row)",
  "new": "sub64 (b * 8) (k * 7) / row",
  "edit": "no minimum of one row",
  "claim": "C28: rows per block",
  "only": [
   "LayoutProps",
   "LayoutExact"
  ]
 },
 {
  "id": "ly24",
  "file": "Layout",
  "definition": "pax_rows",
  "old": "(row + b * 8 - 1) / (b * 8)",
  "new": "row / (b * 8)",
  "edit": "blocks per row rounded down",
  "claim": "C28: inside block",
  "only": [
   "LayoutProps",
   "LayoutExact"
  ]
 },
 {
  "id": "ly25",
  "file": "Layout",
  "definition": "pax_rows",
  "old": "(row + b * 8 - 1) / (b * 8)",
  "new": "1",
  "edit": "one block per row",
  "claim": "C28: inside block",
  "only": [
   "LayoutProps",
   "LayoutExact"
  ]
 },
 {
  "id": "ly26",
  "file": "Layout",
  "definition": "pax_rows",
  "old": "if less && (1 <? r1) then r1 - 1 else r1",
  "new": "r1",
  "edit": "less ignored",
  "claim": "C28: geometry",
  "only": [
   "LayoutProps",
   "LayoutExact"
  ]
 },
 {
  "id": "ly27",
  "file": "Layout",
  "definition": "pax_rows",
  "old": "if less && (1 <? r1) then r1 - 1 else r1",
  "new": "if less then r1 - 1 else r1",
  "edit": "possibly no rows",
  "claim": "C28: rows per block",
  "only": [
   "LayoutProps",
   "LayoutExact"
  ]
 },
 {
  "id": "ly28",
  "file": "Layout",
  "definition": "pax_layout",
  "old": "N.max p 8",
  "new": "p",
  "edit": "small bitmaps",
  "claim": "C28: geometry",
  "only": [
   "LayoutProps",
   "LayoutExact"
  ]
 },
 {
  "id": "ly29",
  "file": "Layout",
  "definition": "pax_layout",
  "old": "(Arith.ceil_to_pow_2 64 (N.of_nat n))",
  "new": "(Some (N.of_nat n))",
  "edit": "no power of two",
  "claim": "C28: geometry",
  "only": [
   "LayoutProps",
   "LayoutExact"
  ]
 },
 {
  "id": "ly30",
  "file": "Layout",
  "definition": "pax_layout",
  "old": "16 / m",
  "new": "16",
  "edit": "lanes for bytes",
  "claim": "C28: geometry",
  "only": [
   "LayoutProps",
   "LayoutExact"
  ]
 },
 {
  "id": "ly31",
  "file": "Layout",
  "definition": "pax_layout",
  "old": "off * R + padding",
  "new": "off * R",
  "edit": "padding of the columns ignored",
  "claim": "C28: no overlap",
  "only": [
   "LayoutProps",
   "LayoutExact"
  ]
 },
 {
  "id": "ly32",
  "file": "Layout",
  "definition": "pax_layout",
  "old": "pad (offn + nb * R) al",
  "new": "pad (offn + nb) al",
  "edit": "one NULL bitmap per block",
  "claim": "C28: inside block",
  "only": [
   "LayoutProps",
   "LayoutExact"
  ]
 },
 {
  "id": "ly33",
  "file": "Layout",
  "definition": "pax_layout",
  "old": "NBytes b => b * 8 end",
  "new": "NBytes b => b end",
  "edit": "bytes as bits",
  "claim": "C28: inside block",
  "only": [
   "LayoutProps",
   "LayoutExact"
  ]
 },
 {
  "id": "ly34",
  "file": "Layout",
  "definition": "pax_layout",
  "old": "if Nat.eqb i n then nb else tsize (ty types i)",
  "new": "tsize (ty types i)",
  "edit": "stride of the bitmap",
  "claim": "C28: no overlap",
  "only": [
   "LayoutProps",
   "LayoutExact"
  ]
 },
 {
  "id": "ly35",
  "file": "Layout",
  "definition": "address",
  "old": "r / rows L",
  "new": "r",
  "edit": "block of the row",
  "claim": "C28: no overlap",
  "only": [
   "LayoutProps",
   "LayoutExact"
  ]
 },
 {
  "id": "ly36",
  "file": "Layout",
  "definition": "address",
  "old": "r mod rows L",
  "new": "r",
  "edit": "row in block",
  "claim": "C28: inside block",
  "only": [
   "LayoutProps",
   "LayoutExact"
  ]
 },
 {
  "id": "ly37",
  "file": "Layout",
  "definition": "address",
  "old": "lin_id * block L / 8",
  "new": "lin_id * block L",
  "edit": "bits as bytes",
  "claim": "C27: inside row",
  "only": [
   "LayoutProps",
   "LayoutExact"
  ]
 },
 {
  "id": "ly38",
  "file": "Layout",
  "definition": "address",
  "old": "inner * lstride L i",
  "new": "inner * lstride L 0%nat",
  "edit": "stride of the first attribute",
  "claim": "C28: no overlap",
  "only": [
   "LayoutProps",
   "LayoutExact"
  ]
 },
 {
  "id": "ly39",
  "file": "Layout",
  "definition": "append",
  "old": "num_rows s =? capacity s",
  "new": "false",
  "edit": "no check of the capacity",
  "claim": "C29: rows",
  "only": [
   "LayoutProps",
   "LayoutExact"
  ]
 },
 {
  "id": "ly40",
  "file": "Layout",
  "definition": "append",
  "old": "num_rows s =? capacity s",
  "new": "true",
  "edit": "always full",
  "claim": "C29: rows",
  "only": [
   "LayoutProps",
   "LayoutExact"
  ]
 },
 {
  "id": "ly41",
  "file": "Layout",
  "definition": "drop",
  "old": "num_rows s =? 0",
  "new": "num_rows s =? 1",
  "edit": "cannot drop the last row",
  "claim": "C29: drop",
  "only": [
   "LayoutProps",
   "LayoutExact"
  ]
 },
 {
  "id": "ly42",
  "file": "Layout",
  "definition": "make_row_store",
  "old": "alloc / (size / 8)",
  "new": "alloc / size",
  "edit": "bits as bytes",
  "claim": "C29: row store capacity",
  "only": [
   "LayoutProps",
   "LayoutExact"
  ]
 },
 {
  "id": "ly43",
  "file": "Layout",
  "definition": "make_row_store",
  "old": "(off + N.of_nat n)",
  "new": "off",
  "edit": "no NULL bits",
  "claim": "C29: row store",
  "only": [
   "LayoutProps",
   "LayoutExact"
  ]
 },
 {
  "id": "ly44",
  "file": "Layout",
  "definition": "make_row_store",
  "old": "stable_sort types (seq 0 n)",
  "new": "seq 0 n",
  "edit": "not sorted",
  "claim": "C29: aligned, equals layout",
  "only": [
   "LayoutProps",
   "LayoutExact"
  ]
 },
 {
  "id": "ly45",
  "file": "Layout",
  "definition": "pax_offsets",
  "old": "if bit =? 0 then running else w32 (running + (8 - bit))",
  "new": "running",
  "edit": "no padding",
  "claim": "C29: pax store (byte columns)",
  "only": [
   "LayoutProps",
   "LayoutExact"
  ]
 },
 {
  "id": "ly46",
  "file": "Layout",
  "definition": "make_pax_store",
  "old": "(num_not_byte_aligned types * 7)",
  "new": "0",
  "edit": "no slack",
  "claim": "C29: pax store",
  "only": [
   "LayoutProps",
   "LayoutExact"
  ]
 },
 {
  "id": "ly47",
  "file": "Layout",
  "definition": "make_pax_store",
  "old": "(alloc / block_size) * R",
  "new": "alloc / block_size",
  "edit": "one row per block",
  "claim": "C29: pax store capacity",
  "only": [
   "LayoutProps",
   "LayoutExact"
  ]
 },
 {
  "id": "ly48",
  "file": "Layout",
  "definition": "make_pax_store",
  "old": "w32 (w32 off * R + running)",
  "new": "w32 (w32 off * R)",
  "edit": "padding ignored",
  "claim": "C29: pax store",
  "only": [
   "LayoutProps",
   "LayoutExact"
  ]
 },
 {
  "id": "ly49",
  "file": "Layout",
  "definition": "make_column_store",
  "old": "alloc * (n + 1)",
  "new": "alloc * n",
  "edit": "no column for the bitmap",
  "claim": "C29: column store",
  "only": [
   "LayoutProps",
   "LayoutExact"
  ]
 },
 {
  "id": "ly50",
  "file": "Layout",
  "definition": "make_column_store",
  "old": "N.max m nb",
  "new": "m",
  "edit": "bitmap column may overflow",
  "claim": "C29: column store",
  "only": [
   "LayoutProps",
   "LayoutExact"
  ]
 },
 {
  "id": "ly51",
  "file": "Layout",
  "definition": "make_column_store",
  "old": "N.max m (tsize t)",
  "new": "N.min m (tsize t)",
  "edit": "smallest",
  "claim": "C29: column store",
  "only": [
   "LayoutProps",
   "LayoutExact"
  ]
 },
 {
  "id": "ly52",
  "file": "Layout",
  "definition": "make_column_store",
  "old": "alloc * 8 / N.max m nb",
  "new": "alloc / N.max m nb",
  "edit": "bytes as bits",
  "claim": "C29: column store capacity",
  "only": [
   "LayoutProps",
   "LayoutExact"
  ]
 },
 {
  "id": "ly53",
  "file": "Layout",
  "definition": "column",
  "old": "8 * (alloc * N.of_nat i)",
  "new": "alloc * N.of_nat i",
  "edit": "bytes as bits",
  "claim": "C29: column store",
  "only": [
   "LayoutProps",
   "LayoutExact"
  ]
 }
]