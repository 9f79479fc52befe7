[
 {
  "id": "da1",
  "file": "Dates",
  "definition": "encode",
  "old": "(Z.shiftl (uint32 year) 9)",
  "new": "(Z.shiftl (uint32 year) 8)",
  "edit": "year shifted by 8",
  "claim": "C42: round trip",
  "only": [
   "DatesProps"
  ]
 },
 {
  "id": "da2",
  "file": "Dates",
  "definition": "encode",
  "old": "(Z.shiftl month 5)",
  "new": "(Z.shiftl month 4)",
  "edit": "month shifted by 4",
  "claim": "C42: round trip",
  "only": [
   "DatesProps"
  ]
 },
 {
  "id": "da3",
  "file": "Dates",
  "definition": "encode",
  "old": "uint32 (Z.shiftl (uint32 year) 9)",
  "new": "uint32 (Z.shiftl (Z.abs year) 9)",
  "edit": "sign of the year dropped",
  "claim": "C42: round trip / order",
  "only": [
   "DatesProps"
  ]
 },
 {
  "id": "da4",
  "file": "Dates",
  "definition": "encode",
  "old": "int32 (Z.lor",
  "new": "uint32 (Z.lor",
  "edit": "result unsigned",
  "claim": "C42: order of negative years",
  "only": [
   "DatesProps"
  ]
 },
 {
  "id": "da5",
  "file": "Dates",
  "definition": "year_of",
  "old": "Z.shiftr date 9",
  "new": "Z.shiftr date 8",
  "edit": "wrong shift",
  "claim": "C42: round trip",
  "only": [
   "DatesProps"
  ]
 },
 {
  "id": "da6",
  "file": "Dates",
  "definition": "year_of",
  "old": "Z.shiftr date 9",
  "new": "Z.shiftr (uint32 date) 9",
  "edit": "logical instead of arithmetic shift",
  "claim": "C42: negative years",
  "only": [
   "DatesProps"
  ]
 },
 {
  "id": "da7",
  "file": "Dates",
  "definition": "month_of",
  "old": "15",
  "new": "7",
  "edit": "mask too small",
  "claim": "C42: round trip",
  "only": [
   "DatesProps"
  ]
 },
 {
  "id": "da8",
  "file": "Dates",
  "definition": "month_of",
  "old": "(Z.shiftr date 5)",
  "new": "(Z.shiftr date 4)",
  "edit": "wrong shift",
  "claim": "C42: round trip",
  "only": [
   "DatesProps"
  ]
 },
 {
  "id": "da9",
  "file": "Dates",
  "definition": "day_of",
  "old": "31",
  "new": "15",
  "edit": "mask too small",
  "claim": "C42: round trip",
  "only": [
   "DatesProps"
  ]
 },
 {
  "id": "da10",
  "file": "Dates",
  "definition": "sema_accepts",
  "old": "negb (year =? 0) &&",
  "new": "",
  "edit": "year 0 accepted",
  "claim": "C42: validation",
  "only": [
   "DatesProps"
  ]
 },
 {
  "id": "da11",
  "file": "Dates",
  "definition": "sema_accepts",
  "old": "(month >? 12)",
  "new": "(month >? 13)",
  "edit": "month 13 accepted",
  "claim": "C42: validation",
  "only": [
   "DatesProps"
  ]
 },
 {
  "id": "da12",
  "file": "Dates",
  "definition": "sema_accepts",
  "old": "(month <? 1)",
  "new": "(month <? 0)",
  "edit": "month 0 accepted",
  "claim": "C42: validation",
  "only": [
   "DatesProps"
  ]
 },
 {
  "id": "da13",
  "file": "Dates",
  "definition": "sema_accepts",
  "old": "(day >? 29)",
  "new": "(day >? 28)",
  "edit": "February 29 refused",
  "claim": "C42: validation",
  "only": [
   "DatesProps"
  ]
 },
 {
  "id": "da14",
  "file": "Dates",
  "definition": "sema_accepts",
  "old": "|| (month =? 11)) && (day >? 30)",
  "new": ") && (day >? 30)",
  "edit": "November 31 accepted",
  "claim": "C42: validation",
  "only": [
   "DatesProps"
  ]
 },
 {
  "id": "da15",
  "file": "Dates",
  "definition": "sema_accepts",
  "old": "(day >? 31)",
  "new": "(day >? 30)",
  "edit": "31st refused",
  "claim": "C42: validation",
  "only": [
   "DatesProps"
  ]
 },
 {
  "id": "da16",
  "file": "Dates",
  "definition": "sema_accepts",
  "old": "(day <? 1) ||",
  "new": "false ||",
  "edit": "day 0 accepted",
  "claim": "C42: validation",
  "only": [
   "DatesProps"
  ]
 },
 {
  "id": "da17",
  "file": "Dates",
  "definition": "pad",
  "old": "repeat 48",
  "new": "repeat 32",
  "edit": "padded with blanks",
  "claim": "C42: printing",
  "only": [
   "DatesProps"
  ]
 },
 {
  "id": "da18",
  "file": "Dates",
  "definition": "put_int",
  "old": "pad (w - 1) (digits (- n))",
  "new": "pad w (digits (- n))",
  "edit": "sign not counted in the width",
  "claim": "C42: printing",
  "only": [
   "DatesProps"
  ]
 },
 {
  "id": "da19",
  "file": "Dates",
  "definition": "put_int",
  "old": "45 :: pad",
  "new": "43 :: pad",
  "edit": "wrong sign",
  "claim": "C42: printing",
  "only": [
   "DatesProps"
  ]
 },
 {
  "id": "da20",
  "file": "Dates",
  "definition": "print_date",
  "old": "then 4 else 5",
  "new": "then 4 else 4",
  "edit": "width of negative years",
  "claim": "C42: printing",
  "only": [
   "DatesProps"
  ]
 },
 {
  "id": "da21",
  "file": "Dates",
  "definition": "print_date",
  "old": "then 4 else 5",
  "new": "then 2 else 5",
  "edit": "two digit years",
  "claim": "C42: printing",
  "only": [
   "DatesProps"
  ]
 },
 {
  "id": "da22",
  "file": "Dates",
  "definition": "print_date",
  "old": "year_of date >? 0",
  "new": "year_of date >? 1000",
  "edit": "five digits for small years",
  "claim": "C42: printing",
  "only": [
   "DatesProps"
  ]
 },
 {
  "id": "da23",
  "file": "Dates",
  "definition": "print_date",
  "old": "[45] ++ put_int 2 (month_of date)",
  "new": "[45] ++ put_int 1 (month_of date)",
  "edit": "month not padded",
  "claim": "C42: printing",
  "only": [
   "DatesProps"
  ]
 },
 {
  "id": "da24",
  "file": "Dates",
  "definition": "print_date",
  "old": "[45] ++ put_int 2 (month_of date)",
  "new": "[47] ++ put_int 2 (month_of date)",
  "edit": "slash as separator",
  "claim": "C42: printing",
  "only": [
   "DatesProps"
  ]
 },
 {
  "id": "da25",
  "file": "Dates",
  "definition": "print_date",
  "old": "put_int 2 (month_of date) ++ [45] ++ put_int 2 (day_of date)",
  "new": "put_int 2 (day_of date) ++ [45] ++ put_int 2 (month_of date)",
  "edit": "day before month",
  "claim": "C42: printing",
  "only": [
   "DatesProps"
  ]
 },
 {
  "id": "da26",
  "file": "Dates",
  "definition": "scan_int",
  "old": "(- fst p, snd p)",
  "new": "(fst p, snd p)",
  "edit": "sign ignored",
  "claim": "C42: parsing",
  "only": [
   "DatesProps"
  ]
 },
 {
  "id": "da27",
  "file": "Dates",
  "definition": "scan_digits",
  "old": "acc * 10 + (c - 48)",
  "new": "acc * 8 + (c - 48)",
  "edit": "octal",
  "claim": "C42: parsing",
  "only": [
   "DatesProps"
  ]
 },
 {
  "id": "da28",
  "file": "Dates",
  "definition": "scan_date",
  "old": "Some (y, m, d)",
  "new": "Some (y, d, m)",
  "edit": "day and month swapped",
  "claim": "C42: parsing",
  "only": [
   "DatesProps"
  ]
 },
 {
  "id": "da29",
  "file": "Dates",
  "definition": "eval_date",
  "old": "encode y m d",
  "new": "encode y d m",
  "edit": "arguments swapped",
  "claim": "C42: parsing",
  "only": [
   "DatesProps"
  ]
 }
]