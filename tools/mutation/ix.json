[
 {
  "id": "ix1",
  "file": "Index",
  "definition": "bisect",
  "old": "bisect P f (middle + 1) (len - half - 1)",
  "new": "bisect P f (middle + 1) (len - half)",
  "edit": "right half one too long",
  "claim": "C16: bounds",
  "only": [
   "IndexFloat",
   "IndexProps"
  ]
 },
 {
  "id": "ix2",
  "file": "Index",
  "definition": "bisect",
  "old": "let half := len / 2 in",
  "new": "let half := (len + 1) / 2 in",
  "edit": "half rounds up",
  "claim": "C16: bounds (reads beyond the end)",
  "only": [
   "IndexFloat",
   "IndexProps"
  ]
 },
 {
  "id": "ix3",
  "file": "Index",
  "definition": "exp_right",
  "old": "else std_bound P prev (Z.min (curr + 1) last)",
  "new": "else std_bound P prev (Z.min curr last)",
  "edit": "upper end of the final binary search one too small",
  "claim": "C17 (harmless? curr itself fails the test)",
  "only": [
   "IndexFloat",
   "IndexProps"
  ]
 },
 {
  "id": "ix4",
  "file": "Index",
  "definition": "exp_right",
  "old": "else std_bound P prev (Z.min (curr + 1) last)",
  "new": "else std_bound P prev (curr + 1)",
  "edit": "final search not limited to the array",
  "claim": "C17: bounds",
  "only": [
   "IndexFloat",
   "IndexProps"
  ]
 },
 {
  "id": "ix5",
  "file": "Index",
  "definition": "exp_left",
  "old": "else std_bound P (Z.max 0 curr) prev",
  "new": "else std_bound P (Z.max 0 (curr + 1)) prev",
  "edit": "lower end one too large (curr passes the test)",
  "claim": "(harmless unless curr is 0 and not tested)",
  "only": [
   "IndexFloat",
   "IndexProps"
  ]
 },
 {
  "id": "ix6",
  "file": "Index",
  "definition": "exp_left",
  "old": "if (0 <? curr) && negb (P curr)",
  "new": "if (0 <? curr) && P curr",
  "edit": "test reversed",
  "claim": "C17: bounds",
  "only": [
   "IndexFloat",
   "IndexProps"
  ]
 },
 {
  "id": "ix7",
  "file": "Index",
  "definition": "exp_left",
  "old": "(curr - 2 * bound)",
  "new": "(curr + 2 * bound)",
  "edit": "moves the wrong way",
  "claim": "C17: bounds",
  "only": [
   "IndexFloat",
   "IndexProps"
  ]
 },
 {
  "id": "ix8",
  "file": "Index",
  "definition": "add",
  "old": "if cap <? num_entries ix + 1 then Throw",
  "new": "if cap <? num_entries ix then Throw",
  "edit": "capacity off by one",
  "claim": "C16: additions beyond the capacity are rejected",
  "only": [
   "IndexFloat",
   "IndexProps"
  ]
 },
 {
  "id": "ix9",
  "file": "Index",
  "definition": "add",
  "old": "(entries ix ++ [(k, v)]) false",
  "new": "(entries ix ++ [(k, v)]) (finalized ix)",
  "edit": "add keeps the index finalized",
  "claim": "C16: look-ups after a later add are rejected",
  "only": [
   "IndexFloat",
   "IndexProps"
  ]
 },
 {
  "id": "ix10",
  "file": "Index",
  "definition": "lower_bound",
  "old": "std_bound (fun i => lt (key_at (entries ix) i) k) 0",
  "new": "std_bound (fun i => negb (lt k (key_at (entries ix) i))) 0",
  "edit": "lower_bound computes the upper bound",
  "claim": "C16: bounds",
  "only": [
   "IndexFloat",
   "IndexProps"
  ]
 },
 {
  "id": "ix11",
  "file": "Index",
  "definition": "upper_bound",
  "old": "std_bound (fun i => negb (lt k (key_at (entries ix) i))) 0 (num_entries ix)",
  "new": "std_bound (fun i => negb (lt k (key_at (entries ix) i))) 0 (num_entries ix - 1)",
  "edit": "last entry not searched",
  "claim": "C16: bounds",
  "only": [
   "IndexFloat",
   "IndexProps"
  ]
 },
 {
  "id": "ix12",
  "file": "Index",
  "definition": "bulk_add",
  "old": "| None :: col' => bulk_add cap (id + 1) col' ix",
  "new": "| None :: col' => bulk_add cap id col' ix",
  "edit": "NULLs not counted in tuple ids",
  "claim": "C16: bulkload",
  "only": [
   "IndexFloat",
   "IndexProps"
  ]
 },
 {
  "id": "ix13",
  "file": "Index",
  "definition": "bulkload",
  "old": "Ok ix' => Ok (finalize sort ix')",
  "new": "Ok ix' => Ok ix'",
  "edit": "bulkload does not finalize",
  "claim": "C16: bulkload",
  "only": [
   "IndexFloat",
   "IndexProps"
  ]
 },
 {
  "id": "ix14",
  "file": "Index",
  "definition": "finalize",
  "old": "mkIndex (sort (entries ix)) true",
  "new": "mkIndex (entries ix) true",
  "edit": "finalize does not sort",
  "claim": "C16: sorted",
  "only": [
   "IndexFloat",
   "IndexProps"
  ]
 },
 {
  "id": "ix15",
  "file": "Index",
  "definition": "predict",
  "old": "f_to_size (f_clamp (eval m1 key) f_zero (f_ofZ n))",
  "new": "f_to_size (f_clamp (eval m1 key) f_zero (f_ofZ (n + 1)))",
  "edit": "prediction clamped one later",
  "claim": "C17: prediction at most one past the end",
  "only": [
   "IndexFloat",
   "IndexProps"
  ]
 },
 {
  "id": "ix16",
  "file": "Index",
  "definition": "rmi_upper_bound",
  "old": "upper_bound_exponential_search Z.ltb junk (entries (base r)) p key",
  "new": "lower_bound_exponential_search Z.ltb junk (entries (base r)) p key",
  "edit": "upper bound searches the lower bound",
  "claim": "C17: bounds",
  "only": [
   "IndexFloat",
   "IndexProps"
  ]
 },
 {
  "id": "ix17",
  "file": "Index",
  "definition": "rmi_finalize",
  "old": "let b := finalize sort (base r) in",
  "new": "let b := base r in",
  "edit": "finalize of the learned index does not sort",
  "claim": "C17: entries sorted and look-ups allowed",
  "only": [
   "IndexFloat",
   "IndexProps"
  ]
 }
]