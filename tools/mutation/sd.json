[
 {
  "id": "sd1",
  "file": "Scheduler",
  "definition": "enqueue",
  "old": "else if it =? n then queue s ++ [(t, c)]",
  "new": "else if it =? n then (t, c) :: queue s",
  "edit": "pushes to the front",
  "claim": "C25: order",
  "only": [
   "SchedulerProps"
  ]
 },
 {
  "id": "sd2",
  "file": "Scheduler",
  "definition": "enqueue",
  "old": "if is_running s t && (it =? 0)",
  "new": "if is_running s t",
  "edit": "running transaction overtakes",
  "claim": "C25: order within a transaction",
  "only": [
   "SchedulerProps"
  ]
 },
 {
  "id": "sd3",
  "file": "Scheduler",
  "definition": "pop_ready",
  "old": "t =? u",
  "new": "true",
  "edit": "other transactions interleave",
  "claim": "C25: isolation",
  "only": [
   "SchedulerProps"
  ]
 },
 {
  "id": "sd4",
  "file": "Scheduler",
  "definition": "pop_ready",
  "old": "if closed s then true",
  "new": "if closed s then false",
  "edit": "worker sleeps although closed",
  "claim": "C25: termination",
  "only": [
   "SchedulerProps"
  ]
 },
 {
  "id": "sd5",
  "file": "Scheduler",
  "definition": "pop_ready",
  "old": "None => true | Some u",
  "new": "None => false | Some u",
  "edit": "nothing is ever handed out",
  "claim": "C25: progress",
  "only": [
   "SchedulerProps"
  ]
 },
 {
  "id": "sd6",
  "file": "Scheduler",
  "definition": "timestamp_filter",
  "old": "(ts_begin r <=? tst)",
  "new": "(ts_begin r <? tst)",
  "edit": "own writes invisible",
  "claim": "C26: snapshot",
  "only": [
   "SchedulerProps"
  ]
 },
 {
  "id": "sd7",
  "file": "Scheduler",
  "definition": "timestamp_filter",
  "old": "(ts_end r >? tst)",
  "new": "(ts_end r >=? tst)",
  "edit": "rows deleted now visible",
  "claim": "C26: row versions",
  "only": [
   "SchedulerProps"
  ]
 },
 {
  "id": "sd8",
  "file": "Scheduler",
  "definition": "timestamp_filter",
  "old": "|| (ts_end r =? -1)",
  "new": "",
  "edit": "rows without end invisible",
  "claim": "C26: snapshot",
  "only": [
   "SchedulerProps"
  ]
 },
 {
  "id": "sd9",
  "file": "Scheduler",
  "definition": "assign_start",
  "old": "(next_start_time s + 1)%Z",
  "new": "next_start_time s",
  "edit": "start times repeat",
  "claim": "C26: start times",
  "only": [
   "SchedulerProps"
  ]
 },
 {
  "id": "sd10",
  "file": "Scheduler",
  "definition": "assign_start",
  "old": "if (start s t =? -1)%Z then",
  "new": "if true then",
  "edit": "new start time for each command",
  "claim": "C26: start times",
  "only": [
   "SchedulerProps"
  ]
 },
 {
  "id": "sd11",
  "file": "Scheduler",
  "definition": "step",
  "old": "if closed s then Some (s, [EReject t c])",
  "new": "if false then Some (s, [EReject t c])",
  "edit": "accepts commands after close",
  "claim": "C25: closed",
  "only": [
   "SchedulerProps"
  ]
 },
 {
  "id": "sd12",
  "file": "Scheduler",
  "definition": "step",
  "old": "(enqueue s t c sentinel) (running s) (closed s) (wrk s) (S (pending s))",
  "new": "(enqueue s t c sentinel) (running s) (closed s) (wrk s) (pending s)",
  "edit": "push does not notify",
  "claim": "C25: wake-up",
  "only": [
   "SchedulerProps"
  ]
 },
 {
  "id": "sd13",
  "file": "Scheduler",
  "definition": "step",
  "old": "Some (mkState (queue s) None (closed s) (wrk s) (S (pending s))",
  "new": "Some (mkState (queue s) None (closed s) (wrk s) (pending s)",
  "edit": "commit does not notify",
  "claim": "C25: wake-up",
  "only": [
   "SchedulerProps"
  ]
 },
 {
  "id": "sd14",
  "file": "Scheduler",
  "definition": "step",
  "old": "Some (mkState (queue s) None (closed s) (wrk s) (S (pending s))",
  "new": "Some (mkState (queue s) (running s) (closed s) (wrk s) (S (pending s))",
  "edit": "commit does not end the transaction",
  "claim": "C25: other transactions can proceed",
  "only": [
   "SchedulerProps"
  ]
 },
 {
  "id": "sd15",
  "file": "Scheduler",
  "definition": "step",
  "old": "(match running s with None => Some t | Some u => Some u end)",
  "new": "(running s)",
  "edit": "transaction not opened",
  "claim": "C25: isolation",
  "only": [
   "SchedulerProps"
  ]
 },
 {
  "id": "sd16",
  "file": "Scheduler",
  "definition": "step",
  "old": "(match wrk s with Asleep => Ready | w => w end) p",
  "new": "(wrk s) p",
  "edit": "notification ignored",
  "claim": "C25: wake-up",
  "only": [
   "SchedulerProps"
  ]
 },
 {
  "id": "sd17",
  "file": "Scheduler",
  "definition": "step",
  "old": "Some (mkState [] (running s) true (wrk s) (S (pending s))",
  "new": "Some (mkState [] (running s) true (wrk s) (pending s)",
  "edit": "close does not notify",
  "claim": "C25: wake-up",
  "only": [
   "SchedulerProps"
  ]
 },
 {
  "id": "sd18",
  "file": "Scheduler",
  "definition": "step",
  "old": "map (fun p => EFail (fst p) (snd p)) (queue s)",
  "new": "@nil event",
  "edit": "queued commands forgotten",
  "claim": "C25: close",
  "only": [
   "SchedulerProps"
  ]
 },
 {
  "id": "sd19",
  "file": "Scheduler",
  "definition": "step",
  "old": "Some (mkState [] (running s) true",
  "new": "Some (mkState (queue s) (running s) true",
  "edit": "queue kept",
  "claim": "C25: close",
  "only": [
   "SchedulerProps"
  ]
 },
 {
  "id": "sd20",
  "file": "Scheduler",
  "definition": "step",
  "old": "[EDone t c tst false []]",
  "new": "[EDone t c tst true []]",
  "edit": "invalid commands succeed",
  "claim": "C25: results",
  "only": [
   "SchedulerProps"
  ]
 },
 {
  "id": "sd21",
  "file": "Scheduler",
  "definition": "step",
  "old": "(rows s ++ map (fun v => mkRow tst (-1)%Z v) vs), [EDone t c tst true []]",
  "new": "(rows s ++ map (fun v => mkRow tst tst v) vs), [EDone t c tst true []]",
  "edit": "row ended at once",
  "claim": "C26: snapshot",
  "only": [
   "SchedulerProps"
  ]
 },
 {
  "id": "sd22",
  "file": "Scheduler",
  "definition": "step",
  "old": "(rows s ++ map (fun v => mkRow tst (-1)%Z v) vs), [EDone t c tst true []]",
  "new": "(map (fun v => mkRow tst (-1)%Z v) vs), [EDone t c tst true []]",
  "edit": "earlier rows lost",
  "claim": "C26: snapshot",
  "only": [
   "SchedulerProps"
  ]
 },
 {
  "id": "sd23",
  "file": "Scheduler",
  "definition": "step",
  "old": "Some (mkState q (match running",
  "new": "Some (mkState (queue s) (match running",
  "edit": "command stays in the queue",
  "claim": "C25: exactly once",
  "only": [
   "SchedulerProps"
  ]
 }
]