[
 {
  "id": "rw1",
  "file": "RWLock",
  "definition": "can_acquire_read_lock",
  "old": "&& (writers_waiting c =? 0)",
  "new": "",
  "edit": "readers overtake waiting writers",
  "claim": "C21: try_lock_read fails while a writer waits",
  "only": [
   "RWLockProps",
   "Pool",
   "PoolProps"
  ]
 },
 {
  "id": "rw2",
  "file": "RWLock",
  "definition": "can_acquire_read_lock",
  "old": "negb (reader_wants_upgrade c) && negb (writer_active c) &&",
  "new": "negb (reader_wants_upgrade c) &&",
  "edit": "readers enter while a writer is active",
  "claim": "C21: mutual exclusion",
  "only": [
   "RWLockProps",
   "Pool",
   "PoolProps"
  ]
 },
 {
  "id": "rw3",
  "file": "RWLock",
  "definition": "can_acquire_write_lock",
  "old": "negb (writer_active c) && (readers_active c =? 0).",
  "new": "negb (writer_active c).",
  "edit": "writer enters while readers are active",
  "claim": "C21: mutual exclusion",
  "only": [
   "RWLockProps",
   "Pool",
   "PoolProps"
  ]
 },
 {
  "id": "rw4",
  "file": "RWLock",
  "definition": "can_upgrade_lock",
  "old": "(readers_active c =? 1)",
  "new": "(readers_active c <=? 2)",
  "edit": "upgrade granted with another reader",
  "claim": "C21: upgrade alone",
  "only": [
   "RWLockProps",
   "Pool",
   "PoolProps"
  ]
 },
 {
  "id": "rw5",
  "file": "RWLock",
  "definition": "try_request_upgrade",
  "old": "if reader_wants_upgrade c then None else",
  "new": "",
  "edit": "two upgraders allowed",
  "claim": "C21: one upgrader",
  "only": [
   "RWLockProps",
   "Pool",
   "PoolProps"
  ]
 },
 {
  "id": "rw6",
  "file": "RWLock",
  "definition": "acquire_write_lock",
  "old": "(dec16 (writers_waiting c)) (readers_active c) true",
  "new": "(writers_waiting c) (readers_active c) true",
  "edit": "writer stays counted as waiting",
  "claim": "C21/C22: readers blocked although nobody waits",
  "only": [
   "RWLockProps",
   "Pool",
   "PoolProps"
  ]
 },
 {
  "id": "rw7",
  "file": "RWLock",
  "definition": "release_write_lock",
  "old": "(readers_active c) false (reader_wants_upgrade c)",
  "new": "(readers_active c) true (reader_wants_upgrade c)",
  "edit": "write lock never released",
  "claim": "C21: unlock",
  "only": [
   "RWLockProps",
   "Pool",
   "PoolProps"
  ]
 },
 {
  "id": "rw8",
  "file": "RWLock",
  "definition": "upgrade_lock",
  "old": "release_read_lock (set_wants false c)",
  "new": "release_read_lock c",
  "edit": "upgrade flag not cleared",
  "claim": "C21: later upgrades",
  "only": [
   "RWLockProps",
   "Pool",
   "PoolProps"
  ]
 },
 {
  "id": "rw9",
  "file": "RWLock",
  "definition": "step:TryRead",
  "old": "if can_acquire_read_lock c then or_fail (acquire_read_lock (request_read_lock c)) (fun c' => goto s t HoldR c' (Some true)) else Next s (Some false)",
  "new": "if can_acquire_read_lock c then or_fail (acquire_read_lock (request_read_lock c)) (fun c' => goto s t HoldR c' (Some true)) else goto s t Idle (request_read_lock c) (Some false)",
  "edit": "failed try leaves a request behind",
  "claim": "C21: failing try leaves the lock unchanged",
  "only": [
   "RWLockProps",
   "Pool",
   "PoolProps"
  ]
 },
 {
  "id": "rw10",
  "file": "RWLock",
  "definition": "step:UnlockRead",
  "old": "if reader_wants_upgrade c' && (readers_active c' =? 1) then goto s t PendW c' None\n        else",
  "new": "",
  "edit": "upgrader not notified when it is the last reader",
  "claim": "C22: upgrader not forgotten",
  "only": [
   "RWLockProps",
   "Pool",
   "PoolProps"
  ]
 },
 {
  "id": "rw11",
  "file": "RWLock",
  "definition": "step:UnlockRead",
  "old": "else if (readers_active c' =? 0) && negb (writers_waiting c' =? 0) then goto s t PendW c' None",
  "new": "",
  "edit": "writers not notified by the last reader",
  "claim": "C22: writers not forgotten",
  "only": [
   "RWLockProps",
   "Pool",
   "PoolProps"
  ]
 },
 {
  "id": "rw12",
  "file": "RWLock",
  "definition": "step:UnlockWrite",
  "old": "if negb (writers_waiting c' =? 0) then goto s t PendW c' None\n        else if",
  "new": "if",
  "edit": "writer does not notify waiting writers",
  "claim": "C22: writers not forgotten",
  "only": [
   "RWLockProps",
   "Pool",
   "PoolProps"
  ]
 },
 {
  "id": "rw13",
  "file": "RWLock",
  "definition": "step:UnlockWrite",
  "old": "else if negb (readers_waiting c' =? 0) then goto s t PendR c' None",
  "new": "",
  "edit": "writer does not notify waiting readers",
  "claim": "C22: readers not forgotten",
  "only": [
   "RWLockProps",
   "Pool",
   "PoolProps"
  ]
 },
 {
  "id": "rw14",
  "file": "RWLock",
  "definition": "step:NotifyR",
  "old": "Next (mkS (set_th (map (fun x => match x with WaitR => WakeR | y => y end) (th s)) t Idle) c) None",
  "new": "goto s t Idle c None",
  "edit": "notification of readers wakes nobody",
  "claim": "C22: readers not forgotten",
  "only": [
   "RWLockProps",
   "Pool",
   "PoolProps"
  ]
 },
 {
  "id": "rw15",
  "file": "RWLock",
  "definition": "enter_read",
  "old": "if can_acquire_read_lock c then or_fail (acquire_read_lock c) (fun c' => goto s t HoldR c' None) else",
  "new": "",
  "edit": "lock_read always blocks",
  "claim": "C21: lock_read acquires a free lock",
  "only": [
   "RWLockProps",
   "Pool",
   "PoolProps"
  ]
 },
 {
  "id": "rw16",
  "file": "RWLock",
  "definition": "enter_upgrade",
  "old": "| Some true => or_fail (upgrade_lock c) (fun c' => goto s t HoldW c' (Some true))",
  "new": "| Some true => or_fail (upgrade_lock c) (fun c' => goto s t HoldR c' (Some true))",
  "edit": "upgrade keeps the thread a reader",
  "claim": "C21: upgrade",
  "only": [
   "RWLockProps",
   "Pool",
   "PoolProps"
  ]
 }
]