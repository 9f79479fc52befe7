(** * Model of the serial scheduler and of multi-versioning

    src/catalog/SerialScheduler.cpp (whole file), src/catalog/SerialScheduler.hpp, include/mutable/catalog/Scheduler.hpp 15-40
    (transactions), src/catalog/Schema.cpp 154-266 ([apply_timestamp_filter]), src/catalog/DatabaseCommand.cpp 127-183
    (the timestamps written by INSERT).

    Client threads push commands and close transactions; one worker thread executes commands.  Every critical section
    of the queue's mutex is one atomic step; the [notify] calls, which come after the unlock, are steps of their own.
    Commands are abstracted to three kinds: one that fails semantic analysis, an INSERT of rows and a query of the
    table.  A row has one visible integer attribute and the hidden attributes $ts_begin and $ts_end.
    Not modelled: the overflow of 64 bit transaction ids and start times; creation of the worker thread. *)
From Coq Require Import List Arith Lia Bool ZArith.
Import ListNotations.

Definition tx := nat.
Inductive cmd := Invalid (id : nat) | Insert (id : nat) (vs : list Z) | Query (id : nat).

Record row := mkRow { ts_begin : Z; ts_end : Z; value : Z }.

(** The worker thread is about to call [pop], asleep in [has_element_.wait], executing a command, or has returned. *)
Inductive worker := Ready | Asleep | Busy (t : tx) (c : cmd) | Terminated.

Record state := mkState {
  queue : list (tx * cmd);     (* command_list_ *)
  running : option tx;         (* running_transaction_ *)
  closed : bool;               (* closed_ *)
  wrk : worker;
  pending : nat;               (* notifications not yet delivered *)
  start : tx -> Z;             (* Transaction::start_time_ *)
  next_start_time : Z;
  rows : list row              (* the table *)
}.

(** SerialScheduler.hpp 24-31, SerialScheduler.cpp 91-92 (static storage: [running_transaction_] is null), Scheduler.hpp 21. *)
Definition init : state := mkState [] None false Ready 0 (fun _ => (-1)%Z) 0%Z [].

(** Events visible to clients: a command accepted, rejected, handed out for execution, completed (with its start time,
    promise value and the values a query returns), failed by [close]; a transaction closed (committed or aborted). *)
Inductive event :=
| EPush (t : tx) (c : cmd)
| EReject (t : tx) (c : cmd)
| EOut (t : tx) (c : cmd)
| EDone (t : tx) (c : cmd) (ts : Z) (ok : bool) (res : list Z)
| EFail (t : tx) (c : cmd)
| EStop (t : tx) (commit : bool).

Definition is_running (s : state) (t : tx) : bool :=
  match running s with Some u => u =? t | None => false end.

(** SerialScheduler.cpp 48-50: [std::find_if(command_list_.rend(), command_list_.rbegin(), pred)].  A reverse iterator is
    given by the index of its [base()]: [rend()] is 0, [rbegin()] is the length [n].  On a non-empty list the first
    dereferenced element is [*rend()], i.e. the list's sentinel node: undefined behaviour.  [sentinel] is what the
    comparison of that memory with [t] happens to yield; incrementing [rend()] leads (the list is circular) to
    [rbegin()], where the search ends. *)
Definition find_rend_rbegin (n : nat) (sentinel : bool) : nat :=
  if 0 =? n then 0 else if sentinel then 0 else n.

(** SerialScheduler.cpp 51-56: the position at which the command is inserted. *)
Definition enqueue (s : state) (t : tx) (c : cmd) (sentinel : bool) : list (tx * cmd) :=
  let n := length (queue s) in
  let it := find_rend_rbegin n sentinel in
  if is_running s t && (it =? 0) then (t, c) :: queue s
  else if it =? n then queue s ++ [(t, c)]
  else firstn (S it) (queue s) ++ (t, c) :: skipn (S it) (queue s).

(** SerialScheduler.cpp 12-26: the predicate [pop] waits for. *)
Definition pop_ready (s : state) : bool :=
  if closed s then true
  else match queue s with
       | [] => false
       | (t, _) :: _ => match running s with None => true | Some u => t =? u end
       end.

(** Schema.cpp 174-262: the filter [$ts_begin <= TST AND ($ts_end > TST OR $ts_end = -1)]. *)
Definition timestamp_filter (tst : Z) (r : row) : bool :=
  ((ts_begin r <=? tst) && ((ts_end r >? tst) || (ts_end r =? -1)))%Z.

(** SerialScheduler.cpp 141-142: the start time is assigned when the first command of the transaction is handed out. *)
Definition assign_start (s : state) (t : tx) : (tx -> Z) * Z :=
  if (start s t =? -1)%Z then (fun u => if u =? t then next_start_time s else start s u, (next_start_time s + 1)%Z)
  else (start s, next_start_time s).

(** What clients and the worker do. *)
Inductive action :=
| APush (t : tx) (c : cmd) (sentinel : bool)   (* push, lines 38-57 *)
| ANotify                                      (* delivery of a notification *)
| ASpurious                                    (* the worker wakes up without notification *)
| AWait                                        (* pop, line 12: the predicate is false, go to sleep *)
| APop                                         (* pop, lines 27-36, after the predicate held *)
| AExecute                                     (* schedule_thread, lines 140-163 *)
| AClose                                       (* close, lines 62-72 *)
| AStop (t : tx) (commit : bool).              (* commit/abort, lines 80-86, 117-128 *)

Definition step (s : state) (a : action) : option (state * list event) :=
  match a with
  | APush t c sentinel =>
      if closed s then Some (s, [EReject t c])
      else Some (mkState (enqueue s t c sentinel) (running s) (closed s) (wrk s) (S (pending s)) (start s)
                   (next_start_time s) (rows s), [EPush t c])
  | ANotify =>
      match pending s with
      | 0 => None
      | S p => Some (mkState (queue s) (running s) (closed s)
                       (match wrk s with Asleep => Ready | w => w end) p (start s) (next_start_time s) (rows s), [])
      end
  | ASpurious =>
      match wrk s with
      | Asleep => Some (mkState (queue s) (running s) (closed s) Ready (pending s) (start s) (next_start_time s) (rows s), [])
      | _ => None
      end
  | AWait =>
      match wrk s with
      | Ready => if pop_ready s then None
                 else Some (mkState (queue s) (running s) (closed s) Asleep (pending s) (start s) (next_start_time s) (rows s), [])
      | _ => None
      end
  | APop =>
      match wrk s with
      | Ready =>
          if pop_ready s then
            match queue s with
            | [] => Some (mkState [] (running s) (closed s) Terminated (pending s) (start s) (next_start_time s) (rows s), [])
            | (t, c) :: q =>
                Some (mkState q (match running s with None => Some t | Some u => Some u end) (closed s) (Busy t c)
                        (pending s) (fst (assign_start s t)) (snd (assign_start s t)) (rows s), [EOut t c])
            end
          else None
      | _ => None
      end
  | AExecute =>
      match wrk s with
      | Busy t c =>
          let tst := start s t in
          let w := if closed s then Terminated else Ready in
          match c with
          | Invalid _ =>
              Some (mkState (queue s) (running s) (closed s) w (pending s) (start s) (next_start_time s) (rows s),
                    [EDone t c tst false []])
          | Insert _ vs =>
              Some (mkState (queue s) (running s) (closed s) w (pending s) (start s) (next_start_time s)
                      (rows s ++ map (fun v => mkRow tst (-1)%Z v) vs), [EDone t c tst true []])
          | Query _ =>
              Some (mkState (queue s) (running s) (closed s) w (pending s) (start s) (next_start_time s) (rows s),
                    [EDone t c tst true (map value (filter (timestamp_filter tst) (rows s)))])
          end
      | _ => None
      end
  | AClose =>
      Some (mkState [] (running s) true (wrk s) (S (pending s)) (start s) (next_start_time s) (rows s),
            map (fun p => EFail (fst p) (snd p)) (queue s))
  | AStop t commit =>
      Some (mkState (queue s) None (closed s) (wrk s) (S (pending s)) (start s) (next_start_time s) (rows s), [EStop t commit])
  end.

(** Executions: [steps s0 acts tr s] when the actions lead from [s0] to [s] with the events [tr]. *)
Inductive steps (s0 : state) : list action -> list event -> state -> Prop :=
| steps_nil : steps s0 [] [] s0
| steps_snoc : forall acts tr s a s' ev,
    steps s0 acts tr s -> step s a = Some (s', ev) -> steps s0 (acts ++ [a]) (tr ++ ev) s'.

Definition exec := steps init.

(** Runs a list of actions (for examples). *)
Fixpoint run_actions (s : state) (tr : list event) (acts : list action) : option (state * list event) :=
  match acts with
  | [] => Some (s, tr)
  | a :: r => match step s a with
              | None => None
              | Some (s', ev) => run_actions s' (tr ++ ev) r
              end
  end.
