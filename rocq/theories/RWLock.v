(** * Model of include/mutable/util/reader_writer_lock.hpp as a labelled transition system.

    Granularity: one action per critical section of [mutex_] (each method body runs under [std::unique_lock lock{mutex_}]), plus
    one action for each condition-variable notification, which the code issues after [lock.unlock()], plus wake-ups.  The four
    [uint16_t] counters wrap.  A thread is in exactly one of the states below. *)
From Coq Require Import List Bool ZArith.
Import ListNotations.
Local Open Scope Z_scope.

Inductive ts :=
| Idle | HoldR | HoldW
| WaitR | WakeR      (** blocked in [cv_readers_.wait] / notified, about to re-check the predicate *)
| WaitW | WakeW      (** the same for [cv_writers_.wait] in [lock_write] *)
| WaitU | WakeU      (** the same for [cv_writers_.wait] in [upgrade]; the thread still holds its read lock *)
| PendR | PendW.     (** has unlocked, is about to call [notify_readers] / [notify_writer] *)

(** [reader_writer_mutex_internal], lines 18-36 *)
Record counters := mkC { readers_waiting : Z; writers_waiting : Z; readers_active : Z; writer_active : bool; reader_wants_upgrade : bool }.
Record state := mkS { th : list ts; rw : counters }.
Definition init (n : nat) : state := mkS (repeat Idle n) (mkC 0 0 0 false false).

Definition inc16 (x : Z) : Z := (x + 1) mod 65536.
Definition dec16 (x : Z) : Z := (x - 1) mod 65536.

(** [None] is a failed [M_insist]. *)
Definition request_read_lock (c : counters) := mkC (inc16 (readers_waiting c)) (writers_waiting c) (readers_active c) (writer_active c) (reader_wants_upgrade c).      (* line 41 *)
Definition request_write_lock (c : counters) := mkC (readers_waiting c) (inc16 (writers_waiting c)) (readers_active c) (writer_active c) (reader_wants_upgrade c).     (* line 43 *)
Definition set_wants (b : bool) (c : counters) := mkC (readers_waiting c) (writers_waiting c) (readers_active c) (writer_active c) b.
Definition try_request_upgrade (c : counters) : option counters :=                                                                                     (* lines 51-56 *)
  if reader_wants_upgrade c then None else Some (request_write_lock (set_wants true c)).
Definition can_acquire_read_lock (c : counters) : bool := negb (reader_wants_upgrade c) && negb (writer_active c) && (writers_waiting c =? 0).            (* lines 59-61 *)
Definition can_acquire_write_lock (c : counters) : bool := negb (writer_active c) && (readers_active c =? 0).                                          (* line 63 *)
Definition can_upgrade_lock (c : counters) : option bool :=                                                                                            (* lines 65-69 *)
  if reader_wants_upgrade c && (0 <? writers_waiting c) then Some (negb (writer_active c) && (readers_active c =? 1)) else None.
Definition acquire_read_lock (c : counters) : option counters :=                                                                                       (* lines 72-77 *)
  if can_acquire_read_lock c && (0 <? readers_waiting c) then
    Some (mkC (dec16 (readers_waiting c)) (writers_waiting c) (inc16 (readers_active c)) (writer_active c) (reader_wants_upgrade c)) else None.
Definition acquire_write_lock (c : counters) : option counters :=                                                                                      (* lines 79-84 *)
  if can_acquire_write_lock c && (0 <? writers_waiting c) then
    Some (mkC (readers_waiting c) (dec16 (writers_waiting c)) (readers_active c) true (reader_wants_upgrade c)) else None.
Definition release_read_lock (c : counters) : option counters :=                                                                                       (* lines 87-91 *)
  if (0 <? readers_active c) && negb (writer_active c) then
    Some (mkC (readers_waiting c) (writers_waiting c) (dec16 (readers_active c)) (writer_active c) (reader_wants_upgrade c)) else None.
Definition release_write_lock (c : counters) : option counters :=                                                                                      (* lines 94-98 *)
  if writer_active c && (readers_active c =? 0) then
    Some (mkC (readers_waiting c) (writers_waiting c) (readers_active c) false (reader_wants_upgrade c)) else None.
Definition upgrade_lock (c : counters) : option counters :=                                                                                            (* lines 101-107 *)
  match can_upgrade_lock c with
  | Some true =>
      match release_read_lock (set_wants false c) with
      | None => None
      | Some c1 => match acquire_write_lock c1 with Some c2 => if readers_active c2 =? 0 then Some c2 else None | None => None end
      end
  | _ => None
  end.

Inductive action :=
| LockRead | LockWrite | TryRead | TryWrite | Upgrade | UnlockRead | UnlockWrite    (** calls, made by thread [t] *)
| Recheck                        (** a woken thread re-acquires [mutex_] and re-checks its predicate *)
| Spurious                       (** spurious wake-up *)
| NotifyR                        (** [cv_readers_.notify_all()] *)
| NotifyW (w : option nat).      (** [cv_writers_.notify_one()] waking thread [w]; [None] if nobody waits *)

Inductive result := NotEnabled | AssertFail | Next (s : state) (out : option bool).

Fixpoint set_th (l : list ts) (i : nat) (x : ts) : list ts :=
  match l, i with [], _ => [] | _ :: l', O => x :: l' | y :: l', S i' => y :: set_th l' i' x end.
Definition goto (s : state) (t : nat) (x : ts) (c : counters) (out : option bool) : result := Next (mkS (set_th (th s) t x) c) out.
Definition or_fail (o : option counters) (k : counters -> result) : result := match o with None => AssertFail | Some c => k c end.

(** The predicate check of [cv.wait(lock, pred)] followed by the acquisition, or blocking. *)
Definition enter_read (s : state) (t : nat) (c : counters) : result :=                 (* lines 143-149 *)
  if can_acquire_read_lock c then or_fail (acquire_read_lock c) (fun c' => goto s t HoldR c' None) else goto s t WaitR c None.
Definition enter_write (s : state) (t : nat) (c : counters) : result :=                (* lines 152-158 *)
  if can_acquire_write_lock c then or_fail (acquire_write_lock c) (fun c' => goto s t HoldW c' None) else goto s t WaitW c None.
Definition enter_upgrade (s : state) (t : nat) (c : counters) : result :=              (* lines 198-203 *)
  match can_upgrade_lock c with
  | None => AssertFail
  | Some true => or_fail (upgrade_lock c) (fun c' => goto s t HoldW c' (Some true))
  | Some false => goto s t WaitU c None
  end.
Definition waits_write (x : ts) : bool := match x with WaitW | WaitU => true | _ => false end.
Definition wake (x : ts) : ts := match x with WaitR => WakeR | WaitW => WakeW | WaitU => WakeU | y => y end.

Definition step (s : state) (t : nat) (a : action) : result :=
  let c := rw s in
  match nth_error (th s) t, a with
  | Some Idle, LockRead => enter_read s t (request_read_lock c)
  | Some Idle, LockWrite => enter_write s t (request_write_lock c)
  | Some Idle, TryRead =>                                                               (* lines 161-168 *)
      if can_acquire_read_lock c then or_fail (acquire_read_lock (request_read_lock c)) (fun c' => goto s t HoldR c' (Some true)) else Next s (Some false)
  | Some Idle, TryWrite =>                                                              (* lines 171-178 *)
      if can_acquire_write_lock c then or_fail (acquire_write_lock (request_write_lock c)) (fun c' => goto s t HoldW c' (Some true)) else Next s (Some false)
  | Some HoldR, Upgrade =>                                                              (* lines 193-204 *)
      match try_request_upgrade c with None => Next s (Some false) | Some c' => enter_upgrade s t c' end
  | Some WakeR, Recheck => enter_read s t c
  | Some WakeW, Recheck => enter_write s t c
  | Some WakeU, Recheck => enter_upgrade s t c
  | Some HoldR, UnlockRead =>                                                           (* lines 206-221 *)
      or_fail (release_read_lock c) (fun c' =>
        if reader_wants_upgrade c' && (writers_waiting c' =? 0) then AssertFail else
        if reader_wants_upgrade c' && (readers_active c' =? 1) then goto s t PendW c' None
        else if (readers_active c' =? 0) && negb (writers_waiting c' =? 0) then goto s t PendW c' None
        else goto s t Idle c' None)
  | Some HoldW, UnlockWrite =>                                                          (* lines 223-237 *)
      if negb (readers_active c =? 0) then AssertFail else
      or_fail (release_write_lock c) (fun c' =>
        if negb (writers_waiting c' =? 0) then goto s t PendW c' None
        else if negb (readers_waiting c' =? 0) then goto s t PendR c' None
        else goto s t Idle c' None)
  | Some WaitR, Spurious => goto s t WakeR c None
  | Some WaitW, Spurious => goto s t WakeW c None
  | Some WaitU, Spurious => goto s t WakeU c None
  | Some PendR, NotifyR =>
      Next (mkS (set_th (map (fun x => match x with WaitR => WakeR | y => y end) (th s)) t Idle) c) None
  | Some PendW, NotifyW (Some w) =>
      match nth_error (th s) w with
      | Some x => if waits_write x then Next (mkS (set_th (set_th (th s) w (wake x)) t Idle) c) None else NotEnabled
      | None => NotEnabled
      end
  | Some PendW, NotifyW None => if existsb waits_write (th s) then NotEnabled else goto s t Idle c None
  | _, _ => NotEnabled
  end.

(** Reachability: any schedule of [n] threads.  [lw] tells whether [lock_write] may be called. *)
Inductive reach (lw : bool) (n : nat) : state -> Prop :=
| reach_init : reach lw n (init n)
| reach_step s t a s' o : reach lw n s -> (lw = false -> a <> LockWrite) -> step s t a = Next s' o -> reach lw n s'.
