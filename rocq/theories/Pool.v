(** * Model of the thread-safe interning pool, include/mutable/util/Pool.hpp, on top of the reader-writer lock model.

    Values are a type [V] with decidable equality [eqb] ([KeyEqual]).  The table ([std::unordered_map<T, counter>], line 26) never
    erases entries (the call of [erase] in [~Pooled] is commented out, lines 245-252), so an entry is identified by its position in
    insertion order, which stands for its address.  Hashing and buckets of the standard container are not modelled.  The counter is
    a [std::atomic<uint32_t>], its increments and decrements are atomic and wrap modulo 2^32. *)
From Coq Require Import List Bool ZArith.
From Verif Require Import RWLock.
Import ListNotations.
Local Open Scope Z_scope.

Section Pool.
Context {V : Type} (eqb : V -> V -> bool).

(** Program counter of a thread inside [operator()], lines 336-359. *)
Inductive pc :=
| PIdle                      (** not inside a call *)
| PFind (u : V)              (** called [lock.lock_read()], line 345; once it holds the lock it executes [find], line 346 *)
| PUp (u : V)                (** not found, about to call [lock.upgrade()], line 349 *)
| PBack (u : V)              (** [reader_writer_mutex::upgrade] failed, about to [unlock()], reader_writer_lock.hpp 292-299 *)
| PRetry (u : V)             (** unlocking done, about to loop to line 345 *)
| PIns (u : V)               (** upgrade requested (waiting), or granted: about to [emplace_hint], line 351 *)
| PRelR (u : V) (i : nat)    (** returning entry [i], the lock's destructor is about to release the read lock *)
| PRelW (u : V) (i : nat)    (** the same for the write lock *)
| PRet (u : V) (i : nat).    (** lock released *)

(** [live] lists the handles owned by user code (a handle under construction inside [operator()] is not yet among them). *)
Record pstate := mkP { lk : state; tab : list (V * Z); pcs : list pc; live : list nat }.
Definition pinit (n : nat) : pstate := mkP (init n) [] (repeat PIdle n) [].

(** [unordered_map::find] *)
Fixpoint find_from (k : nat) (l : list (V * Z)) (u : V) : option nat :=
  match l with [] => None | (v, _) :: l' => if eqb v u then Some k else find_from (S k) l' u end.
Definition find (l : list (V * Z)) (u : V) : option nat := find_from 0 l u.
(** [unordered_map::emplace_hint(it, u, 0)]: inserts unless the key is present. *)
Definition emplace (l : list (V * Z)) (u : V) : list (V * Z) * nat :=
  match find l u with Some i => (l, i) | None => (l ++ [(u, 0)], length l) end.
(** [++ref_->second] / [--ref_->second], lines 180-187, 245-252 *)
Fixpoint bump (l : list (V * Z)) (i : nat) (d : Z) : list (V * Z) :=
  match l, i with
  | [], _ => []
  | (v, c) :: l', O => (v, (c + d) mod 4294967296) :: l'
  | p :: l', S i' => p :: bump l' i' d
  end.
Fixpoint set_pc (l : list pc) (i : nat) (x : pc) : list pc :=
  match l, i with [], _ => [] | _ :: l', O => x :: l' | y :: l', S i' => y :: set_pc l' i' x end.
Fixpoint remove_one (i : nat) (l : list nat) : list nat :=
  match l with [] => [] | j :: l' => if Nat.eqb j i then l' else j :: remove_one i l' end.

(** Actions of the lock that a blocked or notifying thread performs. *)
Definition internal (a : action) : bool := match a with Recheck | Spurious | NotifyR | NotifyW _ => true | _ => false end.

Inductive event := Tau (a : option action) | Call (t : nat) (u : V) | Ret (t : nat) (u : V) (i : nat).

Inductive pstep (p : pstate) : event -> pstate -> Prop :=
| ps_call t u s' o : nth_error (pcs p) t = Some PIdle -> step (lk p) t LockRead = Next s' o ->
    pstep p (Call t u) (mkP s' (tab p) (set_pc (pcs p) t (PFind u)) (live p))
| ps_lock t a s' o : internal a = true -> step (lk p) t a = Next s' o ->
    pstep p (Tau (Some a)) (mkP s' (tab p) (pcs p) (live p))
| ps_found t u i : nth_error (pcs p) t = Some (PFind u) -> nth_error (th (lk p)) t = Some HoldR -> find (tab p) u = Some i ->
    pstep p (Tau None) (mkP (lk p) (bump (tab p) i 1) (set_pc (pcs p) t (PRelR u i)) (live p))                  (* lines 346-348 *)
| ps_absent t u : nth_error (pcs p) t = Some (PFind u) -> nth_error (th (lk p)) t = Some HoldR -> find (tab p) u = None ->
    pstep p (Tau None) (mkP (lk p) (tab p) (set_pc (pcs p) t (PUp u)) (live p))
| ps_upgrade t u s' o : nth_error (pcs p) t = Some (PUp u) -> step (lk p) t Upgrade = Next s' o ->
    pstep p (Tau None) (mkP s' (tab p) (set_pc (pcs p) t (match o with Some false => PBack u | _ => PIns u end)) (live p))  (* line 349 *)
| ps_back t u s' o : nth_error (pcs p) t = Some (PBack u) -> step (lk p) t UnlockRead = Next s' o ->
    pstep p (Tau None) (mkP s' (tab p) (set_pc (pcs p) t (PRetry u)) (live p))
| ps_retry t u s' o : nth_error (pcs p) t = Some (PRetry u) -> step (lk p) t LockRead = Next s' o ->
    pstep p (Tau None) (mkP s' (tab p) (set_pc (pcs p) t (PFind u)) (live p))
| ps_insert t u tb i : nth_error (pcs p) t = Some (PIns u) -> nth_error (th (lk p)) t = Some HoldW -> emplace (tab p) u = (tb, i) ->
    pstep p (Tau None) (mkP (lk p) (bump tb i 1) (set_pc (pcs p) t (PRelW u i)) (live p))                       (* lines 350-352 *)
| ps_relR t u i s' o : nth_error (pcs p) t = Some (PRelR u i) -> step (lk p) t UnlockRead = Next s' o ->
    pstep p (Tau None) (mkP s' (tab p) (set_pc (pcs p) t (PRet u i)) (live p))
| ps_relW t u i s' o : nth_error (pcs p) t = Some (PRelW u i) -> step (lk p) t UnlockWrite = Next s' o ->
    pstep p (Tau None) (mkP s' (tab p) (set_pc (pcs p) t (PRet u i)) (live p))
| ps_ret t u i : nth_error (pcs p) t = Some (PRet u i) -> nth_error (th (lk p)) t = Some Idle ->
    pstep p (Ret t u i) (mkP (lk p) (tab p) (set_pc (pcs p) t PIdle) (i :: live p))
| ps_copy i : In i (live p) -> pstep p (Tau None) (mkP (lk p) (bump (tab p) i 1) (pcs p) (i :: live p))              (* copying a handle, line 191 *)
| ps_destroy i : In i (live p) -> pstep p (Tau None) (mkP (lk p) (bump (tab p) i (-1)) (pcs p) (remove_one i (live p))).  (* lines 245-252 *)

(** All executions of [n] threads, with the trace of calls and returns. *)
Inductive preach (n : nat) : pstate -> list event -> Prop :=
| pr_init : preach n (pinit n) []
| pr_step p tr e p' : preach n p tr -> pstep p e p' -> preach n p' (e :: tr).
End Pool.
Arguments pc : clear implicits.
Arguments pstate : clear implicits.
Arguments event : clear implicits.
