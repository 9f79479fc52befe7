(** * Machine words (64-bit unsigned) as [N] with explicit wrap-around.

    Models the C++ fundamental type [uint64_t] / [unsigned long] as used all over [/repo].  C++ unsigned arithmetic is
    arithmetic modulo 2^64 ([basic.fundamental]); shifts by >= 64 are undefined behaviour and are guarded where they
    can occur.  A well-formed word satisfies [W64 x], i.e. [x < 2^64]. *)
From Coq Require Import NArith List Bool Lia.
Import ListNotations.
Open Scope N_scope.

Definition WIDTH : N := 64.
Definition W64 (x : N) : Prop := x < 2 ^ 64.

(** wrap-around: reduction modulo 2^64 *)
Definition wrap (x : N) : N := x mod 2 ^ 64.
(** [a + b], [a - b], [-a] and [~a] on [uint64_t] *)
Definition add64 (a b : N) : N := wrap (a + b).
Definition sub64 (a b : N) : N := wrap (a + (2 ^ 64 - wrap b)).
Definition neg64 (a : N) : N := sub64 0 a.
Definition not64 (a : N) : N := N.lxor a (N.ones 64).
(** [a << n] for [n < 64] *)
Definition shl64 (a n : N) : N := wrap (N.shiftl a n).

(** [std::countr_zero] / [_tzcnt]: index of the lowest set bit; on 0 C++ returns 64. *)
Fixpoint pos_ctz (p : positive) : N :=
  match p with
  | xO p' => N.succ (pos_ctz p')
  | _ => 0
  end.
Definition ctz (x : N) : N := match x with N0 => 64 | Npos p => pos_ctz p end.

(** [std::countl_zero] on 64-bit words. *)
Definition clz (x : N) : N := match x with N0 => 64 | Npos _ => 63 - N.log2 x end.

(** [std::popcount]: number of one bits. *)
Fixpoint pos_popcount (p : positive) : N :=
  match p with
  | xH => 1
  | xO p' => pos_popcount p'
  | xI p' => N.succ (pos_popcount p')
  end.
Definition popcount (x : N) : N := match x with N0 => 0 | Npos p => pos_popcount p end.

(** ** Specification side: the set denoted by a word. *)

(** The indices below 64, in increasing order. *)
Definition idx64 : list N := map N.of_nat (seq 0 64).

(** The elements of the set denoted by [x], in increasing order (independent of any bit trick). *)
Definition elems (x : N) : list N := filter (N.testbit x) idx64.
