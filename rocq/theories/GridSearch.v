(** * Grid search (src/util/GridSearch.hpp)

    [LinearSpace<T>] for integral [T], [LinearSpace<double>] and
    [GridSearch<Spaces...>::search].

    Floating-point numbers are modelled as real numbers, every operation being followed by the rounding
    of the current rounding mode to 53 bits (Flocq's [FLX] format: precision 53, no bound on the exponent; the
    values that occur lie far inside the range of [double], subnormal steps aside). *)
From Coq Require Import List Arith ZArith NArith Reals Bool.
From Flocq Require Import Core.
Import ListNotations.

Section search.
  (** Parameters of the callback may have different types; [V] is their union. *)
  Variable V : Type.

  (** GridSearch.hpp 18-45 ([Space]): the part of a space that the search uses. *)
  Record space := mkspace { num_steps : nat;  at_ : nat -> V }.

  (** [counters[idx] = v] *)
  Fixpoint set_nth (i : nat) (v : nat) (l : list nat) : list nat :=
    match l, i with
    | [], _ => []
    | _ :: r, O => v :: r
    | x :: r, S j => x :: set_nth j v r
    end.

  (** GridSearch.hpp 195-202: the inner [while] loop and [++counters[idx]]; [None]: [goto finished]. *)
  Fixpoint advance (steps : list nat) (counters : list nat) (idx : nat) : option (list nat) :=
    if Nat.eqb (nth idx counters 0) (nth idx steps 0) then
      match idx with
      | O => None
      | S idx' => advance steps (set_nth idx 0 counters) idx'
      end
    else Some (set_nth idx (S (nth idx counters 0)) counters).

  (** GridSearch.hpp 171-176 ([make_args]) *)
  Fixpoint make_args (spaces : list space) (counters : list nat) : list V :=
    match spaces, counters with
    | s :: spaces', c :: counters' => at_ s c :: make_args spaces' counters'
    | _, _ => []
    end.

  (** GridSearch.hpp 190-204: the loop; the result is the list of the arguments of the calls of the callback.
      [fuel] bounds the number of iterations; [None] if it does not suffice. *)
  Fixpoint search_loop (fuel : nat) (spaces : list space) (steps counters : list nat) : option (list (list V)) :=
    match fuel with
    | O => None
    | S fuel' =>
        let call := make_args spaces counters in
        match advance steps counters (length spaces - 1) with
        | None => Some [call]
        | Some counters' =>
            match search_loop fuel' spaces steps counters' with
            | Some calls => Some (call :: calls)
            | None => None
            end
        end
    end.

  (** GridSearch.hpp 181-205 ([search]).  [NUM_SPACES > 0] (for an empty pack, [counters[NUM_SPACES - 1]] is
      outside of the array; [None] here as well). *)
  Definition search (fuel : nat) (spaces : list space) : option (list (list V)) :=
    match spaces with
    | [] => None
    | _ => search_loop fuel spaces (map num_steps spaces) (map (fun _ => 0) spaces)
    end.

End search.
Arguments mkspace {V}. Arguments num_steps {V}. Arguments at_ {V}.
Arguments make_args {V}. Arguments search_loop {V}. Arguments search {V}.

(** GridSearch.hpp 149-153 ([num_points]): the product is computed in [unsigned] (32 bits) and converted to
    [std::size_t] afterwards. *)
Definition num_points (steps : list N) : N :=
  fold_right (fun s acc => ((((s + 1) mod 2 ^ 32) * acc) mod 2 ^ 32)%N) 1%N steps.

(** GridSearch.hpp 114-122 ([sequence]): [i] is an [unsigned]; [None] if [fuel] iterations do not suffice. *)
Fixpoint sequence_loop {V} (fuel : nat) (at_ : N -> V) (num_steps i : N) : option (list V) :=
  match fuel with
  | O => None
  | S fuel' =>
      if (i <=? num_steps)%N then
        match sequence_loop fuel' at_ num_steps ((i + 1) mod 2 ^ 32)%N with
        | Some l => Some (at_ i :: l)
        | None => None
        end
      else Some []
  end.
Definition sequence {V} (fuel : nat) (at_ : N -> V) (num_steps : N) : option (list V) :=
  sequence_loop fuel at_ num_steps 0%N.

(** ** Linear spaces *)

(** Rounding towards zero ([FE_TOWARDZERO]) and to nearest, ties to even (the default) to a [double] *)
Definition RZ (x : R) : R := round radix2 (FLX_exp 53) Ztrunc x.
Definition RN (x : R) : R := round radix2 (FLX_exp 53) ZnearestE x.

(** [std::round]: to the nearest integer, halves away from zero *)
Definition std_round (x : R) : Z := ZnearestA x.

(** Integral types: [bits] bits, [sgn]ed or not; conversion to the type (modulo [2^bits]). *)
Record int_type := mkint { bits : Z; sgn : bool }.
Definition to_unsigned (t : int_type) (z : Z) : Z := (z mod 2 ^ bits t)%Z.
Definition convert (t : int_type) (z : Z) : Z :=
  let u := (z mod 2 ^ bits t)%Z in
  if sgn t && (2 ^ (bits t - 1) <=? u)%Z then (u - 2 ^ bits t)%Z else u.

(** A [LinearSpace<T>] for integral [T] (GridSearch.hpp 48-63) *)
Record linear_space := mklinear { lo : Z; hi : Z; steps : Z; step : R; ascending : bool }.

(** GridSearch.hpp 66-78: the constructor; [None]: an exception.  The conversions to [double], the subtraction
    and the division all happen in the mode [FE_TOWARDZERO]. *)
Definition make_linear (lowest highest num_steps : Z) (is_ascending : bool) : option linear_space :=
  if (highest <? lowest)%Z then None
  else if (num_steps =? 0)%Z then None
  else Some (mklinear lowest highest num_steps
               (RZ (RZ (RZ (IZR highest) - RZ (IZR lowest)) / IZR num_steps)) is_ascending).

(** GridSearch.hpp 96-105 ([at] for integral [T]); [None]: [std::out_of_range].  [n * step()] is computed in the
    default rounding mode.  (The conversion of [std::round(...)] to the unsigned type is undefined outside of
    its range; see C60_delta_in_range.) *)
Definition delta_at (S : linear_space) (n : Z) : Z := std_round (RN (IZR n * step S)).
Definition at_int (t : int_type) (S : linear_space) (n : Z) : option Z :=
  if (steps S <? n)%Z then None
  else
    let delta := to_unsigned t (delta_at S n) in
    if ascending S then Some (convert t (lo S + delta)) else Some (convert t (hi S - delta)).

(** A [LinearSpace<double>] *)
Record linear_space_fp := mklinear_fp { flo : R; fhi : R; fsteps : Z; fstep : R; fascending : bool }.
Definition make_linear_fp (lowest highest : R) (num_steps : Z) (is_ascending : bool) : option linear_space_fp :=
  if Rlt_bool highest lowest then None
  else if (num_steps =? 0)%Z then None
  else Some (mklinear_fp lowest highest num_steps (RZ (RZ (highest - lowest) / IZR num_steps)) is_ascending).

(** [std::clamp(v, lo, hi)] *)
Definition clamp (v l h : R) : R := if Rlt_bool v l then l else if Rlt_bool h v then h else v.

(** GridSearch.hpp 96-98, 105-110 ([at] for [double]) *)
Definition at_fp (S : linear_space_fp) (n : Z) : option R :=
  if (fsteps S <? n)%Z then None
  else if fascending S then Some (clamp (RN (flo S + RN (IZR n * fstep S))) (flo S) (fhi S))
  else Some (clamp (RN (fhi S - RN (IZR n * fstep S))) (flo S) (fhi S)).
