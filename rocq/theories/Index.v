(** * Model of the indexes: include/mutable/storage/Index.hpp and src/storage/Index.cpp.

    [ArrayIndex] keeps its entries in one array which [finalize] sorts; [RecursiveModelIndex] additionally predicts a position
    with two layers of linear models and corrects the prediction by exponential search.  Keys are any type [K] with the
    comparator [lt] ([cmp], Index.hpp:75-90).  Iterators are indices relative to [begin()], as [Z], because the exponential
    search moves its pointer below [begin()].  Memory beyond the last entry holds an unspecified key [junk] (fresh memory:
    all-zero bytes). *)
From Coq Require Import List Bool ZArith Lia.
From Coq.Floats Require Import SpecFloat.
Import ListNotations.
Local Open Scope Z_scope.

(** [std::lower_bound]/[std::upper_bound]: the library's bisection over [first, first+len), abstracted over the test [P]
    that sends the search to the right ([comp( *middle, val)], resp. [not comp(val, *middle)]).  [None]: out of fuel. *)
Fixpoint bisect (P : Z -> bool) (fuel : nat) (first len : Z) : option Z :=
  match fuel with
  | O => None
  | S f =>
      if 0 <? len then
        let half := len / 2 in
        let middle := first + half in
        if P middle then bisect P f (middle + 1) (len - half - 1) else bisect P f first half
      else Some first
  end.
Definition std_bound (P : Z -> bool) (first last : Z) : option Z := bisect P (S (Z.to_nat (last - first))) first (last - first).

(** The loops of [lower_bound_exponential_search]/[upper_bound_exponential_search], Index.hpp:283-333.  Both functions are the
    same code up to the test: [cmp( *p, value)] for lower, [not cmp(value, *p)] for upper. *)
Fixpoint exp_right (P : Z -> bool) (last : Z) (fuel : nat) (bound prev curr : Z) : option Z :=
  match fuel with
  | O => None
  | S f =>
      if (curr <? last) && P curr then exp_right P last f (2 * bound) curr (curr + 2 * bound)
      else std_bound P prev (Z.min (curr + 1) last)
  end.
Fixpoint exp_left (P : Z -> bool) (fuel : nat) (bound prev curr : Z) : option Z :=
  match fuel with
  | O => None
  | S f =>
      if (0 <? curr) && negb (P curr) then exp_left P f (2 * bound) curr (curr - 2 * bound)
      else std_bound P (Z.max 0 curr) prev
  end.
Definition exp_search (P : Z -> bool) (n pred : Z) : option Z :=
  if P pred then exp_right P n (S (Z.to_nat n)) 1 pred (pred + 1)
  else exp_left P (S (Z.to_nat n)) 1 pred (pred - 1).

Section Index.
  Context {K : Type}.
  Variable lt : K -> K -> bool.
  Variable junk : K.
  Local Notation entry := (K * Z)%type.

  (** What dereferencing [begin() + i] yields. *)
  Definition key_at (es : list entry) (i : Z) : K := nth (Z.to_nat i) (map fst es) junk.

  (** ** ArrayIndex, Index.hpp:57-161 *)
  Record index := mkIndex { entries : list entry; finalized : bool }.
  (** [ArrayIndex()], Index.cpp:53-56 *)
  Definition empty_index : index := mkIndex [] false.
  Definition num_entries (ix : index) : Z := Z.of_nat (length (entries ix)).

  Inductive outcome (A : Type) := Ok (a : A) | Throw.
  Global Arguments Ok {A} a.
  Global Arguments Throw {A}.

  (** [add], Index.cpp:146-160; [cap] is [memory_.size() / sizeof(entry_type)]. *)
  Definition add (cap : Z) (k : K) (v : Z) (ix : index) : outcome index :=
    if cap <? num_entries ix + 1 then Throw else Ok (mkIndex (entries ix ++ [(k, v)]) false).

  (** [finalize], Index.hpp:119-122; [sort] is [std::sort] with [cmp]. *)
  Definition finalize (sort : list entry -> list entry) (ix : index) : index := mkIndex (sort (entries ix)) true.

  (** [lower_bound], Index.hpp:130-133; [upper_bound], Index.hpp:138-141. *)
  Definition lower_bound (ix : index) (k : K) : outcome (option Z) :=
    if finalized ix then Ok (std_bound (fun i => lt (key_at (entries ix) i) k) 0 (num_entries ix)) else Throw.
  Definition upper_bound (ix : index) (k : K) : outcome (option Z) :=
    if finalized ix then Ok (std_bound (fun i => negb (lt k (key_at (entries ix) i))) 0 (num_entries ix)) else Throw.

  (** The callback of [bulkload], Index.cpp:119-126: NULLs are skipped, tuple ids count all tuples; then [finalize]
      (Index.cpp:140).  The query execution delivering the column is not modelled. *)
  Fixpoint bulk_add (cap : Z) (id : Z) (col : list (option K)) (ix : index) : outcome index :=
    match col with
    | [] => Ok ix
    | None :: col' => bulk_add cap (id + 1) col' ix
    | Some k :: col' => match add cap k id ix with Ok ix' => bulk_add cap (id + 1) col' ix' | Throw => Throw end
    end.
  Definition bulkload (cap : Z) (sort : list entry -> list entry) (col : list (option K)) (ix : index) : outcome index :=
    match bulk_add cap 0 col ix with Ok ix' => Ok (finalize sort ix') | Throw => Throw end.

  (** ** RecursiveModelIndex: search from a predicted position, Index.hpp:253-264, 283-333 *)
  Definition lower_bound_exponential_search (es : list entry) (pred : Z) (value : K) : option Z :=
    exp_search (fun i => lt (key_at es i) value) (Z.of_nat (length es)) pred.
  Definition upper_bound_exponential_search (es : list entry) (pred : Z) (value : K) : option Z :=
    exp_search (fun i => negb (lt value (key_at es i))) (Z.of_nat (length es)) pred.
End Index.

(** ** The linear models, over IEEE binary64 ([Coq.Floats.SpecFloat], prec 53, emax 1024)

    Keys are signed integers; the differences computed in the key type (Index.hpp:193) are assumed not to overflow.  The
    compiler does not contract [a * b - c * d] expressions. *)
Definition f_prec := 53.
Definition f_emax := 1024.
Definition f_t := spec_float.
Definition f_ofZ (z : Z) : f_t := binary_normalize f_prec f_emax z 0 false.
Definition f_add : f_t -> f_t -> f_t := SFadd f_prec f_emax.
Definition f_sub : f_t -> f_t -> f_t := SFsub f_prec f_emax.
Definition f_mul : f_t -> f_t -> f_t := SFmul f_prec f_emax.
Definition f_div : f_t -> f_t -> f_t := SFdiv f_prec f_emax.
Definition f_is_zero (x : f_t) : bool := match x with S754_zero _ => true | _ => false end.
(** [std::fma]: a single rounding of the exact [x * y + z]. *)
Definition f_fma (x y z : f_t) : f_t :=
  match x, y, z with
  | S754_finite sx mx ex, S754_finite sy my ey, S754_finite sz mz ez =>
      let e := Z.min (ex + ey) ez in
      binary_normalize f_prec f_emax
        (cond_Zopp (xorb sx sy) (Z.pos mx * Z.pos my) * 2 ^ (ex + ey - e) + cond_Zopp sz (Z.pos mz) * 2 ^ (ez - e)) e false
  | S754_finite sx mx ex, S754_finite sy my ey, S754_zero _ =>
      binary_normalize f_prec f_emax (cond_Zopp (xorb sx sy) (Z.pos mx * Z.pos my)) (ex + ey) false
  | _, _, _ => f_add (f_mul x y) z
  end.
(** [std::clamp<double>]: [comp(v, lo) ? lo : comp(hi, v) ? hi : v] *)
Definition f_clamp (v lo hi : f_t) : f_t := if SFltb v lo then lo else if SFltb hi v then hi else v.
(** Conversion to [std::size_t]; [None] is undefined behaviour (NaN, negative). *)
Definition f_to_size (v : f_t) : option Z :=
  match v with
  | S754_zero _ => Some 0
  | S754_finite false m e => Some (if e <? 0 then Z.pos m / 2 ^ (- e) else Z.pos m * 2 ^ e)
  | _ => None
  end.
Definition f_zero : f_t := S754_zero false.
(** The literal 0.01, [rmi_model_entry_ratio]. *)
Definition f_ratio : f_t := S754_finite false 5764607523034235 (-59).

Record model := mkModel { slope : f_t; intercept : f_t }.
(** [operator()], Index.hpp:180 *)
Definition eval (m : model) (x : Z) : f_t := f_fma (slope m) (f_ofZ x) (intercept m).

(** [train_linear_spline], Index.hpp:184-195 *)
Definition train_linear_spline (keys : list Z) (offset : Z) (cf : f_t) : model :=
  let n := Z.of_nat (length keys) in
  if n =? 0 then mkModel f_zero f_zero else
  if n =? 1 then mkModel f_zero (f_mul (f_ofZ offset) cf) else
  let numerator := f_ofZ n in
  let denominator := f_ofZ (last keys 0 - hd 0 keys) in
  let slope := if f_is_zero denominator then f_zero else f_mul (f_div numerator denominator) cf in
  let intercept := f_sub (f_mul (f_ofZ offset) cf) (f_mul slope (f_ofZ (hd 0 keys))) in
  mkModel slope intercept.

(** The loop of [train_linear_regression], Index.hpp:212-223: (mean_x, mean_y, c, m2). *)
Fixpoint regress (keys : list Z) (offset i : Z) (st : f_t * f_t * f_t * f_t) : f_t * f_t * f_t * f_t :=
  match keys with
  | [] => st
  | x :: keys' =>
      let '(mean_x, mean_y, c, m2) := st in
      let y := f_ofZ (offset + i) in
      let dx := f_sub (f_ofZ x) mean_x in
      let mean_x := f_add mean_x (f_div dx (f_ofZ (i + 1))) in
      let mean_y := f_add mean_y (f_div (f_sub y mean_y) (f_ofZ (i + 1))) in
      let c := f_add c (f_mul dx (f_sub y mean_y)) in
      let dx2 := f_sub (f_ofZ x) mean_x in
      let m2 := f_add m2 (f_mul dx dx2) in
      regress keys' offset (i + 1) (mean_x, mean_y, c, m2)
  end.
(** [train_linear_regression], Index.hpp:199-233 with its default compression factor 1.0 (multiplication by 1.0 is exact). *)
Definition train_linear_regression (keys : list Z) (offset : Z) : model :=
  let n := Z.of_nat (length keys) in
  if n =? 0 then mkModel f_zero f_zero else
  if n =? 1 then mkModel f_zero (f_ofZ offset) else
  let '(mean_x, mean_y, c, m2) := regress keys offset 0 (f_zero, f_zero, f_zero, f_zero) in
  let cov := f_div c (f_ofZ (n - 1)) in
  let var := f_div m2 (f_ofZ (n - 1)) in
  if f_is_zero var then mkModel f_zero mean_y else
  let slope := f_div cov var in
  mkModel slope (f_sub mean_y (f_mul slope mean_x)).

Definition slice (keys : list Z) (b e : Z) : list Z := firstn (Z.to_nat (e - b)) (skipn (Z.to_nat b) keys).

(** The loop over the entries in [RecursiveModelIndex::finalize], Index.cpp:188-212; [None]: undefined conversion. *)
Fixpoint train_loop (m0 : model) (n_models : Z) (keys : list Z) (rest : list Z) (i segment_start segment_id : Z) (acc : list model)
  : option (Z * Z * list model) :=
  match rest with
  | [] => Some (segment_start, segment_id, acc)
  | k :: rest' =>
      match f_to_size (f_clamp (eval m0 k) f_zero (f_ofZ (n_models - 1))) with
      | None => None
      | Some pred_segment_id =>
          if segment_id <? pred_segment_id then
            train_loop m0 n_models keys rest' (i + 1) i pred_segment_id
              (acc ++ [train_linear_regression (slice keys segment_start i) segment_start]
                   ++ repeat (train_linear_regression (slice keys (i - 1) i) (i - 1)) (Z.to_nat (pred_segment_id - segment_id - 1)))
          else train_loop m0 n_models keys rest' (i + 1) segment_start segment_id acc
      end
  end.
(** Training in [RecursiveModelIndex::finalize], Index.cpp:163-230; [models] is [models_] before: it is not cleared, so a
    second [finalize] appends to it. *)
Definition train (models : list model) (keys : list Z) : option (list model) :=
  let n_keys := Z.of_nat (length keys) in
  match f_to_size (f_mul (f_ofZ n_keys) f_ratio) with
  | None => None
  | Some r =>
      let n_models := Z.max 1 r in
      let models1 := models ++ [train_linear_spline keys 0 (f_div (f_ofZ n_models) (f_ofZ n_keys))] in
      let m0 := hd (mkModel f_zero f_zero) models1 in
      match train_loop m0 n_models keys keys 0 0 0 models1 with
      | None => None
      | Some (segment_start, segment_id, acc) =>
          Some (acc ++ [train_linear_regression (slice keys segment_start n_keys) segment_start]
                ++ repeat (train_linear_regression (slice keys (n_keys - 1) n_keys) (n_keys - 1)) (Z.to_nat (n_models - segment_id - 1)))
      end
  end.

(** [predict], Index.hpp:272-276; [None]: undefined conversion or access beyond [models_]. *)
Definition predict (models : list model) (n : Z) (key : Z) : option Z :=
  match nth_error models 0 with
  | None => None
  | Some m0 =>
      let segment_id := f_clamp (eval m0 key) f_zero (f_ofZ (Z.of_nat (length models) - 2)) in
      match f_to_size (f_add segment_id (f_ofZ 1)) with
      | None => None
      | Some j =>
          match nth_error models (Z.to_nat j) with
          | None => None
          | Some m1 => f_to_size (f_clamp (eval m1 key) f_zero (f_ofZ n))
          end
      end
  end.

Record rmi := mkRMI { base : @index Z; models : list model }.
Definition empty_rmi : rmi := mkRMI empty_index [].
(** [RecursiveModelIndex::finalize] *)
Definition rmi_finalize (sort : list (Z * Z) -> list (Z * Z)) (r : rmi) : option rmi :=
  let b := finalize sort (base r) in
  match train (models r) (map fst (entries b)) with None => None | Some ms => Some (mkRMI b ms) end.
(** [lower_bound]/[upper_bound], Index.hpp:253-264; [junk] is the key in the memory right behind the last entry. *)
Definition rmi_lower_bound (junk : Z) (r : rmi) (key : Z) : outcome (option Z) :=
  if finalized (base r) then
    Ok (match predict (models r) (num_entries (base r)) key with
        | None => None
        | Some p => lower_bound_exponential_search Z.ltb junk (entries (base r)) p key
        end)
  else Throw.
Definition rmi_upper_bound (junk : Z) (r : rmi) (key : Z) : outcome (option Z) :=
  if finalized (base r) then
    Ok (match predict (models r) (num_entries (base r)) key with
        | None => None
        | Some p => upper_bound_exponential_search Z.ltb junk (entries (base r)) p key
        end)
  else Throw.
