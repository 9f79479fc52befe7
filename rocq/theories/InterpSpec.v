(** * What a plan must compute (specification for C46-C50)

    [answer p rows]: [rows] is a correct result of the plan [p] by the rules of SQL, where [rows] may come in any order that the plan does not
    fix.  Nothing here mentions blocks, masks, hash tables or states. *)
From Coq Require Import NArith ZArith QArith List Bool Permutation Sorted.
From Verif Require Import Interp.
Import ListNotations.

(** ** Cells *)
Definition datum_eq_dec (a b : datum) : {a = b} + {a <> b}.
Proof.
  assert (HQ : forall p q : Q, {p = q} + {p <> q}).
  { intros [n d] [n' d']. destruct (Z.eq_dec n n') as [->|Hn]; [|right; congruence].
    destruct (Pos.eq_dec d d') as [->|Hd]; [left; reflexivity|right; congruence]. }
  decide equality; [apply Z.eq_dec|apply (list_eq_dec N.eq_dec)].
Defined.
(** SQL's [a = b] is TRUE: neither side is NULL and the values are equal *)
Definition sql_equal (a b : option datum) : bool :=
  match a, b with
  | Some x, Some y => if datum_eq_dec x y then true else false
  | _, _ => false
  end.
(** three-valued OR of several truth values *)
Definition or3 (a b : option bool) : option bool :=
  match a, b with
  | Some true, _ | _, Some true => Some true
  | Some false, Some false => Some false
  | _, _ => None
  end.
Definition any3 (l : list (option bool)) : option bool := fold_right or3 (Some false) l.
(** the order of two cells of the same type *)
Fixpoint chars_lt (a b : list N) : Prop :=
  match a, b with
  | _, [] => False
  | [], _ :: _ => True
  | x :: a', y :: b' => (x < y)%N \/ (x = y /\ chars_lt a' b')
  end.
Definition cell_lt (a b : option datum) : Prop :=
  match a, b with
  | Some (DInt x), Some (DInt y) => (x < y)%Z
  | Some (DReal p), Some (DReal q) => (p < q)%Q
  | Some (DChars s), Some (DChars t) => chars_lt s t
  | _, _ => False
  end.
Definition cell_eq (a b : option datum) : Prop :=
  match a, b with
  | Some (DReal p), Some (DReal q) => (p == q)%Q
  | _, _ => a = b
  end.

Section Rows.
Context {R : Type}.

(** ** Joins *)
Fixpoint product (ls : list (list R)) : list (list R) :=
  match ls with
  | [] => [[]]
  | l :: ls' => flat_map (fun x => map (cons x) (product ls')) l
  end.
Definition jholds (p : jpred) (rs : list R) : bool :=
  match p with
  | JTrue => true
  | JEqui ks => match rs with [a; b] => forallb (fun '(f, g) => sql_equal (f a) (g b)) ks | _ => false end
  | JPred q => match q rs with Some true => true | _ => false end
  end.

(** ** Sorting: [x] comes strictly before [y] *)
Inductive precedes : list ((R -> option datum) * bool) -> R -> R -> Prop :=
  | prec_asc e order x y : cell_lt (e x) (e y) -> precedes ((e, true) :: order) x y
  | prec_desc e order x y : cell_lt (e y) (e x) -> precedes ((e, false) :: order) x y
  | prec_next e asc order x y : cell_eq (e x) (e y) -> precedes order x y -> precedes ((e, asc) :: order) x y.

(** ** Aggregates of the rows [l] *)
Definition somes {A} (l : list (option A)) : list A := flat_map (fun x => match x with Some a => [a] | None => [] end) l.
Definition sum_Z (l : list Z) : Z := fold_right Z.add 0%Z l.
Definition sum_Q (l : list Q) : Q := fold_right Qplus 0%Q l.
(** [c] is the 64-bit two's complement of [n] *)
Definition int64_of (n : Z) (c : option datum) : Prop :=
  exists z, c = Some (DInt z) /\ (- 2 ^ 63 <= z < 2 ^ 63)%Z /\ exists k, (z = n + k * 2 ^ 64)%Z.
Definition real_of (q : Q) (c : option datum) : Prop := exists q', c = Some (DReal q') /\ (q' == q)%Q.
(** NULL without any value, else one of the values that no other one beats *)
Definition extreme {A} (inj : A -> datum) (beats : A -> A -> Prop) (l : list A) (c : option datum) : Prop :=
  (l = [] /\ c = None) \/ exists x, c = Some (inj x) /\ In x l /\ forall y, In y l -> ~ beats y x.
(** the aggregate of no values is NULL *)
Definition unless_empty {A} (l : list A) (P : option datum -> Prop) (c : option datum) : Prop := match l with [] => c = None | _ => P c end.
Definition agg_value (l : list R) (a : agg) (c : option datum) : Prop :=
  match a with
  | CountAll => int64_of (Z.of_nat (length l)) c
  | Count f => int64_of (Z.of_nat (length (somes (map f l)))) c
  | SumI f => unless_empty (somes (map f l)) (int64_of (sum_Z (somes (map f l)))) c
  | SumD f => unless_empty (somes (map f l)) (real_of (sum_Q (somes (map f l)))) c
  | Avg f => unless_empty (somes (map f l)) (real_of (sum_Q (somes (map f l)) / inject_Z (Z.of_nat (length (somes (map f l)))))) c
  | MinI f => extreme DInt Z.lt (somes (map f l)) c
  | MaxI f => extreme DInt (fun x y => (y < x)%Z) (somes (map f l)) c
  | MinD f => extreme DReal Qlt (somes (map f l)) c
  | MaxD f => extreme DReal (fun x y => (y < x)%Q) (somes (map f l)) c
  end.
(** the rows of [l] with the key [k]; two NULLs are the same key *)
Definition key_of (keys : list (R -> option datum)) (r : R) : list (option datum) := map (fun e => e r) keys.
Definition cell_eq_dec (a b : option datum) : {a = b} + {a <> b}.
Proof. decide equality. apply datum_eq_dec. Defined.
Definition members (keys : list (R -> option datum)) (l : list R) (k : list (option datum)) : list R :=
  filter (fun r => if list_eq_dec cell_eq_dec (key_of keys r) k then true else false) l.

(** ** Plans *)
Inductive answer : plan -> list R -> Prop :=
  | ans_scan rows : answer (Scan rows) rows
  | ans_filter p c l : answer c l -> answer (Filter p c) (filter (fun r => match p r with Some true => true | _ => false end) l)
  | ans_disjunctive ps c l :
      answer c l -> answer (Disjunctive ps c) (filter (fun r => match any3 (map (fun p => p r) ps) with Some true => true | _ => false end) l)
  | ans_join p cat cs ls rows :
      Forall2 answer cs ls -> Permutation rows (map cat (filter (jholds p) (product ls))) -> answer (Join p cat cs) rows
  | ans_project f c l : answer c l -> answer (Project f c) (map f l)
  | ans_project_once r : answer (ProjectOnce r) [r]
  | ans_limit limit offset c l : answer c l -> answer (Limit limit offset c) (firstn (N.to_nat limit) (skipn (N.to_nat offset) l))
  | ans_group keys aggs mk c l ks rows :
      answer c l ->
      NoDup ks -> (forall k, In k ks <-> In k (map (key_of keys) l)) ->                    (* one row per key that occurs *)
      Forall2 (fun k r => exists cs, r = mk k cs /\ Forall2 (agg_value (members keys l k)) aggs cs) ks rows ->
      answer (Group keys aggs mk c) rows
  | ans_aggregate aggs mk c l cs : answer c l -> Forall2 (agg_value l) aggs cs -> answer (Aggregate aggs mk c) [mk cs]
  | ans_sort order c l rows :
      answer c l -> Permutation rows l -> StronglySorted (fun x y => ~ precedes order y x) rows -> answer (Sort order c) rows.

(** ** When the interpreter is right (small specification, part 2)

    Where a hash join compares two cells, they are not both NULL and not both strings. *)
Definition hashable (x y : option datum) : Prop :=
  match x, y with
  | None, None => False
  | Some (DChars _), Some (DChars _) => False
  | _, _ => True
  end.
(** SUM sees a value that is not NULL, AVG sees values and no NULL *)
Definition agg_safe (l : list R) (a : @agg R) : Prop :=
  match a with
  | SumI f => exists r, In r l /\ f r <> None
  | SumD f => exists r, In r l /\ f r <> None
  | Avg f => l <> [] /\ forall r, In r l -> f r <> None
  | _ => True
  end.
Definition no_string (c : option datum) : Prop := match c with Some (DChars _) => False | _ => True end.
(** the column has no NULL and is of one type *)
Definition comparable (e : R -> option datum) (l : list R) : Prop :=
  (forall r, In r l -> exists z, e r = Some (DInt z)) \/ (forall r, In r l -> exists q, e r = Some (DReal q)) \/ (forall r, In r l -> exists s, e r = Some (DChars s)).
(** [safe u p]: the conditions under which the plan is executed correctly; [u] says that no filter and no limit is directly above *)
Inductive safe : bool -> @plan R -> Prop :=
  | safe_scan u rows : safe u (Scan rows)
  | safe_filter u p c : safe false c -> safe u (Filter p c)
  | safe_disjunctive u ps c : safe false c -> safe u (Disjunctive ps c)
  | safe_cross u cat c c' cs : Forall (safe true) (c :: c' :: cs) -> safe u (Join JTrue cat (c :: c' :: cs))
  | safe_theta u q cat c c' cs : Forall (safe true) (c :: c' :: cs) -> safe u (Join (JPred q) cat (c :: c' :: cs))
  | safe_equi ks cat c c' :
      safe true c -> safe true c' ->
      (forall l l' x y f g, answer c l -> answer c' l' -> In x l -> In y l' -> In (f, g) ks -> hashable (f x) (g y)) ->
      safe true (Join (JEqui ks) cat [c; c'])
  | safe_project u f c : safe true c -> safe u (Project f c)
  | safe_once u r : safe u (ProjectOnce r)
  | safe_limit u limit offset c : (limit + offset < 2 ^ 64)%N -> safe false c -> safe u (Limit limit offset c)
  | safe_group u keys aggs mk c :
      safe true c ->
      (forall l, answer c l -> (N.of_nat (length l) < 2 ^ 32)%N /\
        (forall r e, In r l -> In e keys -> no_string (e r)) /\
        (forall k a, In k (map (key_of keys) l) -> In a aggs -> agg_safe (members keys l k) a)) ->
      safe u (Group keys aggs mk c)
  | safe_aggregate u aggs mk c :
      safe true c -> (forall l a, answer c l -> In a aggs -> agg_safe l a) -> safe u (Aggregate aggs mk c)
  | safe_sort u order c :
      safe true c -> (forall l, answer c l -> (length l <= 1)%nat \/ forall e asc, In (e, asc) order -> comparable e l) -> safe u (Sort order c).

(** ** Assumptions about the C++ library *)
(** the entries of a hash table come in some order *)
Definition any_order (shuffle : forall A : Type, list A -> list A) : Prop := forall A l, Permutation (shuffle A l) l.
(** [std::sort] sorts if the comparator is a strict weak order on the elements *)
Definition sorts (std_sort : (R -> R -> bool) -> list R -> list R) : Prop :=
  forall less l,
    (forall x, In x l -> less x x = false) ->
    (forall x y z, In x l -> In y l -> In z l -> less x y = true -> less y z = true -> less x z = true) ->
    (forall x y z, In x l -> In y l -> In z l -> less x y = false -> less y x = false -> less y z = false -> less z y = false -> less x z = false /\ less z x = false) ->
    Permutation (std_sort less l) l /\ StronglySorted (fun x y => less y x = false) (std_sort less l).

(** what the hash join compares: NULL is like NULL, no string is like any other *)
Definition same_cells (x y : option datum) : bool :=
  match x, y with
  | None, None => true
  | Some (DChars _), Some (DChars _) => false
  | _, _ => sql_equal x y
  end.
Definition same_keys (ks : list ((R -> option datum) * (R -> option datum))) (rs : list R) : bool :=
  match rs with [a; b] => forallb (fun '(f, g) => same_cells (f a) (g b)) ks | _ => false end.
End Rows.
