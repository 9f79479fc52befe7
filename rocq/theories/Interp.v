(** * Model of the interpreter (src/backend/Interpreter.cpp 560-1660, src/backend/Interpreter.hpp 20-190)

    Rows have an arbitrary type [R].  An expression of the plan is a function of the row, a predicate a function to three-valued truth
    values ([None] is NULL): that the stack machine computes these functions is the subject of C31.  An operator tree is a [plan].  The
    [Pipeline] visitor walks from an operator to its parents; the parents are a list of [frame]s, their [OperatorData] a list of
    [state]s.  A result [None] is a failed assertion ([M_insist]) or undefined behaviour.  The boolean in a result says that
    [LimitOperator::stack_unwind] is being thrown.

    Simplifications: the number of tuples seen by a [LimitOperator] is not reduced modulo 2^64 (that needs 2^64 tuples), doubles are
    exact rationals, and signed overflow of [int64_t] wraps around.  [shuffle] is the unspecified order in which the hash tables are
    traversed, [std_sort] is [std::sort]. *)
From Coq Require Import NArith ZArith QArith List Bool Arith.
From Verif Require Import Word.
Import ListNotations.

(** Cells of keys and aggregates: [None] is NULL.  [DInt] is any type held in the 8 bytes as an integer (integers, decimals, dates,
    Booleans), [DReal] a double, [DChars] the characters of a string in a buffer of its own. *)
Inductive datum : Set := DInt (z : Z) | DReal (q : Q) | DChars (l : list N).
Notation cell := (option datum) (only parsing).

(** [Value::operator==] on the values of two different tuples, Tuple.hpp 161-166: the 8 bytes are compared.  Of two strings these are
    the addresses of two different buffers (C30). *)
Definition datum_same (a b : datum) : bool :=
  match a, b with
  | DInt x, DInt y => Z.eqb x y
  | DReal p, DReal q => Z.eqb (Qnum p) (Qnum q) && Pos.eqb (Qden p) (Qden q)
  | _, _ => false
  end.
(** one column of [Tuple::operator==] (Tuple.hpp 305-313) and of [HashBasedGroupingData::equals] (Interpreter.cpp 831-838) *)
Definition cell_same (a b : option datum) : bool :=
  match a, b with
  | None, None => true
  | Some x, Some y => datum_same x y
  | _, _ => false
  end.
Fixpoint key_same (k1 k2 : list (option datum)) : bool :=
  match k1, k2 with
  | [], [] => true
  | a :: k1', b :: k2' => cell_same a b && key_same k1' k2'
  | _, _ => false
  end.

(** 64-bit signed wrap-around *)
Definition wrap_i (z : Z) : Z := ((z + 2 ^ 63) mod 2 ^ 64 - 2 ^ 63)%Z.

(** [Cmp_b], [Cmp_i], [Cmp_f], [Cmp_d] and [Cmp_s] (StackMachine.cpp): -1, 0 or 1.  NULL makes the result NULL, on which the assertion
    of [SortingOperator] fails. *)
Fixpoint cmp_chars (a b : list N) : Z :=
  match a, b with
  | [], [] => 0%Z
  | [], _ :: _ => (-1)%Z
  | _ :: _, [] => 1%Z
  | x :: a', y :: b' => if (x <? y)%N then (-1)%Z else if (y <? x)%N then 1%Z else cmp_chars a' b'
  end.
Definition of_comparison (c : comparison) : Z := match c with Lt => (-1)%Z | Eq => 0%Z | Gt => 1%Z end.
Definition cmp_cell (a b : option datum) : option Z :=
  match a, b with
  | Some (DInt x), Some (DInt y) => Some (of_comparison (x ?= y)%Z)
  | Some (DReal p), Some (DReal q) => Some (of_comparison (p ?= q)%Q)
  | Some (DChars s), Some (DChars t) => Some (cmp_chars s t)
  | _, _ => None
  end.

Section Rows.
Context {R : Type}.

(** the aggregate functions; the argument is already cast to the type of the aggregate *)
Inductive agg :=
  | CountAll
  | Count (f : R -> option datum)
  | SumI (f : R -> option Z)
  | SumD (f : R -> option Q)
  | Avg (f : R -> option Q)
  | MinI (f : R -> option Z)
  | MaxI (f : R -> option Z)
  | MinD (f : R -> option Q)
  | MaxD (f : R -> option Q).

(** the join predicate: none (the empty CNF), a conjunction of [A.x = B.y] ([CNF::is_equi], CNF.hpp 43-49 and 105-109 and 147-153), given
    as the column of the left and of the right child, or anything else *)
Inductive jpred :=
  | JTrue
  | JEqui (ks : list ((R -> option datum) * (R -> option datum)))
  | JPred (p : list R -> option bool).

Inductive plan :=
  | Scan (rows : list R)
  | Filter (p : R -> option bool) (c : plan)
  | Disjunctive (ps : list (R -> option bool)) (c : plan)
  | Join (p : jpred) (cat : list R -> R) (cs : list plan)
  | Project (f : R -> R) (c : plan)
  | ProjectOnce (r : R)                        (** a projection without child *)
  | Limit (limit offset : N) (c : plan)
  | Group (keys : list (R -> option datum)) (aggs : list agg) (mk : list (option datum) -> list (option datum) -> R) (c : plan)
  | Aggregate (aggs : list agg) (mk : list (option datum) -> R) (c : plan)
  | Sort (order : list ((R -> option datum) * bool)) (c : plan). (** [true] is ascending *)

(** ** Blocks (Interpreter.hpp 20-150); the operations on the mask are those of C43 *)
Record block := mkBlock { bdata : N -> option R; bmask : N }.
(** the tuples in the order of [begin()] to [end()]: by [C43] the iterator visits [elems (bmask b)].  A slot without tuple, which the
    code never reads, is skipped here. *)
Definition tuples (b : block) : list R :=
  flat_map (fun i => match bdata b i with Some r => [r] | None => [] end) (elems (bmask b)).
Definition all_ones : N := N.ones 64.
Definition low_ones (n : N) : N := sub64 (shl64 1 n) 1.
(** [clear()], [mask(m)], and the slots [0 .. length rows - 1] written *)
Definition load (rows : list R) (m : N) : block := mkBlock (fun i => nth_error rows (N.to_nat i)) m.
Definition bupd (b : block) (i : N) (r : R) : block := mkBlock (fun j => if N.eqb j i then Some r else bdata b j) (bmask b).
Definition with_mask (b : block) (m : N) : block := mkBlock (bdata b) m.

(** ** The data of the operators *)
Record group := mkGroup { gkey : list (option datum); gaggs : list (option datum); gcount : N }.
Record state := mkState {
  buffer : list R;                             (** of a nested-loops join's child, of a sort, of the callback *)
  table : list (list (option datum) * R);      (** the hash table of a hash join *)
  counter : N;                                 (** of a limit, of an aggregation *)
  groups : list group;
  cells : list (option datum);                 (** of an aggregation *)
  seen : bool                                  (** a sort has received a block *)
}.
Definition state0 : state := mkState [] [] 0 [] [] false.
Definition with_buffer (s : state) (l : list R) : state := mkState l (table s) (counter s) (groups s) (cells s) true.
Definition with_table (s : state) t : state := mkState (buffer s) t (counter s) (groups s) (cells s) (seen s).
Definition with_counter (s : state) n : state := mkState (buffer s) (table s) n (groups s) (cells s) (seen s).
Definition with_groups (s : state) g : state := mkState (buffer s) (table s) (counter s) g (cells s) (seen s).
Definition with_cells (s : state) c n : state := mkState (buffer s) (table s) n (groups s) c (seen s).

Inductive frame :=
  | FCallback
  | FFilter (p : R -> option bool)
  | FDisjunctive (ps : list (R -> option bool))
  | FBuild (ks : list (R -> option datum))
  | FProbe (ks : list (R -> option datum)) (cat : list R -> R) (ht : list (list (option datum) * R))
  | FBuffer
  | FLast (p : option (list R -> option bool)) (cat : list R -> R) (bufs : list (list R))
  | FProject (f : R -> R)
  | FLimit (limit offset : N)
  | FGroup (keys : list (R -> option datum)) (aggs : list agg)
  | FAggregate (aggs : list agg)
  | FSort.

Definition result : Type := option (list state * block * bool).
(** the rest of the way to the root *)
Definition cont : Type := list state -> block -> result.

(** [shuffle]: the order of the entries of an unordered hash table *)
Context (shuffle : forall A : Type, list A -> list A).

(** ** Aggregates (Interpreter.cpp 1177-1276, 1305-1395): the new value of one aggregate, [nth] the number of tuples of the group so far, the
    new one included *)
Definition as_i (c : option datum) : Z := match c with Some (DInt z) => z | _ => 0%Z end.
Definition as_d (c : option datum) : Q := match c with Some (DReal q) => q | _ => 0%Q end.
Definition agg_step (a : agg) (nth : N) (r : R) (c : option datum) : option datum :=
  match a with
  | CountAll => Some (DInt (wrap_i (as_i c + 1)))
  | Count f => Some (DInt (wrap_i (as_i c + match f r with Some _ => 1 | None => 0 end)))
  | SumI f => match f r with None => Some (DInt (as_i c)) | Some x => Some (DInt (wrap_i (as_i c + x))) end
  | SumD f => match f r with None => Some (DReal (as_d c)) | Some x => Some (DReal (as_d c + x)) end
  | Avg f => match f r with None => Some (DReal (as_d c)) | Some x => Some (DReal (as_d c + (x - as_d c) / inject_Z (Z.of_N nth))) end
  | MinI f => match f r, c with None, _ => c | Some x, None => Some (DInt x) | Some x, Some _ => Some (DInt (Z.min (as_i c) x)) end
  | MaxI f => match f r, c with None, _ => c | Some x, None => Some (DInt x) | Some x, Some _ => Some (DInt (Z.max (as_i c) x)) end
  | MinD f => match f r, c with None, _ => c | Some x, None => Some (DReal x) | Some x, Some _ => Some (DReal (if Qle_bool (as_d c) x then as_d c else x)) end
  | MaxD f => match f r, c with None, _ => c | Some x, None => Some (DReal x) | Some x, Some _ => Some (DReal (if Qle_bool x (as_d c) then as_d c else x)) end
  end.
Fixpoint aggs_step (aggs : list agg) (nth : N) (r : R) (cs : list (option datum)) : list (option datum) :=
  match aggs, cs with
  | a :: aggs', c :: cs' => agg_step a nth r c :: aggs_step aggs' nth r cs'
  | _, _ => []
  end.
(** the initial value in an aggregation, lines 1536-1570 *)
Definition agg_init (a : agg) : option datum :=
  match a with
  | CountAll | Count _ | SumI _ => Some (DInt 0)
  | SumD _ | Avg _ => Some (DReal 0)
  | _ => None
  end.
(** [perform_aggregation] on the group with this key (lines 1184-1276), found by or added after [groups.find(key)] (lines 1279-1302).  The
    count is an [unsigned], 32 bits. *)
Fixpoint add_to_group (aggs : list agg) (k : list (option datum)) (r : R) (gs : list group) : list group :=
  match gs with
  | [] => [mkGroup k (aggs_step aggs 1 r (map (fun _ => None) aggs)) 1]
  | g :: gs' =>
      if key_same (gkey g) k
      then let n := N.modulo (gcount g + 1) (2 ^ 32) in mkGroup (gkey g) (aggs_step aggs n r (gaggs g)) n :: gs'
      else g :: add_to_group aggs k r gs'
  end.

(** ** Hash join, probe phase (lines 1000-1036): [i] is the next slot of the join's block, [b] that block *)
Section Probe.
Context (k : cont).
(** the callback of [for_all] for one match *)
Fixpoint probe_matches (ms : list R) (join : R -> R) (sts : list state) (b : block) (i : N) : option (list state * block * N * bool) :=
  match ms with
  | [] => Some (sts, b, i, false)
  | m :: ms' =>
      let write sts b i :=
        if (i <? 64)%N && N.testbit (bmask b) i                     (* operator[]: the slot is alive *)
        then probe_matches ms' join sts (bupd b i (join m)) (i + 1)%N
        else None in
      if N.eqb i 64
      then match k sts b with
           | None => None
           | Some (sts', b', true) => Some (sts', b', i, true)
           | Some (sts', b', false) => write sts' b' 0%N
           end
      else write sts b i
  end.
(** all tuples of the pushed block *)
Fixpoint probe_all (ks : list (R -> option datum)) (cat : list R -> R) (ht : list (list (option datum) * R)) (ts : list R)
  (sts : list state) (b : block) (i : N) : option (list state * block * N * bool) :=
  match ts with
  | [] => Some (sts, b, i, false)
  | t :: ts' =>
      let key := map (fun e => e t) ks in
      let ms := map snd (filter (fun e => key_same (fst e) key) (shuffle _ ht)) in
      match probe_matches ms (fun m => cat [m; t]) sts (with_mask b all_ones) i with
      | Some (sts', b', i', false) => probe_all ks cat ht ts' sts' b' i'
      | x => x
      end
  end.
Definition probe (ks : list (R -> option datum)) (cat : list R -> R) (ht : list (list (option datum) * R)) (ts : list R)
  (sts : list state) : option (list state * bool) :=
  match probe_all ks cat ht ts sts (load [] 0) 0 with
  | None => None
  | Some (sts', b, i, u) =>
      if u then Some (sts', true)
      else if N.eqb i 0 then Some (sts', false)
      else match k sts' (with_mask b (if N.eqb i 64 then all_ones else low_ones i)) with
           | Some (sts'', _, u') => Some (sts'', u')
           | None => None
           end
  end.
End Probe.

(** ** Nested-loops join, right-most child (lines 1052-1128).  A position [p] is held as the number of advances, [p + 1], so that the initial
    [size_t(-1)] is 0. *)
Section NestedLoops.
Context (k : cont) (p : option (list R -> option bool)) (cat : list R -> R) (bufs : list (list R)) (b : block).
Fixpoint upd_nat (l : list nat) (i x : nat) : list nat :=
  match l, i with
  | [], _ => []
  | _ :: l', O => x :: l'
  | y :: l', S i' => y :: upd_nat l' i' x
  end.
(** [buffers[cid][positions[cid]]] for every buffered child *)
Fixpoint selected (bs : list (list R)) (ps : list nat) : option (list R) :=
  match bs, ps with
  | [], [] => Some []
  | l :: bs', S q :: ps' => match nth_error l q, selected bs' ps' with Some r, Some rs => Some (r :: rs) | _, _ => None end
  | _, _ => None
  end.
(** one combination: evaluate the predicate on every tuple of the block, drop those for which it is not TRUE (lines 1076-1113) *)
Definition nl_combine (ls : list R) : block :=
  mkBlock (fun i => match bdata b i with Some r => Some (cat (ls ++ [r])) | None => None end)
          (fold_left (fun m i => match bdata b i with
                                 | Some r => match p with
                                             | None => m
                                             | Some q => match q (ls ++ [r]) with Some true => m | _ => N.clearbit m i end
                                             end
                                 | None => m
                                 end) (elems (bmask b)) (bmask b)).
Fixpoint nl_loop (fuel : nat) (child : nat) (pos : list nat) (sts : list state) : option (list state * bool) :=
  match fuel with
  | O => None
  | S fuel' =>
      if Nat.eqb child (length bufs)
      then match selected bufs pos with
           | None => None
           | Some ls =>
               let o := nl_combine ls in
               let next sts := match child with O => None | S c => nl_loop fuel' c pos sts end in
               if N.eqb (bmask o) 0 then next sts
               else match k sts o with
                    | None => None
                    | Some (sts', _, true) => Some (sts', true)
                    | Some (sts', _, false) => next sts'
                    end
           end
      else
        let q := S (nth child pos 0%nat) in                           (* ++positions[child_id] *)
        let pos' := upd_nat pos child q in
        if Nat.eqb q (S (length (nth child bufs [])))                 (* == buffer.size() *)
        then match child with
             | O => Some (sts, false)
             | S c => nl_loop fuel' c (upd_nat pos' child 0%nat) sts
             end
        else if Nat.ltb q (S (length (nth child bufs []))) then nl_loop fuel' (S child) pos' sts
        else None
  end.
(** enough steps *)
Fixpoint nl_fuel (bs : list (list R)) : nat :=
  match bs with
  | [] => 1
  | l :: bs' => length l * S (nl_fuel bs') + 1
  end.
Definition nested_loops (sts : list state) : option (list state * bool) := nl_loop (S (nl_fuel bufs)) 0 (map (fun _ => 0%nat) bufs) sts.
End NestedLoops.

(** ** One operator of the pipeline, Interpreter.cpp 933-1410: new state, states of the parents, the block as it is left behind *)
Definition drop_unless (keep : R -> bool) (b : block) : block :=
  with_mask b (fold_left (fun m i => match bdata b i with Some r => if keep r then m else N.clearbit m i | None => m end)
                         (elems (bmask b)) (bmask b)).
Definition is_true (x : option bool) : bool := match x with Some true => true | _ => false end.
(** lines 1164-1168 *)
Definition limit_end (limit offset : N) : N := add64 offset limit.
Fixpoint limit_mask (limit offset : N) (is : list N) (m n : N) : N * N :=
  match is with
  | [] => (m, n)
  | i :: is' =>
      let m' := if (n <? offset)%N || (limit_end limit offset <=? n)%N then N.clearbit m i else m in
      limit_mask limit offset is' m' (n + 1)%N
  end.
Definition step (f : frame) (k : cont) (s : state) (sts : list state) (b : block) : option (state * list state * block * bool) :=
  (* accept the parent unless the block is empty *)
  let pass s (b' : block) :=
    if N.eqb (bmask b') 0 then Some (s, sts, b', false)
    else match k sts b' with Some (sts', b'', u) => Some (s, sts', b'', u) | None => None end in
  let own s (r : option (list state * bool)) := match r with Some (sts', u) => Some (s, sts', b, u) | None => None end in
  match f with
  | FCallback => Some (with_buffer s (buffer s ++ tuples b), sts, b, false)                                    (* 933-937 *)
  | FFilter p => pass s (drop_unless (fun r => is_true (p r)) b)                                               (* 955-968 *)
  | FDisjunctive ps => pass s (drop_unless (fun r => existsb (fun p => is_true (p r)) ps) b)                   (* 970-990 *)
  | FBuild ks => Some (with_table s (table s ++ map (fun t => (map (fun e => e t) ks, t)) (tuples b)), sts, b, false) (* 1037-1047 *)
  | FProbe ks cat ht => own s (probe k ks cat ht (tuples b) sts)
  | FBuffer => Some (with_buffer s (buffer s ++ tuples b), sts, b, false)                                      (* 1129-1138 *)
  | FLast p cat bufs => own s (nested_loops k p cat bufs b sts)
  | FProject f =>                                                                                              (* 1141-1158 *)
      let o := mkBlock (fun i => option_map f (bdata b i)) (bmask b) in
      match k sts o with Some (sts', _, u) => Some (s, sts', b, u) | None => None end
  | FLimit limit offset =>                                                                                     (* 1160-1175 *)
      let '(m, n) := limit_mask limit offset (elems (bmask b)) (bmask b) (counter s) in
      match pass (with_counter s n) (with_mask b m) with
      | Some (s', sts', b', u) => Some (s', sts', b', u || (limit_end limit offset <=? n)%N)
      | None => None
      end
  | FGroup keys aggs =>                                                                                        (* 1278-1303 *)
      Some (with_groups s (fold_left (fun gs t => add_to_group aggs (map (fun e => e t) keys) t gs) (tuples b) (groups s)), sts, b, false)
  | FAggregate aggs =>                                                                                         (* 1305-1395 *)
      let '(cs, n) := fold_left (fun '(cs, n) t => (aggs_step aggs (n + 1)%N t cs, (n + 1)%N)) (tuples b) (cells s, counter s) in
      Some (with_cells s cs n, sts, b, false)
  | FSort => Some (with_buffer s (buffer s ++ tuples b), sts, b, false)                                        (* 1397-1406 *)
  end.
Fixpoint push (fs : list frame) : cont :=
  match fs with
  | [] => fun _ _ => None
  | f :: fs' => fun sts b =>
      match step f (push fs') (hd state0 sts) (tl sts) b with
      | Some (s', sts', b', u) => Some (s' :: sts', b', u)
      | None => None
      end
  end.

(** ** The recursive descent, lines 1412-1655 *)
(** full blocks of 64 tuples, then the rest (lines 909-930, 1510-1527, 1639-1654); a scan pushes the last block only if it is not empty *)
Fixpoint push_full (fs : list frame) (n : nat) (rows : list R) (sts : list state) : option (list state * list R * bool) :=
  match n with
  | O => Some (sts, rows, false)
  | S n' =>
      match push fs sts (load (firstn 64 rows) all_ones) with
      | Some (sts', _, true) => Some (sts', rows, true)
      | Some (sts', _, false) => push_full fs n' (skipn 64 rows) sts'
      | None => None
      end
  end.
Definition push_rows (fs : list frame) (last : bool) (rows : list R) (sts : list state) : option (list state * bool) :=
  match push_full fs (Nat.div (length rows) 64) rows sts with
  | None => None
  | Some (sts', _, true) => Some (sts', true)
  | Some (sts', rest, false) =>
      if last || negb (Nat.eqb (length rest) 0)
      then match push fs sts' (load rest (low_ones (N.of_nat (length rest)))) with
           | Some (sts'', _, u) => Some (sts'', u)
           | None => None
           end
      else Some (sts', false)
  end.
(** the comparator, lines 1593-1637: [None] if a compared column is NULL *)
Fixpoint sort_cmp (order : list ((R -> option datum) * bool)) (x y : R) : option Z :=
  match order with
  | [] => Some 0%Z
  | (e, asc) :: order' =>
      match cmp_cell (e x) (e y) with
      | None => None
      | Some c => let c' := if asc then c else (- c)%Z in
                  if Z.eqb c' 0 then sort_cmp order' x y else Some c'
      end
  end.
Definition sort_less (order : list ((R -> option datum) * bool)) (x y : R) : bool :=
  match sort_cmp order x y with Some c => Z.ltb c 0 | None => false end.
(** no comparison of two different elements of the buffer meets NULL.  Comparing only when there are two tuples at least. *)
Definition sort_defined (order : list ((R -> option datum) * bool)) (rows : list R) : bool :=
  match rows with
  | [] | [_] => true
  | _ => forallb (fun x => forallb (fun y => match sort_cmp order x y with Some _ => true | None => false end) rows) rows
  end.
Context (std_sort : (R -> R -> bool) -> list R -> list R).

Definition pop (x : option (list state * bool)) : option (list state * bool) :=
  match x with Some (_ :: sts, u) => Some (sts, u) | _ => None end.
(** run a child whose tuples end in the state on top; continue with that state and with the states below *)
Definition sink (x : option (list state * bool)) (k : state -> list state -> option (list state * bool)) : option (list state * bool) :=
  match x with
  | Some (s :: sts, false) => k s sts
  | Some (_ :: sts, true) => Some (sts, true)
  | _ => None
  end.
Fixpoint exec (p : plan) (fs : list frame) (sts : list state) {struct p} : option (list state * bool) :=
  match p with
  | Scan rows => push_rows fs false rows sts
  | Filter q c => pop (exec c (FFilter q :: fs) (state0 :: sts))
  | Disjunctive qs c => pop (exec c (FDisjunctive qs :: fs) (state0 :: sts))
  | Join (JEqui ks) cat cs =>                                                                                  (* 1450-1460 *)
      match cs with
      | l :: r :: _ =>
          sink (exec l (FBuild (map fst ks) :: fs) (state0 :: sts)) (fun s sts' =>
            match table s with
            | [] => Some (sts', false)
            | ht => pop (exec r (FProbe (map snd ks) cat ht :: fs) (state0 :: sts'))
            end)
      | _ => None
      end
  | Join jp cat cs =>                                                                                          (* 1461-1473 *)
      let q := match jp with JPred q => Some q | _ => None end in
      (fix children (cs : list plan) (bufs : list (list R)) (sts : list state) {struct cs} : option (list state * bool) :=
         match cs with
         | [] => Some (sts, false)
         | [c] => pop (exec c (FLast q cat bufs :: fs) (state0 :: sts))
         | c :: cs' =>
             sink (exec c (FBuffer :: fs) (state0 :: sts)) (fun s sts' =>
               match buffer s with
               | [] => Some (sts', false)
               | l => children cs' (bufs ++ [l]) sts'
               end)
         end) cs [] sts
  | Project f c => pop (exec c (FProject f :: fs) (state0 :: sts))
  | ProjectOnce r => match push fs sts (load [r] 1) with Some (sts', _, u) => Some (sts', u) | None => None end
  | Limit limit offset c =>                                                                                    (* 1491-1499: the exception is caught *)
      match pop (exec c (FLimit limit offset :: fs) (state0 :: sts)) with
      | Some (sts', _) => Some (sts', false)
      | None => None
      end
  | Group keys aggs mk c =>
      sink (exec c (FGroup keys aggs :: fs) (state0 :: sts)) (fun s sts' =>
        push_rows fs true (map (fun g => mk (gkey g) (gaggs g)) (shuffle _ (groups s))) sts')
  | Aggregate aggs mk c =>
      sink (exec c (FAggregate aggs :: fs) (with_cells state0 (map agg_init aggs) 0 :: sts)) (fun s sts' =>
        match push fs sts' (load [mk (cells s)] 1) with Some (sts'', _, u) => Some (sts'', u) | None => None end)
  | Sort order c =>
      sink (exec c (FSort :: fs) (state0 :: sts)) (fun s sts' =>
        if seen s
        then if sort_defined order (buffer s) then push_rows fs true (std_sort (sort_less order) (buffer s)) sts' else None
        else Some (sts', false))
  end.
(** run a plan below a [CallbackOperator]: the rows in the order in which the callback receives them *)
Definition run (p : plan) : option (list R) :=
  match exec p [FCallback] [state0] with
  | Some (s :: _, _) => Some (buffer s)
  | _ => None
  end.
End Rows.
