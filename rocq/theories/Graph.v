(** * Model of [AdjacencyMatrix]: include/mutable/util/AdjacencyMatrix.hpp and src/util/AdjacencyMatrix.cpp.

    The array [m_] of 64 rows (AdjacencyMatrix.hpp:61) is a function from row index to [SmallBitset]; the number of
    vertices (AdjacencyMatrix.hpp:62) is an explicit argument [n] where the code uses it.  Row indices are always
    elements of a [SmallBitset] or loop counters below [n], hence in bounds.  Loops carry fuel; [None] is "out of fuel"
    or a failed assertion, and the theorems show it does not occur. *)
From Coq Require Import NArith List Bool.
From Verif Require Import Word Bitset.
Import ListNotations.
Open Scope N_scope.

Definition matrix := N -> sbs.

(** [for (auto x : S)]: the elements visited by a range-for loop over a [SmallBitset] (Bitset.v, [iterate]). *)
Definition sbs_list (s : sbs) : list N := match iterate 65 s with Some l => l | None => [] end.

(** [for (auto x : R) acc |= step(x)]. *)
Definition union_over (step : N -> sbs) (R acc : sbs) : sbs :=
  fold_left (fun a x => sbs_union a (step x)) (sbs_list R) acc.

(** The loop of [reachable], AdjacencyMatrix.hpp:95-101 and 111-117. *)
Fixpoint reach_loop (step : N -> sbs) (fuel : nat) (R_old R_new : sbs) : option sbs :=
  match fuel with
  | O => None
  | S f => let R := sbs_diff R_new R_old in
           if sbs_empty R then Some R_new
           else reach_loop step f R_new (union_over step R R_new)
  end.

(** [reachable(src)], AdjacencyMatrix.hpp:92-104. *)
Definition reachable (m : matrix) (src : sbs) : option sbs := reach_loop m 66 0 src.
(** [reachable(src, S)], AdjacencyMatrix.hpp:108-120. *)
Definition reachable_in (m : matrix) (src S : sbs) : option sbs :=
  reach_loop (fun x => sbs_inter (m x) S) 66 0 (sbs_inter src S).

(** [neighbors(S)], AdjacencyMatrix.hpp:123-128. *)
Definition neighbors (m : matrix) (S : sbs) : sbs := sbs_diff (union_over m S 0) S.

(** [is_connected(S)], AdjacencyMatrix.hpp:133. *)
Definition is_connected (m : matrix) (S : sbs) : option bool :=
  match reachable_in m (it_as_set S) S with Some R => Some (R =? S) | None => None end.

(** [is_connected(left, right)], AdjacencyMatrix.hpp:136-144. *)
Definition is_connected2 (m : matrix) (left right : sbs) : bool :=
  negb (sbs_empty (sbs_inter left (union_over m right 0))).

(** [closure(i, j) = v] through [Proxy], AdjacencyMatrix.hpp:36-38. *)
Definition mset (m : matrix) (i j : N) (v : bool) : matrix :=
  fun k => if k =? i then match sbs_set (m i) j v with Some r => r | None => m i end else m k.

(** The counters of [for (i = a; i != n; ++i)]. *)
Definition range (a n : N) : list N := map N.of_nat (seq (N.to_nat a) (N.to_nat (n - a))).

(** [do { changed = false; body } while (changed)], AdjacencyMatrix.cpp:18-36 and 46-59. *)
Fixpoint closure_loop (body : matrix -> matrix * bool) (fuel : nat) (m : matrix) : option matrix :=
  match fuel with
  | O => None
  | S f => let '(m', changed) := body m in if changed then closure_loop body f m' else Some m'
  end.

(** One cell of [transitive_closure_directed], AdjacencyMatrix.cpp:22-33.  [row] is a copy taken before the inner
    loop; the [break] after the first hit makes the inner loop a search. *)
Definition tcd_cell (st : matrix * bool) (i j : N) : matrix * bool :=
  let '(c, changed) := st in
  if N.testbit (c i) j then st
  else
    let row := c i in
    let col_mask := match sbs_Singleton j with Some s => s | None => 0 end in
    if existsb (fun k => negb (sbs_empty (sbs_inter (c k) col_mask))) (sbs_list row)
    then (mset c i j true, true) else st.
Definition tcd_body (n : N) (m : matrix) : matrix * bool :=
  fold_left (fun st i => fold_left (fun st j => tcd_cell st i j) (range 0 n) st) (range 0 n) (m, false).
Definition transitive_closure_directed (n : N) (m : matrix) : option matrix :=
  closure_loop (tcd_body n) (N.to_nat 4098) m.

(** One cell of [transitive_closure_undirected], AdjacencyMatrix.cpp:51-56. *)
Definition tcu_cell (st : matrix * bool) (i j : N) : matrix * bool :=
  let '(c, changed) := st in
  let before := N.testbit (c i) j in
  let row := c i in
  let col := c j in
  let dot := negb (sbs_empty (sbs_inter row col)) in
  (mset (mset c j i dot) i j dot, changed || xorb before dot).
Definition tcu_body (n : N) (m : matrix) : matrix * bool :=
  fold_left (fun st i => fold_left (fun st j => tcu_cell st i j) (range i n) st) (range 0 n) (m, false).
Definition transitive_closure_undirected (n : N) (m : matrix) : option matrix :=
  closure_loop (tcu_body n) (N.to_nat 4098) m.

(** ** Connected subgraph enumeration.  The callback is modelled by the list of its arguments, in call order. *)

(** The [while (not Q.empty())] loop, AdjacencyMatrix.hpp:168-178; [Q] is the [std::deque], front first. *)
Fixpoint csg_while (m : matrix) (super : sbs) (fuel : nat) (Q : list (N * N)) : option (list N) :=
  match fuel with
  | O => None
  | S f =>
      match Q with
      | [] => Some []
      | (V, X_old) :: Q' =>
          let Nb := sbs_diff (sbs_inter (neighbors m V) super) X_old in
          let X_new := sbs_union X_old Nb in
          (* for (n = least_subset(N); bool(n); n = next_subset(n, N)) Q.emplace_back(S | n, X_new) *)
          match subset_loop f (least_subset Nb) Nb 0 with
          | None => None
          | Some ns =>
              match csg_while m super f (Q' ++ map (fun n => (sbs_union V n, X_new)) ns) with
              | None => None
              | Some out => Some (V :: out)
              end
          end
      end
  end.

(** [for (auto it = source.begin(); it != source.end(); ++it)], AdjacencyMatrix.hpp:163-179; [bits] is the iterator. *)
Fixpoint csg_sources (m : matrix) (super source : sbs) (fuel : nat) (steps : nat) (bits : N) : option (list N) :=
  match steps with
  | O => None
  | S st =>
      if bits =? 0 then Some [] else
      let I := it_as_set bits in
      match sbs_mask_to_lo I with
      | None => None
      | Some lo =>
          match csg_while m super fuel [(I, sbs_inter source (sbs_not lo))] with
          | None => None
          | Some out =>
              match csg_sources m super source fuel st (it_next bits) with
              | None => None
              | Some out' => Some (out ++ out')
              end
          end
      end
  end.

(** [for_each_CSG_undirected(super, source, callback)], AdjacencyMatrix.hpp:158-180. *)
Definition for_each_CSG (m : matrix) (fuel : nat) (super source : sbs) : option (list N) :=
  let source := sbs_inter source super in
  csg_sources m super source fuel 65 source.

(** [for_each_CSG_pair_undirected(super, callback)], AdjacencyMatrix.hpp:190-200: the callback of the outer
    enumeration enumerates the complements. *)
Definition csg_partners (m : matrix) (fuel : nat) (super first : sbs) : option (list (N * N)) :=
  let N_first := sbs_inter (neighbors m first) super in
  match sbs_hi first with
  | None => None
  | Some hi =>
      match sbs_mask_to_lo hi with
      | None => None
      | Some lo =>
          let super_second := sbs_inter (sbs_diff super first) lo in
          match for_each_CSG m fuel super_second N_first with
          | None => None
          | Some l => Some (map (fun second => (first, second)) l)
          end
      end
  end.
Fixpoint concat_opt {A B} (f : A -> option (list B)) (l : list A) : option (list B) :=
  match l with
  | [] => Some []
  | x :: l' => match f x, concat_opt f l' with Some a, Some b => Some (a ++ b) | _, _ => None end
  end.
Definition for_each_CSG_pair (m : matrix) (fuel : nat) (super : sbs) : option (list (N * N)) :=
  match for_each_CSG m fuel super super with
  | None => None
  | Some firsts => concat_opt (csg_partners m fuel super) firsts
  end.
