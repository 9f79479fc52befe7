(** * Model of [AdjacencyMatrix::minimum_spanning_forest] and [tree_directed_away_from], src/util/AdjacencyMatrix.cpp.

    Weights are integers: every finite [double] is an integer multiple of 2^-1074, and the code only compares weights.
    Infinities and NaN are not modelled.  [std::priority_queue] is a list of its elements with two operations [push] and
    [pop] that are parameters: all that is known of them is that [pop] removes some element of minimal weight. *)
From Coq Require Import NArith ZArith List Bool.
From Verif Require Import Word Bitset Graph.
Import ListNotations.
Local Open Scope N_scope.

(** [weighted_edge], AdjacencyMatrix.cpp:71-83. *)
Record wedge := mkEdge { source : N; sink : N; weight : Z }.

Section Prim.
  Context (push : wedge -> list wedge -> list wedge) (pop : list wedge -> option (wedge * list wedge)).
  Context (m : matrix) (w : N -> N -> Z).

  (** Lines 97-100: explore the edges of [next_vertex]. *)
  Definition explore (next_vertex rem : sbs) (u : N) (Q : list wedge) : list wedge :=
    let Nb := sbs_inter (neighbors m next_vertex) rem in
    fold_left (fun q v => push (mkEdge u v (w u v)) q) (sbs_list Nb) Q.

  (** Lines 103-109: [Some None] is [goto MST_done]. *)
  Fixpoint search (fuel : nat) (rem : sbs) (Q : list wedge) : option (option (wedge * list wedge)) :=
    match fuel with
    | O => None
    | S f =>
        match pop Q with
        | None => Some None
        | Some (E, Q') =>
            match sbs_get rem (sink E) with
            | None => None
            | Some true => Some (Some (E, Q'))
            | Some false => search f rem Q'
            end
        end
    end.

  (** Lines 94-117: Prim's algorithm, returning the MSF and the remaining vertices. *)
  Fixpoint prim (fuel : nat) (next_vertex rem : sbs) (Q : list wedge) (MSF : matrix) : option (sbs * matrix) :=
    match fuel with
    | O => None
    | S f =>
        if sbs_empty next_vertex then Some (rem, MSF) else
        match it_deref next_vertex with
        | None => None
        | Some u =>
            let Q := explore next_vertex rem u Q in
            match search (S (length Q)) rem Q with
            | None => None
            | Some None => Some (rem, MSF)
            | Some (Some (E, Q')) =>
                match sbs_set rem (sink E) false, sbs_Singleton (sink E) with
                | Some rem', Some next' =>
                    prim f next' rem' Q' (mset (mset MSF (sink E) (source E) true) (source E) (sink E) true)
                | _, _ => None
                end
            end
        end
    end.

  (** Lines 89-119.  The queue is empty when an MST is complete. *)
  Fixpoint forest (fuel : nat) (rem : sbs) (MSF : matrix) : option matrix :=
    match fuel with
    | O => None
    | S f =>
        if sbs_empty rem then Some MSF else
        let next_vertex := it_as_set rem in
        match prim 66 next_vertex (sbs_diff rem next_vertex) [] MSF with
        | None => None
        | Some (rem', MSF') => forest f rem' MSF'
        end
    end.

  (** Lines 64-120. *)
  Definition minimum_spanning_forest (n : N) : option matrix :=
    if n =? 0 then Some (fun _ => 0) else
    match sbs_All n with
    | None => None
    | Some all => forest 66 all (fun _ => 0)
    end.
End Prim.

(** A priority queue: the first of the elements with the least weight. *)
Definition push_list (e : wedge) (Q : list wedge) : list wedge := Q ++ [e].
Fixpoint pop_min (Q : list wedge) : option (wedge * list wedge) :=
  match Q with
  | [] => None
  | e :: r =>
      match pop_min r with
      | None => Some (e, [])
      | Some (x, r') => if (weight x <? weight e)%Z then Some (x, e :: r') else Some (e, r)
      end
  end.

(** [tree_directed_away_from], AdjacencyMatrix.cpp:122-136: the loop. *)
Definition assign_rows (m : matrix) (V X : sbs) (T : matrix) : matrix :=
  fold_left (fun T v k => if k =? v then sbs_diff (m v) X else T k) (sbs_list V) T.
Fixpoint directed_loop (m : matrix) (fuel : nat) (V X : sbs) (T : matrix) : option matrix :=
  match fuel with
  | O => None
  | S f =>
      if sbs_empty V then Some T else
      let X := sbs_union X V in
      let T := assign_rows m V X T in
      directed_loop m f (neighbors T V) X T
  end.
Definition tree_directed_away_from (m : matrix) (root : sbs) : option matrix :=
  if sbs_is_singleton root then directed_loop m 66 root 0 (fun _ => 0) else None.
