(** * Specification of plan tables (C55): a plan table is a map from subproblems to entries. *)
From Coq Require Import NArith List Bool.
From Verif Require Import Word Bitset PlanTable.
Import ListNotations.
Open Scope N_scope.

Section Spec.
  Context {M : Type}.
  Notation pentry := (pentry M).
  (** A map from subproblems to entries. *)
  Definition pmap := N -> pentry.
  Definition pm_empty : pmap := fun _ => pe_default.
  Definition pm_set (s : N) (e : pentry) (f : pmap) : pmap := fun x => if x =? s then e else f x.

  (** The value of a cost function on a map; [None]: it aborts. *)
  Fixpoint value (r : reader M) (f : pmap) : option dbl :=
    match r with RRet c => Some c | RAbort => None | RGet s k => value (k (f s)) f end.

  (** A subproblem has a plan if it is a single source or its entry names two subproblems. *)
  Definition planned (f : pmap) (s : N) : Prop := popcount s = 1 \/ p_left (f s) <> 0.

  (** An offer: a plan with its cost. *)
  Definition offer := (dbl * N * N)%type.
  (** [o] is the first of the cheapest offers. *)
  Definition cheapest (os : list offer) (o : offer) : Prop :=
    exists before after, os = before ++ o :: after /\
      (forall x, In x before -> dlt (fst (fst o)) (fst (fst x)) = true) /\
      (forall x, In x after -> dlt (fst (fst x)) (fst (fst o)) = false).

  (** Clients that stay below [B]. *)
  Definition entry_within (B : N) (e : pentry) : Prop := p_left e < B /\ p_right e < B.
  Fixpoint reader_within (B : N) (r : reader M) : Prop :=
    match r with
    | RRet _ => True
    | RAbort => True
    | RGet s k => s < B /\ forall e, entry_within B e -> reader_within B (k e)
    end.
  Definition cost_within (B : N) (cf : N -> N -> reader M) : Prop :=
    forall l r, l < B -> r < B -> N.lor l r < B -> reader_within B (cf l r).
  Fixpoint within {R : Type} (B n : N) (p : client M R) : Prop :=
    match p with
    | Return _ => True
    | Abort => True
    | Lookup s k => s < B /\ forall e, entry_within B e -> within B n (k e)
    | At s k => s < B /\ forall e, entry_within B e -> within B n (k e)
    | Final k => N.ones n < B /\ forall e, entry_within B e -> within B n (k e)
    | Write s e k => s < B /\ entry_within B e /\ within B n k
    | HasPlan s k => s < B /\ forall b, within B n (k b)
    | Update l r k => l < B /\ r < B /\ N.lor l r < B /\ within B n k
    | ResetCosts k => within B n k
    end.
  (** Clients that do not call [at]. *)
  Fixpoint without_at {R : Type} (p : client M R) : Prop :=
    match p with
    | Return _ => True
    | Abort => True
    | Lookup s k => forall e, without_at (k e)
    | At s k => False
    | Final k => forall e, without_at (k e)
    | Write s e k => without_at k
    | HasPlan s k => forall b, without_at (k b)
    | Update l r k => without_at k
    | ResetCosts k => without_at k
    end.

  (** One client after the other. *)
  Fixpoint cbind {R Q : Type} (p : client M R) (k : R -> client M Q) : client M Q :=
    match p with
    | Return r => k r
    | Abort => Abort
    | Lookup s h => Lookup s (fun e => cbind (h e) k)
    | At s h => At s (fun e => cbind (h e) k)
    | Final h => Final (fun e => cbind (h e) k)
    | Write s e h => Write s e (cbind h k)
    | HasPlan s h => HasPlan s (fun b => cbind (h b) k)
    | Update l r h => Update l r (cbind h k)
    | ResetCosts h => ResetCosts (cbind h k)
    end.

  (** The table after the data model of [l|r] was computed (from the data models of [l] and [r], unless it is known). *)
  Definition considered (est : N -> N -> M -> M -> M) (f : pmap) (l r : N) : pmap :=
    let e := f (N.lor l r) in
    match p_model e, p_model (f l), p_model (f r) with
    | None, Some ml, Some mr => pm_set (N.lor l r) (PE (p_left e) (p_right e) (Some (est l r ml mr)) (p_cost e)) f
    | _, _, _ => f
    end.
  (** The offers of [update(l, r)]: the join of [l] with [r] and the join of [r] with [l]. *)
  Definition offers_of (est : N -> N -> M -> M -> M) (cf : N -> N -> reader M) (f : pmap) (l r : N) : list offer :=
    let f1 := considered est f l r in
    match value (cf l r) f1, value (cf r l) f1 with
    | Some c1, Some c2 => [(c1, l, r); (c2, r, l)]
    | _, _ => []
    end.
  Definition plan (e : pentry) : offer := (p_cost e, p_left e, p_right e).
  Definition no_NaN (os : list offer) : Prop := forall o, In o os -> fst (fst o) <> NaN.

  (** The two implementations, with the empty table of [n] sources and [x] additional entries; the subproblems below [B] are
      the [2 ^ n] sets of sources and the additional ones. *)
  Inductive implementation (n x : N) : forall T : Type, actual M T -> T -> Prop :=
  | impl_dense : implementation n x (dense M) dense_actual (d_new n x)
  | impl_sparse : implementation n x (sparse M) sparse_actual (s_new n x).
  Definition bound (n x : N) : N := 2 ^ n + x.

  (** The tables some client arrives at. *)
  Definition reached (est : N -> N -> M -> M -> M) (cf : N -> N -> reader M) (n x : N) {T} (A : actual M T) (t : T) : Prop :=
    exists t0 R (p : client M R) r, implementation n x T A t0 /\ within (bound n x) n p /\ run est cf A p t0 = Ok (r, t).
  (** What [PT[s]] returns is the entry [f s], for all [s] below the bound. *)
  Definition holds (n x : N) {T} (A : actual M T) (t : T) (f : pmap) : Prop :=
    forall s, s < bound n x -> exists t', a_get A s t = Ok (f s, t').
  (** A sequence of calls of [update] with the offers made, each with the subproblem it is for. *)
  Inductive history (est : N -> N -> M -> M -> M) (cf : N -> N -> reader M) (n x : N) {T} (A : actual M T) :
    T -> list (N * N) -> list (N * offer) -> T -> Prop :=
  | h_nil t : history est cf n x A t [] [] t
  | h_cons t f l r t1 us os t2 : holds n x A t f -> b_update est cf A l r t = Ok t1 -> history est cf n x A t1 us os t2 ->
      history est cf n x A t ((l, r) :: us) (map (pair (N.lor l r)) (offers_of est cf f l r) ++ os) t2.
  Definition offers_for (S : N) (os : list (N * offer)) : list offer := map snd (filter (fun x => fst x =? S) os).
End Spec.
