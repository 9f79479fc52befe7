(** * What SELECT, ORDER BY and LIMIT must compute (specification for C52) *)
From Coq Require Import NArith List Bool Permutation Sorted.
From Verif Require Import Interp InterpSpec Finish.
Import ListNotations.

Section Spec.
Context (fn_sem : N -> cell -> cell) (un_sem : N -> cell -> cell) (bin_sem : N -> cell -> cell -> cell).

(** the value of an expression for a row [r] of the schema [S]; a reference to SELECT has the value of the expression there *)
Inductive value (S : schema) (P : list (expr * option N)) (r : row) : expr -> cell -> Prop :=
  | v_col t n i v : nth_error S i = Some (t, n) -> nth_error r i = Some v -> value S P r (ECol t n None) v
  | v_ref t n k e alias v : nth_error P k = Some (e, alias) -> value S [] r e v -> value S P r (ECol t n (Some k)) v
  | v_agg n i v : nth_error S i = Some (None, n) -> nth_error r i = Some v -> value S P r (EAgg n) v
  | v_const c : value S P r (EConst c) c
  | v_fn f e v : value S P r e v -> value S P r (EFn f e) (fn_sem f v)
  | v_un o e v : value S P r e v -> value S P r (EUn o e) (un_sem o v)
  | v_bin o e1 e2 v1 v2 : value S P r e1 v1 -> value S P r e2 v2 -> value S P r (EBin o e1 e2) (bin_sem o v1 v2).

(** [rows] is an answer: the rows of the plan, in an order that ORDER BY allows, from OFFSET on, at most LIMIT of them, and of each the values of the
    expressions of SELECT *)
Definition cut (l : option (N * N)) (rows : list row) : list row :=
  match l with None => rows | Some (limit, offset) => firstn (N.to_nat limit) (skipn (N.to_nat offset) rows) end.
Definition answers_select (q : query) (S : schema) (p : @plan row) (rows : list row) : Prop :=
  exists l ordered keys,
    answer p l /\ Permutation ordered l /\
    Forall2 (fun o k => snd o = snd k /\ forall r, In r l -> value S (q_select q) r (fst o) (fst k r)) (q_order q) keys /\
    StronglySorted (fun x y => ~ precedes keys y x) ordered /\
    Forall2 (fun r out => Forall2 (fun s v => value S [] r (fst s) v) (q_select q) out) (cut (q_limit q) ordered) rows.

(** ** Queries as the semantic analysis leaves them
    all columns exist *)
Inductive known (S : schema) : expr -> Prop :=
  | k_col t n : In (t, n) S -> known S (ECol t n None)
  | k_agg n : In (None, n) S -> known S (EAgg n)
  | k_const c : known S (EConst c)
  | k_fn f e : known S e -> known S (EFn f e)
  | k_un o e : known S e -> known S (EUn o e)
  | k_bin o e1 e2 : known S e1 -> known S e2 -> known S (EBin o e1 e2).
(** a key of ORDER BY: a function only as a whole, and a reference has the name of the column it refers to *)
Context (text : expr -> N) (const_id : ident).
Inductive orderable (S : schema) (P : list (expr * option N)) : expr -> Prop :=
  | o_col t n : In (t, n) S -> orderable S P (ECol t n None)
  | o_ref t n k e alias : nth_error P k = Some (e, alias) -> (forall c, e = EConst c -> alias <> None) -> (t, n) = out_name text const_id (e, alias) -> orderable S P (ECol t n (Some k))
  | o_agg n : In (None, n) S -> orderable S P (EAgg n)
  | o_const c : orderable S P (EConst c)
  | o_un o e : orderable S P e -> orderable S P (EUn o e)
  | o_bin o e1 e2 : orderable S P e1 -> orderable S P e2 -> orderable S P (EBin o e1 e2).
Definition sort_key (S : schema) (P : list (expr * option N)) (e : expr) : Prop := orderable S P e \/ exists f a, e = EFn f a /\ known S e.
(** not a column of the plan, but computed *)
Definition computed (e : expr) : Prop := match e with ECol _ _ _ | EAgg _ => False | _ => True end.
(** the columns, aggregates and functions that an expression mentions, without those of SELECT that it refers to *)
Fixpoint mentions (e : expr) : list expr :=
  match e with
  | ECol _ _ None | EAgg _ | EFn _ _ => [e]
  | ECol _ _ (Some _) | EConst _ => []
  | EUn _ e => mentions e
  | EBin _ l r => mentions l ++ mentions r
  end.
(** the same expression; constants are compared by their text *)
Fixpoint same_expr (a b : expr) : bool :=
  match a, b with
  | ECol t n _, ECol t' n' _ => ident_eqb (t, n) (t', n')
  | EAgg n, EAgg n' => N.eqb n n'
  | EConst _, EConst _ => N.eqb (text a) (text b)
  | EFn f e, EFn f' e' => N.eqb f f' && same_expr e e'
  | EUn o e, EUn o' e' => N.eqb o o' && same_expr e e'
  | EBin o l r, EBin o' l' r' => N.eqb o o' && same_expr l l' && same_expr r r'
  | _, _ => false
  end.
Definition prints : Prop := forall a b, same_expr a b = true -> text a = text b.
(** those that SELECT does not deliver under their own name *)
Definition hidden (P : list (expr * option N)) (O : list (expr * bool)) : list expr :=
  filter (fun e => negb (existsb (fun s => match snd s with None => same_expr e (fst s) | Some _ => false end) P)) (flat_map (fun o => mentions (fst o)) O).
(** the names of these expressions; constants without alias have none *)
Definition names (P : list (expr * option N)) : list ident :=
  flat_map (fun s => match s with (EConst _, None) => [] | _ => [out_name text const_id s] end) P.
(** ** Queries that can be planned: all columns exist; if something is computed above the projection, its columns have different names, and a column that
    is named like the printed form of an expression is this expression; not LIMIT 0 *)
Definition merged (q : query) : list (expr * option N) := map (fun e => (e, None)) (hidden (q_select q) (q_order q)) ++ q_select q.
Definition proper (q : query) (S : schema) : Prop :=
  q_select q <> [] /\ NoDup S /\
  Forall (fun s => known S (fst s)) (q_select q) /\ Forall (fun o => sort_key S (q_select q) (fst o)) (q_order q) /\
  (forall s, In s (merged q) -> computed (fst s) -> ~ In (None, text (fst s)) S) /\
  (q_order q <> [] \/ (q_nested q = true /\ q_limit q <> None) ->
     NoDup (names (merged q)) /\ ~ In const_id (names (merged q)) /\
     forall e, In e (map fst (q_order q)) \/ In (e, None) (q_select q) -> computed e ->
       const_id <> (None, text e) /\ forall s, In s (merged q) -> out_name text const_id s = (None, text e) -> fst s = e) /\
  q_limit q <> Some (0%N, 0%N).
(** for the execution: the values to sort by have one type and none is NULL; the last row has a 64-bit number *)
Definition sortable (q : query) (S : schema) (p : @plan row) : Prop :=
  forall l, answer p l -> (length l <= 1)%nat \/ forall o, In o (q_order q) ->
    (forall r v, In r l -> value S (q_select q) r (fst o) v -> exists z, v = Some (DInt z)) \/
    (forall r v, In r l -> value S (q_select q) r (fst o) v -> exists z, v = Some (DReal z)) \/
    (forall r v, In r l -> value S (q_select q) r (fst o) v -> exists z, v = Some (DChars z)).
Definition countable (q : query) : Prop := forall limit offset, q_limit q = Some (limit, offset) -> (limit + offset < 2 ^ 64)%N.
End Spec.
