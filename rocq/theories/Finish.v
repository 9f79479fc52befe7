(** * Model of the end of a plan: projection, ORDER BY, LIMIT

    src/IR/Optimizer.cpp 108-148 ([compute_projections_required_for_order_by]), 195-199 (queries without source), 412-495 (end of
    [optimize_plan]), src/IR/Operator.cpp 224-252 (names of the columns of a projection), src/backend/StackMachine.cpp 63-200, 548-560
    (compilation of expressions: search of columns by name) and src/backend/Interpreter.cpp 585-604, 1585-1637.

    A row is a list of cells, its schema the list of the names of its columns; names are numbers.  The plan before the projection (joins,
    grouping) is given, with its schema.  Simplifications: types and constraints of columns are left out; an application of an aggregate
    function is identified by its printed form; functions have one argument (the interpreter knows ISNULL and INT); subqueries in
    expressions are left out. *)
From Coq Require Import NArith List Bool.
From Verif Require Import Interp.
Import ListNotations.

Notation cell := (option datum).
Notation row := (list (option datum)).
(** [Schema::Identifier]: optional prefix (the table) and name *)
Notation ident := (option N * N)%type.
Notation schema := (list (option N * N)).

(** expressions as the semantic analysis leaves them.  [ECol table attr target]: a designator; [target = Some k]: it refers to the [k]-th
    expression of SELECT (Sema.cpp 160-175, 261-278), else to a column of the plan. *)
Inductive expr :=
  | ECol (table : option N) (attr : N) (target : option nat)
  | EAgg (name : N)                            (** an aggregate, computed by the grouping below *)
  | EConst (v : cell)
  | EFn (f : N) (e : expr)                     (** ISNULL, INT *)
  | EUn (op : N) (e : expr)
  | EBin (op : N) (l r : expr).

Definition ident_eqb (a b : ident) : bool :=
  match fst a, fst b with
  | None, None => N.eqb (snd a) (snd b)
  | Some p, Some q => N.eqb p q && N.eqb (snd a) (snd b)
  | _, _ => false
  end.
(** [operator==], AST.cpp 89-160; constants are compared by their text *)
Section Print.
Context (text : expr -> N).                    (** the printed form of an expression, [oss << expr] *)
Context (fn_sem : N -> cell -> cell) (un_sem : N -> cell -> cell) (bin_sem : N -> cell -> cell -> cell). (** C31 *)

Fixpoint expr_eqb (a b : expr) : bool :=
  match a, b with
  | ECol t n _, ECol t' n' _ => ident_eqb (t, n) (t', n')
  | EAgg n, EAgg n' => N.eqb n n'
  | EConst _, EConst _ => N.eqb (text a) (text b)
  | EFn f e, EFn f' e' => N.eqb f f' && expr_eqb e e'
  | EUn o e, EUn o' e' => N.eqb o o' && expr_eqb e e'
  | EBin o l r, EBin o' l' r' => N.eqb o o' && expr_eqb l l' && expr_eqb r r'
  | _, _ => false
  end.

(** ** Schemas
    [Schema::find] (Schema.hpp 120-127) for one schema and [find_id] (StackMachine.cpp 64-73); [None]: not found, or the exception for an
    ambiguous name *)
Fixpoint positions (S : schema) (id : ident) (i : nat) : list nat :=
  match S with
  | [] => []
  | x :: S' => (if ident_eqb x id then [i] else []) ++ positions S' id (Datatypes.S i)
  end.
Definition find_id (S : schema) (id : ident) : option nat := match positions S id 0 with [i] => Some i | _ => None end.

(** an expression of SELECT with its alias *)
Notation projection := (expr * option N)%type.
Context (const_id : ident).                    (** [Schema::Identifier::GetConstant()] *)
(** the name of a column of a projection, Operator.cpp 228-250 *)
Definition out_name (p : projection) : ident :=
  match snd p with
  | Some alias => (None, alias)
  | None => match fst p with ECol t n _ => (t, n) | EConst _ => const_id | EAgg n => (None, n) | e => (None, text e) end
  end.

(** ** Compilation of an expression on tuples of the schema [S] *)
Definition load_col (S : schema) (id : ident) : option (row -> cell) :=
  match find_id S id with Some i => Some (fun r => nth i r None) | None => None end.
Fixpoint compile (S : schema) (e : expr) : option (row -> cell) :=
  match e with
  | ECol t n _ => load_col S (t, n)
  | EAgg n => load_col S (None, n)
  | EConst v => Some (fun _ => v)
  | EFn f e => match compile S e with Some g => Some (fun r => fn_sem f (g r)) | None => None end
  | EUn o e => match compile S e with Some g => Some (fun r => un_sem o (g r)) | None => None end
  | EBin o l r =>
      match compile S l, compile S r with Some g, Some h => Some (fun x => bin_sem o (g x) (h x)) | _, _ => None end
  end.
(** [StackMachine::emit], StackMachine.cpp 548-560: an expression whose printed form is a column is already computed.  [Schema::Identifier(expr)],
    Schema.cpp 33-45. *)
Definition expr_id (e : expr) : ident := match e with ECol t n _ => (t, n) | EAgg n => (None, n) | _ => (None, text e) end.
Definition emit (S : schema) (e : expr) : option (row -> cell) :=
  match positions S (expr_id e) 0 with
  | [] => compile S e
  | [i] => Some (fun r => nth i r None)
  | _ => None
  end.
Fixpoint all_some {A} (l : list (option A)) : option (list A) :=
  match l with
  | [] => Some []
  | Some a :: l' => match all_some l' with Some r => Some (a :: r) | None => None end
  | None :: _ => None
  end.
(** a [ProjectionOperator] with [ps] above a plan of schema [S]: the plan and its schema *)
Definition project (ps : list projection) (S : schema) (p : @plan row) : option (@plan row * schema) :=
  match all_some (map (fun q => emit S (fst q)) ps) with
  | Some gs => Some (Project (fun r => map (fun g => g r) gs) p, map out_name ps)
  | None => None
  end.

(** ** [compute_projections_required_for_order_by], Optimizer.cpp 108-148: the visit of one expression, in pre-order *)
Fixpoint required (P : list projection) (e : expr) : list expr :=
  match e with
  | ECol _ _ (Some _) => []
  | ECol _ _ None => if existsb (fun q => match snd q with None => expr_eqb e (fst q) | Some _ => false end) P then [] else [e]
  | EAgg _ => if existsb (fun q => match snd q with None => expr_eqb e (fst q) | Some _ => false end) P then [] else [e]
  | EFn _ _ => if existsb (fun q => match snd q with None => expr_eqb e (fst q) | Some _ => false end) P then [] else [e]
  | EConst _ => []
  | EUn _ e => required P e
  | EBin _ l r => required P l ++ required P r
  end.

(** ** A query: SELECT, ORDER BY ([true] is ascending) and LIMIT with OFFSET; [nested]: a nested query with an alias *)
Record query := mkQuery { q_select : list projection; q_order : list (expr * bool); q_limit : option (N * N); q_nested : bool }.
(** QueryGraph.cpp 1877-1890: no LIMIT is [0, 0] *)
Definition limit_of (q : query) : N * N := match q_limit q with Some l => l | None => (0%N, 0%N) end.
(** lines 469-483: an aliased expression becomes a designator with the alias *)
Definition adapt (q : projection) : projection := match snd q with Some alias => (ECol None alias None, None) | None => (fst q, None) end.

(** ** End of [optimize_plan], Optimizer.cpp 412-495, on a plan [p] of schema [S]; then the compilation of the expressions by the interpreter *)
Definition finish (q : query) (S : schema) (p : @plan row) : option (@plan row * schema) :=
  let P := q_select q in
  let additional := flat_map (fun o => required P (fst o)) (q_order q) in
  let post := negb (match additional with [] => true | _ => false end) in
  let merged := map (fun e => (e, None)) additional ++ P in
  let projected := match merged with [] => Some (p, S) | _ => project merged S p end in
  match projected with
  | None => None
  | Some (p1, S1) =>
      let ordered :=
        match q_order q with
        | [] => Some p1
        | order =>
            match all_some (map (fun o => emit S1 (fst o)) order) with
            | Some gs => Some (Sort (combine gs (map snd order)) p1)
            | None => None
            end
        end in
      match ordered with
      | None => None
      | Some p2 =>
          let '(limit, offset) := limit_of q in
          let limited := negb (N.eqb limit 0) || negb (N.eqb offset 0) in
          let p3 := if limited then Limit limit offset p2 else p2 in
          let is_projection :=
            negb (match merged with [] => true | _ => false end) && (match q_order q with [] => true | _ => false end) && negb limited in
          if post || (negb is_projection && q_nested q) then project (map adapt P) S1 p3 else Some (p3, S1)
      end
  end.

(** queries without source, Optimizer.cpp 195-199: only the projection *)
Definition finish_no_source (q : query) : option (@plan row) :=
  match all_some (map (fun p => emit [] (fst p)) (q_select q)) with
  | Some gs => Some (ProjectOnce (map (fun g => g []) gs))
  | None => None
  end.
End Print.
