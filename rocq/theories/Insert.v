(** * Model of INSERT: src/catalog/DatabaseCommand.cpp lines 127-183 ([InsertRecords::execute])

    A tuple is the list of its attributes, [None] is NULL (see Tuple.v for the tuples themselves).  An expression is
    represented by the value it has after the cast to the attribute's type (line 168-170); values are integers.  Writing
    the tuple to the store (line 181) appends a copy of it. *)
From Coq Require Import List Arith Lia Bool ZArith.
Import ListNotations.

(** include/mutable/catalog/Schema.hpp: an attribute of a table, as far as INSERT looks at it. *)
Record attribute := mkAttr { is_hidden : bool; not_nullable : bool }.

(** Elements of the given tuples, include/mutable/parse/AST.hpp [InsertStmt::kind_t]. *)
Inductive element := I_Null | I_Default | I_Expr (v : option Z).

Notation tuple := (list (option Z)).

(** [Tuple::set]/[Tuple::null] *)
Fixpoint set_nth (n : nat) (x : option Z) (t : tuple) : tuple :=
  match t, n with
  | [], _ => []
  | _ :: r, 0 => x :: r
  | y :: r, S m => y :: set_nth m x r
  end.

(** include/mutable/catalog/Schema.hpp 736-740: [convert_id], the loop from [i] with [fuel] attributes left; reading beyond
    the attributes is undefined, the model then yields the number of attributes. *)
Fixpoint convert_loop (attrs : list attribute) (i id : nat) : nat :=
  match attrs with
  | [] => id
  | a :: r => if i <=? id then convert_loop r (S i) (if is_hidden a then S id else id) else id
  end.
Definition convert_id (attrs : list attribute) (id : nat) : nat := convert_loop attrs 0 id.

(** Lines 153-173: one given tuple, from its [i]-th element. *)
Fixpoint fill (attrs : list attribute) (i : nat) (els : list element) (tup : tuple) : tuple :=
  match els with
  | [] => tup
  | el :: r =>
      fill attrs (S i) r
        (match el with
         | I_Null => set_nth i None tup
         | I_Default => tup
         | I_Expr v => set_nth (convert_id attrs i) v tup
         end)
  end.

(** Lines 139-147, 175-180: [ts] is [Some (ts_begin->id, ts_end->id)] if the table has these hidden attributes. *)
Definition stamp (ts : option (nat * nat)) (start_time : Z) (tup : tuple) : tuple :=
  match ts with
  | None => tup
  | Some (b, e) => set_nth e (Some (-1)%Z) (set_nth b (Some start_time) tup)
  end.

(** Lines 149-182: the loop over the given tuples.  [tup] is created once (line 137) and reused.  Returns the appended
    rows. *)
Fixpoint insert_loop (attrs : list attribute) (ts : option (nat * nat)) (start_time : Z) (ts_tup : tuple) (tuples : list (list element))
  : list tuple :=
  match tuples with
  | [] => []
  | t :: r => let tup := stamp ts start_time (fill attrs 0 t ts_tup) in tup :: insert_loop attrs ts start_time tup r
  end.

(** Line 137: [Tuple tup(S)] -- all attributes NULL (src/IR/Tuple.cpp). *)
Definition insert_records (attrs : list attribute) (ts : option (nat * nat)) (start_time : Z) (tuples : list (list element)) : list tuple :=
  insert_loop attrs ts start_time (map (fun _ => None) attrs) tuples.

(** src/parse/Sema.cpp 1834-1878: the number of values is checked, and that no NULL literal is given for a NOT NULL
    attribute. *)
Fixpoint sema_tuple (visible : list attribute) (t : list element) : bool :=
  match visible, t with
  | [], [] => true
  | a :: va, el :: r => (match el with I_Null => negb (not_nullable a) | _ => true end) && sema_tuple va r
  | _, _ => false
  end.
Definition sema_insert (attrs : list attribute) (tuples : list (list element)) : bool :=
  forallb (sema_tuple (filter (fun a => negb (is_hidden a)) attrs)) tuples.

(** src/catalog/Schema.cpp 123-138 and src/parse/Sema.cpp 1477ff.: a table with multi-versioning gets its two hidden
    attributes when it is made, before the declared ones. *)
Definition multi_versioning (attrs : list attribute) : list attribute := mkAttr true true :: mkAttr true true :: attrs.
