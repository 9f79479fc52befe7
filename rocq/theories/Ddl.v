(** * The catalog: data definition and the data-changing statements as far as they concern it
    (src/catalog/DatabaseCommand.cpp, src/catalog/Catalog.cpp, the struct [Database] of include/mutable/catalog/Schema.hpp, and the
    checks of src/parse/Sema.cpp)

    Names are numbers.  Databases and tables are objects with addresses (numbers, never reused); pointers and references to them are addresses,
    and following one to an object that has been destroyed is [Crash].  Exceptions that leave a statement and null pointers followed are [Crash], too. *)
From Coq Require Import Arith List Bool ZArith.
Import ListNotations.

Definition name := nat.
(** Types: character sequences, for which there is no RMI (Sema.cpp 1690-1725), and all others. *)
Inductive ty := TChar | TOther (n : nat).
Definition ty_eqb (a b : ty) : bool := match a, b with TChar, TChar => true | TOther n, TOther m => n =? m | _, _ => false end.
Inductive method := Array | RMI.
Definition method_eqb (a b : method) : bool := match a, b with Array, Array | RMI, RMI => true | _, _ => false end.

(** A row: one value (or NULL) per attribute. *)
Definition row := list (option Z).
(** Schema.hpp, [Attribute]; [a_ref]: the address of the referenced table and the position of the referenced attribute. *)
Record attr := mkattr { a_name : name; a_type : ty; a_ref : option (nat * nat) }.
(** Schema.hpp, [Table] with its store *)
Record table := mktable { t_obj : nat; t_name : name; t_attrs : list attr; t_rows : list row }.
(** Schema.hpp 873-890 ([index_entry_type]); [i_table], [i_attr]: the references to the table and to its attribute (its position);
    [i_entries]: keys and numbers of rows. *)
Record index := mkindex { i_name : name; i_table : nat; i_attr : nat; i_method : method; i_entries : list (Z * nat); i_valid : bool }.
(** Schema.hpp 892-898 ([Database]) *)
Record db := mkdb { d_obj : nat; d_name : name; tables : list table; indexes : list index }.
(** Catalog.hpp 224-225; [next]: the next free address *)
Record state := mkstate { dbs : list db; in_use : option nat; next : nat }.
Definition init : state := mkstate [] None 0.

(** Schema.hpp 920, 934 ([get_table], [has_table]) *)
Definition find_table (d : db) (n : name) : option table := find (fun t => t_name t =? n) (tables d).
(** The table at an address, as an index of the database refers to it (an index may refer to tables of its database only). *)
Definition deref (d : db) (obj : nat) : option table := find (fun t => t_obj t =? obj) (tables d).
Definition find_index (d : db) (n : name) : option index := find (fun i => i_name i =? n) (indexes d).
(** Catalog.hpp 283-285 *)
Definition find_db (st : state) (n : name) : option db := find (fun d => d_name d =? n) (dbs st).
Definition db_at (st : state) (obj : nat) : option db := find (fun d => d_obj d =? obj) (dbs st).
(** The position of an attribute (Schema.hpp 668-681: [at], [has_attribute]). *)
Fixpoint pos_of (attrs : list attr) (n : name) : option nat :=
  match attrs with
  | [] => None
  | a :: attrs' => if a_name a =? n then Some 0 else match pos_of attrs' n with Some p => Some (S p) | None => None end
  end.

(** A database changed in place *)
Definition update_db (st : state) (obj : nat) (d' : db) : state :=
  mkstate (map (fun d => if d_obj d =? obj then d' else d) (dbs st)) (in_use st) (next st).
Definition set_tables (d : db) (ts : list table) : db := mkdb (d_obj d) (d_name d) ts (indexes d).
Definition set_indexes (d : db) (is : list index) : db := mkdb (d_obj d) (d_name d) (tables d) is.

(** Declaration of an attribute: name, type, REFERENCES table(attribute) *)
Definition decl := (name * ty * option (name * name))%type.
Inductive command :=
| CreateDatabase (n : name)
| DropDatabase (n : name) (if_exists : bool)
| UseDatabase (n : name)
| CreateTable (n : name) (attrs : list decl)
| DropTable (ns : list name) (if_exists : bool)
| CreateIndex (n : name) (if_not_exists : bool) (t a : name) (m : method)
| DropIndex (ns : list name) (if_exists : bool)
| Insert (t : name) (rows : list row)
| Import (t : name) (rows : list row)
| Select (t : name).

(** [Done st ok]: [ok] if no error was reported *)
Inductive result := Done (st : state) (ok : bool) | Crash.

(** Catalog.hpp 295-300 ([get_database_in_use]), with the check of Sema before it *)
Definition with_db (st : state) (f : db -> result) : result :=
  match in_use st with
  | None => Done st false
  | Some obj => match db_at st obj with Some d => f d | None => Crash end
  end.

(** ** Tables *)
(** Sema.cpp 1545-1568: the referenced attribute is looked up, its type compared. *)
Definition resolve (d : db) (t : ty) (r : name * name) : option (nat * nat) :=
  match find_table d (fst r) with
  | None => None
  | Some rt => match pos_of (t_attrs rt) (snd r) with
               | None => None
               | Some p => match nth_error (t_attrs rt) p with
                           | Some ra => if ty_eqb t (a_type ra) then Some (t_obj rt, p) else None
                           | None => None
                           end
               end
  end.
(** Sema.cpp 1496-1572: the attributes are added to the new table one after the other; [None]: an error. *)
Fixpoint analyze_attrs (d : db) (done : list attr) (ds : list decl) : option (list attr) :=
  match ds with
  | [] => Some done
  | (n, t, r) :: ds' =>
      match pos_of done n with
      | Some _ => None
      | None =>
          match r with
          | None => analyze_attrs d (done ++ [mkattr n t None]) ds'
          | Some r => match resolve d t r with
                      | Some ref => analyze_attrs d (done ++ [mkattr n t (Some ref)]) ds'
                      | None => None
                      end
          end
      end
  end.
(** Sema.cpp 1466-1578 and DatabaseCommand.cpp 261-278.  If the table exists already when the command is executed, a null pointer is
    followed (line 273). *)
Definition create_table (st : state) (n : name) (ds : list decl) : result :=
  with_db st (fun d =>
    match find_table d n, analyze_attrs d [] ds with
    | None, Some attrs =>
        match find_table d n with
        | Some _ => Crash
        | None => let st' := update_db st (d_obj d) (set_tables d (mktable (next st) n attrs [] :: tables d)) in
                  Done (mkstate (dbs st') (in_use st') (S (next st))) true
        end
    | _, _ => Done st false
    end).

(** Schema.hpp 979-988 ([drop_indexes]): the name of the table of each index is read through its reference. *)
Fixpoint drop_indexes (d : db) (n : name) (is : list index) : option (list index) :=
  match is with
  | [] => Some []
  | i :: is' => match deref d (i_table i), drop_indexes d n is' with
                | Some t, Some rest => Some (if t_name t =? n then rest else i :: rest)
                | _, _ => None
                end
  end.
(** Schema.hpp 937-943 ([drop_table]) and the loop of DatabaseCommand.cpp 280-293 *)
Fixpoint drop_tables (d : db) (ok : bool) (ns : list name) : option (db * bool) :=
  match ns with
  | [] => Some (d, ok)
  | n :: ns' =>
      match find_table d n with
      | None => drop_tables d false ns'
      | Some _ => match drop_indexes d n (indexes d) with
                  | None => None
                  | Some is => drop_tables (mkdb (d_obj d) (d_name d) (filter (fun t => negb (t_name t =? n)) (tables d)) is) ok ns'
                  end
      end
  end.
(** Sema.cpp 1580-1609 *)
Definition drop_table (st : state) (ns : list name) (if_exists : bool) : result :=
  with_db st (fun d =>
    let present := filter (fun n => match find_table d n with Some _ => true | None => false end) ns in
    if if_exists || (length present =? length ns) then
      match drop_tables d true present with
      | None => Crash
      | Some (d', ok) => Done (update_db st (d_obj d) d') ok
      end
    else Done st false).

(** ** Indexes *)
(** Index.cpp 57-140 ([bulkload]): the keys that are not NULL, with the numbers of their rows.  (How the array index sorts them is C16, the
    learned index C17.) *)
Fixpoint bulk (rows : list row) (pos i : nat) : list (Z * nat) :=
  match rows with
  | [] => []
  | r :: rows' => match nth_error r pos with
                  | Some (Some v) => (v, i) :: bulk rows' pos (S i)
                  | _ => bulk rows' pos (S i)
                  end
  end.
(** Schema.cpp 83-97 ([ConcreteTable::schema]): every reference of an attribute is followed ([attr->reference->is_unique()]). *)
Definition schema_ok (d : db) (t : table) : bool :=
  forallb (fun a => match a_ref a with
                    | None => true
                    | Some (o, _) => match deref d o with Some _ => true | None => false end
                    end) (t_attrs t).
(** Sema.cpp 1611-1758, DatabaseCommand.cpp 295-331 (which asks for the table's schema) and Schema.hpp 960-968 ([add_index]); one key field that is an attribute, no UNIQUE.  The
    types of key and attribute agree, so that [bulkload] does not throw. *)
Definition create_index (st : state) (n : name) (if_not_exists : bool) (tn an : name) (m : method) : result :=
  with_db st (fun d =>
    match find_index d n with
    | Some _ => Done st if_not_exists
    | None =>
        match find_table d tn with
        | None => Done st false
        | Some t =>
            match pos_of (t_attrs t) an with
            | None => Done st false
            | Some p =>
                match nth_error (t_attrs t) p with
                | None => Crash
                | Some a =>
                    if method_eqb m RMI && ty_eqb (a_type a) TChar then Done st false
                    else if negb (schema_ok d t) then Crash
                    else Done (update_db st (d_obj d) (set_indexes d (indexes d ++ [mkindex n (t_obj t) p m (bulk (t_rows t) p 0) true]))) true
                end
            end
        end
    end).

(** Schema.hpp 970-978 ([drop_index]): the first index of that name *)
Fixpoint remove_first (n : name) (is : list index) : list index :=
  match is with
  | [] => []
  | i :: is' => if i_name i =? n then is' else i :: remove_first n is'
  end.
(** DatabaseCommand.cpp 333-346 *)
Fixpoint drop_index_loop (d : db) (ok : bool) (ns : list name) : db * bool :=
  match ns with
  | [] => (d, ok)
  | n :: ns' => match find_index d n with
                | None => drop_index_loop d false ns'
                | Some _ => drop_index_loop (set_indexes d (remove_first n (indexes d))) ok ns'
                end
  end.
(** Sema.cpp 1760-1787 *)
Definition drop_index (st : state) (ns : list name) (if_exists : bool) : result :=
  with_db st (fun d =>
    let present := filter (fun n => match find_index d n with Some _ => true | None => false end) ns in
    if if_exists || (length present =? length ns) then
      let '(d', ok) := drop_index_loop d true present in Done (update_db st (d_obj d) d') ok
    else Done st false).

(** ** Rows *)
Definition append (tn : name) (rows : list row) (ts : list table) : list table :=
  map (fun t => if t_name t =? tn then mktable (t_obj t) (t_name t) (t_attrs t) (t_rows t ++ rows) else t) ts.
(** Schema.hpp 1048-1055 ([invalidate_indexes]) *)
Fixpoint invalidate (d : db) (n : name) (is : list index) : option (list index) :=
  match is with
  | [] => Some []
  | i :: is' => match deref d (i_table i), invalidate d n is' with
                | Some t, Some rest =>
                    Some ((if t_name t =? n then mkindex (i_name i) (i_table i) (i_attr i) (i_method i) (i_entries i) false else i) :: rest)
                | _, _ => None
                end
  end.
(** DatabaseCommand.cpp 127-187 ([InsertRecords]), the rows being well typed (C45); the writer asks for the schema (mutable.cpp 444) *)
Definition insert (st : state) (tn : name) (rows : list row) : result :=
  with_db st (fun d =>
    match find_table d tn with
    | None => Done st false
    | Some t => if negb (schema_ok d t) then Crash
                else let d' := set_tables d (append tn rows (tables d)) in
                match invalidate d' tn (indexes d') with
                | None => Crash
                | Some is => Done (update_db st (d_obj d) (set_indexes d' is)) true
                end
    end).
(** DatabaseCommand.cpp 199-221 ([ImportDSV]), of a file with these rows (C38); the reader does not ask for the schema (DSVReader.cpp 37-39) *)
Definition import (st : state) (tn : name) (rows : list row) : result :=
  with_db st (fun d =>
    match find_table d tn with
    | None => Done st false
    | Some _ => Done (update_db st (d_obj d) (set_tables d (append tn rows (tables d)))) true
    end).
(** A query that reads one table (Sema.cpp 1187-1207: the table must exist; Operator.hpp 258-265, [ScanOperator]: its schema is asked for); what it
    answers is the subject of other models. *)
Definition select (st : state) (tn : name) : result :=
  with_db st (fun d =>
    match find_table d tn with
    | None => Done st false
    | Some t => if schema_ok d t then Done st true else Crash
    end).

(** ** Databases *)
(** Sema.cpp 1419-1429, DatabaseCommand.cpp 228-237, Catalog.cpp 57-63 *)
Definition create_database (st : state) (n : name) : result :=
  match find_db st n with
  | Some _ => Done st false
  | None => Done (mkstate (mkdb (next st) n [] [] :: dbs st) (in_use st) (S (next st))) true
  end.
(** Sema.cpp 1431-1452, DatabaseCommand.cpp 239-248, Catalog.cpp 65-74: not the one in use, whose name is read through the pointer *)
Definition drop_database (st : state) (n : name) (if_exists : bool) : result :=
  let go := match find_db st n with
            | None => Done st if_exists
            | Some d => Done (mkstate (filter (fun e => negb (d_obj e =? d_obj d)) (dbs st)) (in_use st) (next st)) true
            end in
  match in_use st with
  | None => go
  | Some obj => match db_at st obj with
                | None => Crash
                | Some d => if d_name d =? n then Done st false else go
                end
  end.
(** Sema.cpp 1454-1464, DatabaseCommand.cpp 250-260 *)
Definition use_database (st : state) (n : name) : result :=
  match find_db st n with
  | None => Done st false
  | Some d => Done (mkstate (dbs st) (Some (d_obj d)) (next st)) true
  end.

Definition execute (st : state) (c : command) : result :=
  match c with
  | CreateDatabase n => create_database st n
  | DropDatabase n e => drop_database st n e
  | UseDatabase n => use_database st n
  | CreateTable n ds => create_table st n ds
  | DropTable ns e => drop_table st ns e
  | CreateIndex n e t a m => create_index st n e t a m
  | DropIndex ns e => drop_index st ns e
  | Insert t rows => insert st t rows
  | Import t rows => import st t rows
  | Select t => select st t
  end.
(** SerialScheduler.cpp 130-165: one statement after the other *)
Fixpoint execute_all (st : state) (cs : list command) : option (state * list bool) :=
  match cs with
  | [] => Some (st, [])
  | c :: cs' => match execute st c with
                | Crash => None
                | Done st' ok => match execute_all st' cs' with Some (st'', oks) => Some (st'', ok :: oks) | None => None end
                end
  end.

(** ** What a query asks for *)
(** Schema.hpp 1027-1046 ([get_index]) of the database in use: a valid index of the method on the attribute; [None]: exception (none, or no
    such table or attribute). *)
Fixpoint lookup_index (d : db) (tn an : name) (m : method) (is : list index) : option (option (list (Z * nat))) :=
  match is with
  | [] => Some None
  | i :: is' =>
      match deref d (i_table i) with
      | None => None
      | Some t =>
          match nth_error (t_attrs t) (i_attr i) with
          | None => None
          | Some a => if i_valid i && (t_name t =? tn) && (a_name a =? an) && method_eqb (i_method i) m then Some (Some (i_entries i))
                      else lookup_index d tn an m is'
          end
      end
  end.
(** The outer [None] is a crash. *)
Definition get_index (st : state) (tn an : name) (m : method) : option (option (list (Z * nat))) :=
  match in_use st with
  | None => Some None
  | Some obj => match db_at st obj with
                | None => None
                | Some d => match find_table d tn with
                            | None => Some None
                            | Some t => match pos_of (t_attrs t) an with
                                        | None => Some None
                                        | Some _ => lookup_index d tn an m (indexes d)
                                        end
                            end
                end
  end.
