(** * What data definition means: maps from names to databases, tables and indexes *)
From Coq Require Import Arith List Bool ZArith.
From Verif Require Import Ddl.
Import ListNotations.

(** A table: its attributes and its rows.  An index: the names of table and attribute, and the method. *)
Record sdb := mksdb { stable : name -> option (list (name * ty) * list row); sindex : name -> option (name * name * method) }.
Record sstate := mksstate { sdbs : name -> option sdb; current : option name }.
Definition empty_db : sdb := mksdb (fun _ => None) (fun _ => None).
Definition sinit : sstate := mksstate (fun _ => None) None.

Definition set {A} (m : name -> option A) (n : name) (v : option A) : name -> option A := fun k => if k =? n then v else m k.
Definition remove {A} (m : name -> option A) (ns : list name) : name -> option A := fun k => if existsb (Nat.eqb k) ns then None else m k.

(** The attribute exists in the table and has this type. *)
Definition has_attr (d : sdb) (t a : name) (ty : ty) : Prop :=
  exists attrs rows, stable d t = Some (attrs, rows) /\ In (a, ty) attrs.
Definition good_decl (d : sdb) (x : decl) : Prop :=
  match snd x with None => True | Some (t, a) => has_attr d t a (snd (fst x)) end.

(** In the database in use *)
Inductive in_db (s : sstate) (n : name) (d : sdb) : Prop :=
| in_db_intro : current s = Some n -> sdbs s n = Some d -> in_db s n d.
Definition put (s : sstate) (n : name) (d : sdb) : sstate := mksstate (set (sdbs s) n (Some d)) (current s).

(** The effect of a successful statement *)
Inductive effect (s : sstate) : command -> sstate -> Prop :=
| E_create_database n : sdbs s n = None -> effect s (CreateDatabase n) (mksstate (set (sdbs s) n (Some empty_db)) (current s))
| E_drop_database n e d : sdbs s n = Some d -> current s <> Some n -> effect s (DropDatabase n e) (mksstate (set (sdbs s) n None) (current s))
| E_drop_no_database n : sdbs s n = None -> effect s (DropDatabase n true) s
| E_use n d : sdbs s n = Some d -> effect s (UseDatabase n) (mksstate (sdbs s) (Some n))
| E_create_table c d n ds : in_db s c d -> stable d n = None -> NoDup (map (fun x => fst (fst x)) ds) -> Forall (good_decl d) ds ->
    effect s (CreateTable n ds) (put s c (mksdb (set (stable d) n (Some (map fst ds, []))) (sindex d)))
| E_drop_table c d ns e : in_db s c d -> (e = true \/ forall n, In n ns -> stable d n <> None) ->
    effect s (DropTable ns e)
      (put s c (mksdb (remove (stable d) ns)
                      (fun i => match sindex d i with Some (t, a, m) => if existsb (Nat.eqb t) ns then None else Some (t, a, m) | None => None end)))
| E_create_index c d n e t a m ty : in_db s c d -> sindex d n = None -> has_attr d t a ty -> (m = RMI -> ty <> TChar) ->
    effect s (CreateIndex n e t a m) (put s c (mksdb (stable d) (set (sindex d) n (Some (t, a, m)))))
| E_index_exists c d n t a m x : in_db s c d -> sindex d n = Some x -> effect s (CreateIndex n true t a m) s
| E_drop_index c d ns e : in_db s c d -> (e = true \/ forall n, In n ns -> sindex d n <> None) ->
    effect s (DropIndex ns e) (put s c (mksdb (stable d) (remove (sindex d) ns)))
| E_insert c d t rows attrs old : in_db s c d -> stable d t = Some (attrs, old) ->
    effect s (Insert t rows) (put s c (mksdb (set (stable d) t (Some (attrs, old ++ rows))) (sindex d)))
| E_import c d t rows attrs old : in_db s c d -> stable d t = Some (attrs, old) ->
    effect s (Import t rows) (put s c (mksdb (set (stable d) t (Some (attrs, old ++ rows))) (sindex d)))
| E_select c d t x : in_db s c d -> stable d t = Some x -> effect s (Select t) s.

(** States that look the same *)
Definition same_db (a b : sdb) : Prop := (forall n, stable a n = stable b n) /\ (forall n, sindex a n = sindex b n).
Definition same (a b : sstate) : Prop :=
  current a = current b /\
  forall n, match sdbs a n, sdbs b n with Some x, Some y => same_db x y | None, None => True | _, _ => False end.

(** What the catalog shows: the tables by name; the indexes by name, with the names of their tables and attributes *)
Definition view_table (t : table) : list (name * ty) * list row := (map (fun a => (a_name a, a_type a)) (t_attrs t), t_rows t).
Definition view_index (d : db) (i : index) : option (name * name * method) :=
  match deref d (i_table i) with
  | None => None
  | Some t => match nth_error (t_attrs t) (i_attr i) with Some a => Some (t_name t, a_name a, i_method i) | None => None end
  end.
Definition view_db (d : db) : sdb :=
  mksdb (fun n => option_map view_table (find_table d n)) (fun n => match find_index d n with Some i => view_index d i | None => None end).
Definition view (st : state) : sstate :=
  mksstate (fun n => option_map view_db (find_db st n))
           (match in_use st with Some o => option_map d_name (db_at st o) | None => None end).

(** A statement names no table and no index twice. *)
Definition distinct (c : command) : Prop :=
  match c with DropTable ns _ | DropIndex ns _ => NoDup ns | _ => True end.
(** Rows [i] of a table with value [v] at position [p] *)
Definition row_has (rows : list row) (p : nat) (v : Z) (i : nat) : Prop := exists r, nth_error rows i = Some r /\ nth_error r p = Some (Some v).

(** States reached by statements that satisfy a condition *)
Inductive history (P : state -> command -> Prop) : state -> Prop :=
| H_init : history P init
| H_step st c st' ok : history P st -> P st c -> execute st c = Done st' ok -> history P st'.
Definition anything (st : state) (c : command) : Prop := True.

(** Table [t] of the database [d] has an attribute that REFERENCES an attribute of table [u]. *)
Definition refers (d : db) (t u : table) : Prop :=
  In t (tables d) /\ In u (tables d) /\ exists a p, In a (t_attrs t) /\ a_ref a = Some (t_obj u, p).
(** No table is dropped that another one refers to, unless that one is dropped, too. *)
Definition keeps_references (st : state) (c : command) : Prop :=
  forall ns e, c = DropTable ns e -> forall d t u, In d (dbs st) -> in_use st = Some (d_obj d) -> refers d t u -> In (t_name u) ns -> In (t_name t) ns.
(** No file is imported into a table with an index that is in use. *)
Definition imports_without_index (st : state) (c : command) : Prop :=
  forall t rows, c = Import t rows -> forall a m, get_index st t a m = Some None.
