(** * C61: what data definition does to the catalog *)
From Coq Require Import Arith List Bool ZArith Lia.
From Verif Require Import Ddl DdlSpec DdlProofs DdlStep.
Import ListNotations.

(** Every statement that ends without an error has the effect that data definition gives it, and one that reports an error has none and had
    no effect to have. *)
Theorem C61_effect : forall st, history anything st -> forall c st' ok, distinct c -> execute st c = Done st' ok ->
  if ok then exists s', effect (view st) c s' /\ same (view st') s' else st' = st /\ ~ exists s', effect (view st) c s'.
Proof. intros st H c st' ok D E. destruct (execute_good st c (history_inv _ _ H)) as [_ G]. destruct (G _ _ E) as (_ & _ & _ & X). exact (X D). Qed.
(** As long as no table is dropped that others refer to, no statement crashes. *)
Theorem C61_no_crash : forall st, history keeps_references st -> forall c, exists st' ok, execute st c = Done st' ok.
Proof.
  intros st H c. destruct (execute_good st c (history_inv _ _ H)) as [N _]. specialize (N (history_ref st H)).
  destruct (execute st c) as [st' ok|]; [eauto|congruence].
Qed.
(** Only queries, INSERT and CREATE INDEX can crash at all. *)
Theorem C61_crash : forall st, history anything st -> forall c, execute st c = Crash ->
  (exists t, c = Select t) \/ (exists t rows, c = Insert t rows) \/ exists n e t a m, c = CreateIndex n e t a m.
Proof.
  intros st H c E. pose proof (history_inv _ _ H) as I. destruct c; cbn [execute] in E.
  - unfold create_database in E. destruct (find_db st n); discriminate.
  - exfalso. unfold drop_database in E. destruct (in_use st) as [o|] eqn:U.
    + destruct (inv_use st I o U) as (d & Ed). rewrite Ed in E. destruct (d_name d =? n); [discriminate|]. destruct (find_db st n); discriminate.
    + destruct (find_db st n); discriminate.
  - unfold use_database in E. destruct (find_db st n); discriminate.
  - exfalso. unfold create_table, with_db in E. destruct (in_use st) as [o|] eqn:U; [|discriminate]. destruct (inv_use st I o U) as (d & Ed). rewrite Ed in E.
    destruct (find_table d n); [discriminate|]. destruct (analyze_attrs d [] attrs); discriminate.
  - exfalso. unfold drop_table, with_db in E. destruct (in_use st) as [o|] eqn:U; [|discriminate]. destruct (inv_use st I o U) as (d & Ed). rewrite Ed in E.
    cbv zeta in E. destruct (if_exists || _); [|discriminate]. apply db_at_in in Ed. destruct Ed as [D _].
    destruct (drop_tables_total (filter (fun n : name => match find_table d n with Some _ => true | None => false end) ns) d true (inv_db st I d D)) as (d' & ok & X & _).
    rewrite X in E. discriminate.
  - right. right. eauto 6.
  - exfalso. unfold drop_index, with_db in E. destruct (in_use st) as [o|] eqn:U; [|discriminate]. destruct (inv_use st I o U) as (d & Ed). rewrite Ed in E.
    cbv zeta in E. destruct (if_exists || _); [|discriminate]. destruct (drop_index_loop d true _); discriminate.
  - right. left. eauto.
  - exfalso. unfold import, with_db in E. destruct (in_use st) as [o|] eqn:U; [|discriminate]. destruct (inv_use st I o U) as (d & Ed). rewrite Ed in E.
    destruct (find_table d t); discriminate.
  - left. eauto.
Qed.

(** An index that a query may use holds the value and the number of every row of the table where the attribute is not NULL, each once, and
    nothing else - after any history in which no file was imported into a table with an index in use. *)
Theorem C61_index : forall st, history imports_without_index st -> forall t a m es, get_index st t a m = Some (Some es) ->
  exists n d attrs rows p ty, in_db (view st) n d /\ stable d t = Some (attrs, rows) /\ nth_error attrs p = Some (a, ty) /\
    NoDup es /\ forall v i, In (v, i) es <-> row_has rows p v i.
Proof.
  intros st H t a m es E. pose proof (history_inv _ _ H) as I. pose proof (history_fresh st H) as F. unfold get_index in E.
  destruct (in_use st) as [o|] eqn:U; [|discriminate]. destruct (inv_use st I o U) as (d & Ed). rewrite Ed in E. apply db_at_in in Ed. destruct Ed as [D <-].
  destruct (find_table d t) as [tb|] eqn:T; [|discriminate]. destruct (pos_of (t_attrs tb) a); [|discriminate].
  destruct (lookup_some _ _ _ _ _ _ E) as (i & tb' & x & Ii & R & X & V & Nt & Na & _ & ->).
  assert (tb' = tb).
  { apply find_key_some in R. destruct R as [R _]. pose proof (find_key t_name _ tb' (g_name d (inv_db st I d D)) R) as K. rewrite Nt in K. unfold find_table in T. congruence. }
  subst tb'. exists (d_name d), (view_db d), (map (fun y => (a_name y, a_type y)) (t_attrs tb)), (t_rows tb), (i_attr i), (a_type x).
  split; [apply (use_in_db st d I D U)|]. split; [rewrite view_stable, T; reflexivity|]. split.
  - rewrite nth_error_map, X. cbn. now rewrite Na.
  - rewrite (F d D i tb Ii V R). split; [apply bulk_nodup|]. intros v k. rewrite bulk_in. unfold row_has. split.
    + intros (r & _ & N & W). rewrite Nat.sub_0_r in N. eauto.
    + intros (r & N & W). exists r. rewrite Nat.sub_0_r. split; [lia|auto].
Qed.
Theorem C61_get_index : forall st, history anything st -> forall t a m, exists r, get_index st t a m = Some r.
Proof. intros st H t a m. exact (get_index_total st t a m (history_inv _ _ H)). Qed.

Lemma lookup_found d tn an m is i t a : In i is -> deref d (i_table i) = Some t -> nth_error (t_attrs t) (i_attr i) = Some a ->
  i_valid i = true -> t_name t = tn -> a_name a = an -> i_method i = m ->
  (forall j, In j is -> exists t a, deref d (i_table j) = Some t /\ nth_error (t_attrs t) (i_attr j) = Some a) -> exists es, lookup_index d tn an m is = Some (Some es).
Proof.
  intros Ii E A V Nt Na M H. destruct (lookup_total d tn an m is H) as ([es|] & L); [eauto|]. exfalso.
  exact (lookup_none d tn an m is L i t a Ii E A V Nt Na M).
Qed.
(** A successful CREATE INDEX gives an index that queries may use; INSERT takes all indexes of its table from them. *)
Theorem C61_index_available : forall st, history anything st -> forall n e t a m st', execute st (CreateIndex n e t a m) = Done st' true ->
  (exists k d, in_db (view st) k d /\ sindex d n = None) -> exists es, get_index st' t a m = Some (Some es).
Proof.
  intros st H n e t a m st' E (k & sd & C & Sn). pose proof (history_inv _ _ H) as I. destruct (execute_good st (CreateIndex n e t a m) I) as [_ Gd].
  destruct (Gd _ _ E) as (I' & _). clear Gd. cbn [execute] in E. unfold create_index, with_db in E.
  destruct (in_use st) as [o|] eqn:U; [|discriminate]. destruct (inv_use st I o U) as (d & Ed). rewrite Ed in E. apply db_at_in in Ed. destruct Ed as [D <-].
  destruct (use_unique st d I D U _ _ C) as [-> ->]. pose proof (inv_db st I d D) as G.
  apply (find_index_view d n G) in Sn. rewrite Sn in E. destruct (find_table d t) as [tb|] eqn:T; [|discriminate].
  destruct (pos_of (t_attrs tb) a) as [p|] eqn:P; [|discriminate]. destruct (pos_of_some _ _ _ P) as (x & X & Nx). rewrite X in E.
  destruct (method_eqb m RMI && ty_eqb (a_type x) TChar); [discriminate|]. destruct (negb (schema_ok d tb)); [discriminate|]. injection E as <-.
  set (new := mkindex n (t_obj tb) p m (bulk (t_rows tb) p 0) true) in *. set (d' := set_indexes d (indexes d ++ [new])) in *.
  assert (D' : db_at (update_db st (d_obj d) d') (d_obj d) = Some d') by exact (update_db_at_self st d d' (next st) I D eq_refl).
  unfold get_index. change (in_use (update_db st (d_obj d) d')) with (in_use st). rewrite U, D'. change (find_table d' t) with (find_table d t). rewrite T, P.
  pose proof (db_at_in _ _ _ D') as [In' _]. pose proof (inv_db _ I' d' In') as G'. pose proof T as T0. apply find_key_some in T0. destruct T0 as [It Nt].
  apply (lookup_found d' t a m (indexes d') new tb x).
  - cbn. apply in_or_app. right. now left.
  - apply (find_key t_obj); [apply (g_obj d' G')|exact It].
  - exact X.
  - reflexivity.
  - exact Nt.
  - exact Nx.
  - reflexivity.
  - apply (g_ref d' G').
Qed.
Theorem C61_insert_invalidates : forall st, history anything st -> forall t rows st', execute st (Insert t rows) = Done st' true ->
  forall a m, get_index st' t a m = Some None.
Proof.
  intros st H t rows st' E a m. pose proof (history_inv _ _ H) as I. destruct (execute_good st (Insert t rows) I) as [_ Gd].
  destruct (Gd _ _ E) as (I' & _). clear Gd. cbn [execute] in E. unfold insert, with_db in E.
  destruct (in_use st) as [o|] eqn:U; [|discriminate]. destruct (inv_use st I o U) as (d & Ed). rewrite Ed in E. apply db_at_in in Ed. destruct Ed as [D <-].
  pose proof (inv_db st I d D) as G. destruct (find_table d t) as [tb|] eqn:T; [|discriminate]. destruct (negb (schema_ok d tb)); [discriminate|]. cbv zeta in E.
  set (d1 := set_tables d (append t rows (tables d))) in *. pose proof (append_good d t rows G) as G1. change (good_db d1) in G1.
  rewrite (invalidate_map d1 t (indexes d1)) in E by (intros i Ii; destruct (g_ref d1 G1 i Ii) as (x & y & X & _); eauto). injection E as <-.
  set (d' := set_indexes d1 (map (stale d1 t) (indexes d))) in *.
  assert (D' : db_at (update_db st (d_obj d) d') (d_obj d) = Some d') by exact (update_db_at_self st d d' (next st) I D eq_refl).
  destruct (get_index_total _ t a m I') as ([es|] & L); [|exact L]. exfalso. unfold get_index in L.
  assert (U' : in_use (update_db st (d_obj d) d') = Some (d_obj d)) by exact U. rewrite U', D' in L. destruct (find_table d' t) as [tb'|]; [|discriminate].
  destruct (pos_of (t_attrs tb') a); [|discriminate]. destruct (lookup_some _ _ _ _ _ _ L) as (i & x & y & Ii & R & _ & V & Nt & _).
  cbn [d' set_indexes indexes] in Ii. apply in_map_iff in Ii. destruct Ii as (j & <- & J). unfold d' in R. rewrite deref_set_indexes in R.
  destruct (stale_same d1 t j) as (_ & Et & _). rewrite Et in R. unfold stale in V. rewrite R, Nt, Nat.eqb_refl in V. discriminate.
Qed.

(** The conditions are weaker than the absence of the statements. *)
Definition run (cs : list command) : state := match execute_all init cs with Some (st, _) => st | None => init end.
Lemma history_all (P : state -> command -> Prop) cs : forall st st' oks, history P st -> Forall (fun c => forall s, P s c) cs -> execute_all st cs = Some (st', oks) -> history P st'.
Proof.
  induction cs as [|c cs IH]; intros st st' oks H A E; [now injection E as <- <-|]. cbn in E. inversion A as [|? ? Pc A']; subst.
  destruct (execute st c) as [st1 ok|] eqn:E1; [|discriminate].
  destruct (execute_all st1 cs) as [[st2 oks2]|] eqn:E2; [|discriminate]. injection E as <- <-. exact (IH st1 st2 oks2 (H_step P st c st1 ok H (Pc st) E1) A' E2).
Qed.

(** ** Findings *)
(** IMPORT does not invalidate indexes: afterwards the index is still used and lacks the new rows. *)
Definition cs_import : list command :=
  [CreateDatabase 1; UseDatabase 1; CreateTable 2 [(3, TOther 0, None)]; Insert 2 [[Some 5%Z]]; CreateIndex 4 false 2 3 Array; Import 2 [[Some 6%Z]]].
Theorem C61_refuted_import : exists cs st oks, execute_all init cs = Some (st, oks) /\ Forall (fun ok => ok = true) oks /\
  exists n d attrs rows es, in_db (view st) n d /\ stable d 2 = Some (attrs, rows) /\ nth_error attrs 0 = Some (3, TOther 0) /\
    get_index st 2 3 Array = Some (Some es) /\ row_has rows 0 6%Z 1 /\ ~ In (6%Z, 1) es.
Proof.
  exists cs_import, (run cs_import), [true; true; true; true; true; true]. split; [reflexivity|]. split; [repeat constructor|].
  exists 1, (view_db (mkdb 0 1 [mktable 1 2 [mkattr 3 (TOther 0) None] [[Some 5%Z]; [Some 6%Z]]] [mkindex 4 1 0 Array [(5%Z, 0)] true])),
    [(3, TOther 0)], [[Some 5%Z]; [Some 6%Z]], [(5%Z, 0)].
  split; [split; reflexivity|]. split; [reflexivity|]. split; [reflexivity|]. split; [reflexivity|]. split; [exists [Some 6%Z]; auto|].
  intros [E|[]]. discriminate.
Qed.
(** After dropping a table that another one refers to, every query on the other one follows a dangling pointer; so do INSERT and CREATE INDEX. *)
Definition cs_reference : list command :=
  [CreateDatabase 1; UseDatabase 1; CreateTable 2 [(3, TOther 0, None)]; CreateTable 4 [(5, TOther 0, Some (2, 3))]; DropTable [2] false].
Theorem C61_refuted_reference : exists cs st oks, execute_all init cs = Some (st, oks) /\ Forall (fun ok => ok = true) oks /\
  execute st (Select 4) = Crash /\ execute st (Insert 4 [[None]]) = Crash /\ execute st (CreateIndex 6 false 4 5 Array) = Crash.
Proof. exists cs_reference, (run cs_reference), [true; true; true; true; true]. split; [reflexivity|]. split; [repeat constructor|]. split; [|split]; reflexivity. Qed.
(** DROP TABLE t, t drops the table and reports an error. *)
Theorem C61_refuted_twice : exists cs st oks st', execute_all init cs = Some (st, oks) /\ execute st (DropTable [2; 2] false) = Done st' false /\ st' <> st.
Proof.
  exists [CreateDatabase 1; UseDatabase 1; CreateTable 2 [(3, TOther 0, None)]]. eexists _, _, _. split; [reflexivity|]. split; [reflexivity|]. discriminate.
Qed.
Theorem C61_refuted_twice_index : exists cs st oks st', execute_all init cs = Some (st, oks) /\ execute st (DropIndex [4; 4] false) = Done st' false /\ st' <> st.
Proof.
  exists [CreateDatabase 1; UseDatabase 1; CreateTable 2 [(3, TOther 0, None)]; CreateIndex 4 false 2 3 Array]. eexists _, _, _. split; [reflexivity|]. split; [reflexivity|]. discriminate.
Qed.

(** ** Examples *)
Definition cs_ex : list command :=
  [CreateDatabase 1; CreateDatabase 7; UseDatabase 1; CreateTable 2 [(3, TOther 0, None); (8, TChar, None)]; CreateTable 4 [(5, TOther 0, Some (2, 3))];
   Import 2 [[Some 5%Z; None]; [None; None]]; CreateIndex 6 false 2 3 RMI; CreateIndex 9 false 2 8 RMI; Insert 4 [[Some 5%Z]]; DropDatabase 1 false; DropDatabase 7 false].
Example C61_ex_run : option_map snd (execute_all init cs_ex) = Some [true; true; true; true; true; true; true; false; true; false; true] /\
  get_index (run cs_ex) 2 3 RMI = Some (Some [(5%Z, 0)]) /\ get_index (run cs_ex) 2 3 Array = Some None.
Proof. repeat split. Qed.
Lemma run_history (P : state -> command -> Prop) cs : Forall (fun c => forall s, P s c) cs -> (exists st oks, execute_all init cs = Some (st, oks)) -> history P (run cs).
Proof. intros A (st & oks & E). unfold run. rewrite E. exact (history_all P cs init st oks (H_init P) A E). Qed.
Ltac others := repeat (apply Forall_cons; [intros s ? ? X; discriminate X|]); apply Forall_nil.
Example C61_ex_keeps : history keeps_references (run cs_ex) /\ keeps_references (run cs_ex) (DropTable [4; 2] false) /\ ~ history keeps_references (run cs_reference).
Proof.
  split; [|split].
  - apply run_history; [others|eexists _, _; vm_compute; reflexivity].
  - intros ns e X d t u D _ R _. injection X as <- <-. vm_compute in D. destruct D as [<-|[]]. destruct R as (T & _). destruct T as [<-|[<-|[]]]; cbn; auto.
  - intros H. destruct (C61_no_crash _ H (Select 4)) as (st' & ok & E). vm_compute in E. discriminate E.
Qed.
Example C61_ex_imports : history imports_without_index (run (firstn 5 cs_ex)) /\ imports_without_index (run (firstn 5 cs_ex)) (nth 5 cs_ex (Select 0)) /\
  ~ imports_without_index (run (firstn 7 cs_ex)) (nth 5 cs_ex (Select 0)) /\ history anything (run cs_import).
Proof.
  split; [|split; [|split]].
  - apply run_history; [others|eexists _, _; vm_compute; reflexivity].
  - intros t rows X a m. vm_compute in X. injection X as <- <-. set (st := run (firstn 5 cs_ex)). vm_compute in st. subst st. unfold get_index. cbn [in_use db_at dbs find d_obj Nat.eqb find_table tables t_name indexes lookup_index].
    destruct (pos_of _ a); reflexivity.
  - intros H. specialize (H 2 _ eq_refl 3 RMI). vm_compute in H. discriminate H.
  - apply run_history; [|eexists _, _; vm_compute; reflexivity]. repeat (apply Forall_cons; [intros s; exact Logic.I|]); apply Forall_nil.
Qed.
