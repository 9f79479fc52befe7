(** * Proofs about the catalog *)
From Coq Require Import Arith List Bool ZArith Lia.
From Verif Require Import Ddl DdlSpec.
Import ListNotations.

(** ** Looking up by a key *)
Section Find.
  Context {A : Type} (key : A -> nat).
  Lemma find_key_some l n x : find (fun y => key y =? n) l = Some x -> In x l /\ key x = n.
  Proof. intros H. apply find_some in H. destruct H as [I E]. apply Nat.eqb_eq in E. tauto. Qed.
  Lemma find_key_none l n : find (fun y => key y =? n) l = None <-> ~ In n (map key l).
  Proof.
    induction l as [|y l IH]; cbn; [tauto|]. destruct (Nat.eqb_spec (key y) n); [|rewrite IH; tauto].
    split; [discriminate|]. intros H. exfalso. tauto.
  Qed.
  Lemma find_key l x : NoDup (map key l) -> In x l -> find (fun y => key y =? key x) l = Some x.
  Proof.
    induction l as [|y l IH]; intros N I; [destruct I|]. cbn in *. inversion N as [|? ? Ny N']; subst.
    destruct (Nat.eqb_spec (key y) (key x)) as [E|E].
    - destruct I as [->|I]; [reflexivity|]. exfalso. apply Ny. rewrite E. now apply in_map.
    - destruct I as [->|I]; [congruence|auto].
  Qed.
  Lemma find_key_filter p l n : NoDup (map key l) ->
    find (fun y => key y =? n) (filter p l) = match find (fun y => key y =? n) l with Some x => if p x then Some x else None | None => None end.
  Proof.
    induction l as [|y l IH]; intros N; [reflexivity|]. cbn in *. inversion N as [|? ? Ny N']; subst. specialize (IH N').
    destruct (p y) eqn:P; cbn; destruct (Nat.eqb_spec (key y) n) as [E|E]; rewrite ?P; auto.
    rewrite IH. replace (find (fun y => key y =? n) l) with (@None A); [reflexivity|]. symmetry. apply find_key_none. now subst n.
  Qed.
  Lemma find_key_map f l n : (forall x, key (f x) = key x) -> find (fun y => key y =? n) (map f l) = option_map f (find (fun y => key y =? n) l).
  Proof. intros K. induction l as [|y l IH]; [reflexivity|]. cbn. rewrite K. destruct (key y =? n); auto. Qed.
  Lemma find_key_app l m n : find (fun y => key y =? n) (l ++ m) = match find (fun y => key y =? n) l with Some x => Some x | None => find (fun y => key y =? n) m end.
  Proof. induction l as [|y l IH]; [reflexivity|]. cbn. destruct (key y =? n); auto. Qed.
  Lemma NoDup_key_filter p (l : list A) : NoDup (map key l) -> NoDup (map key (filter p l)).
  Proof.
    induction l as [|y l IH]; intros N; [constructor|]. cbn in *. inversion N as [|? ? Ny N']; subst. destruct (p y); [|auto].
    cbn. constructor; [|auto]. intros I. apply Ny. apply in_map_iff in I. destruct I as (x & E & I). apply filter_In in I.
    rewrite <- E. apply in_map. tauto.
  Qed.
End Find.

Lemma map_key_id {A} (key : A -> nat) f l : (forall x, key (f x) = key x) -> map key (map f l) = map key l.
Proof. intros K. rewrite map_map. now apply map_ext. Qed.

(** ** Invariants *)
Record good_db (d : db) : Prop := mkgood {
  g_obj : NoDup (map t_obj (tables d));
  g_name : NoDup (map t_name (tables d));
  g_index : NoDup (map i_name (indexes d));
  g_ref : forall i, In i (indexes d) -> exists t a, deref d (i_table i) = Some t /\ nth_error (t_attrs t) (i_attr i) = Some a;
  g_attrs : forall t, In t (tables d) -> NoDup (map a_name (t_attrs t)) }.
Record Inv (st : state) : Prop := mkinv {
  inv_obj : NoDup (map d_obj (dbs st));
  inv_name : NoDup (map d_name (dbs st));
  inv_fresh : forall d, In d (dbs st) -> d_obj d < next st /\ forall t, In t (tables d) -> t_obj t < next st;
  inv_db : forall d, In d (dbs st) -> good_db d;
  inv_use : forall o, in_use st = Some o -> exists d, db_at st o = Some d }.

Lemma db_at_in st o d : db_at st o = Some d -> In d (dbs st) /\ d_obj d = o.
Proof. apply find_key_some. Qed.

(** ** Changing one database *)
Section Update.
  Variables (st : state) (d d' : db) (nx : nat).
  Hypothesis I : Inv st.
  Hypothesis D : In d (dbs st).
  Hypothesis Eo : d_obj d' = d_obj d.
  Hypothesis En : d_name d' = d_name d.
  Let f := fun e => if d_obj e =? d_obj d then d' else e.
  Let st' := mkstate (map f (dbs st)) (in_use st) nx.

  Lemma f_obj e : d_obj (f e) = d_obj e.
  Proof using Eo. unfold f. destruct (Nat.eqb_spec (d_obj e) (d_obj d)); congruence. Qed.
  Lemma f_name e : In e (dbs st) -> d_name (f e) = d_name e.
  Proof using I D Eo En.
    intros E. unfold f. destruct (Nat.eqb_spec (d_obj e) (d_obj d)) as [X|X]; [|reflexivity].
    assert (e = d).
    { pose proof (find_key d_obj _ e (inv_obj st I) E) as F1. pose proof (find_key d_obj _ d (inv_obj st I) D) as F2.
      rewrite X in F1. congruence. }
    congruence.
  Qed.
  Lemma update_names : map d_name (map f (dbs st)) = map d_name (dbs st).
  Proof using I D Eo En. rewrite map_map. apply map_ext_in. apply f_name. Qed.

  Lemma update_db_at o : db_at st' o = option_map f (db_at st o).
  Proof using Eo. unfold db_at, st'. cbn. apply find_key_map. apply f_obj. Qed.
  Lemma update_db_at_self : db_at st' (d_obj d) = Some d'.
  Proof using I D Eo.
    rewrite update_db_at. unfold db_at. rewrite (find_key d_obj _ d (inv_obj st I) D). cbn. unfold f. now rewrite Nat.eqb_refl.
  Qed.

  Lemma find_db_update n : find_db st' n = option_map f (find_db st n).
  Proof using I D Eo En.
    unfold find_db, st'. cbn. pose proof f_name as K. clear - K. induction (dbs st) as [|e l IH]; [reflexivity|]. cbn.
    rewrite K by now left. destruct (d_name e =? n); [reflexivity|]. apply IH. intros x X. apply K. now right.
  Qed.

  Lemma update_inv : next st <= nx -> good_db d' -> (forall t, In t (tables d') -> t_obj t < nx) -> Inv st'.
  Proof using I D Eo En.
    intros L G T. constructor.
    - unfold st'. cbn. rewrite (map_key_id d_obj f _ f_obj). apply inv_obj, I.
    - unfold st'. cbn [dbs]. rewrite update_names. apply inv_name, I.
    - intros e E. unfold st' in E. cbn in E. apply in_map_iff in E. destruct E as (e0 & <- & E). unfold st'. cbn [next].
      pose proof (inv_fresh st I e0 E) as [F1 F2]. split; [rewrite f_obj; lia|]. intros t Ht. unfold f in Ht.
      destruct (d_obj e0 =? d_obj d); [auto|]. specialize (F2 t Ht). lia.
    - intros e E. unfold st' in E. cbn in E. apply in_map_iff in E. destruct E as (e0 & <- & E). unfold f.
      destruct (d_obj e0 =? d_obj d); [exact G|]. now apply (inv_db st I).
    - intros o U. unfold st' in U. cbn in U. destruct (inv_use st I o U) as (e & E). exists (f e). rewrite update_db_at, E. reflexivity.
  Qed.

  Lemma update_view sd : same_db (view_db d') sd -> in_use st = Some (d_obj d) -> same (view st') (put (view st) (d_name d) sd).
  Proof using I D Eo En.
    intros S U. split.
    - pose proof update_db_at_self as Hs. change (in_use st) with (in_use st') in U. unfold view, put. cbn [current]. rewrite U, Hs.
      change (in_use st') with (in_use st) in U. rewrite U. unfold db_at. rewrite (find_key d_obj _ d (inv_obj st I) D). cbn. now rewrite En.
    - intros n. unfold view, put. cbn [sdbs]. rewrite find_db_update. unfold set.
      destruct (Nat.eqb_spec n (d_name d)) as [->|N].
      + unfold find_db. rewrite (find_key d_name _ d (inv_name st I) D). cbn. unfold f. rewrite Nat.eqb_refl. exact S.
      + destruct (find_db st n) as [e|] eqn:F; [|exact Logic.I]. cbn. apply find_key_some in F. destruct F as [E Fn]. unfold f.
        destruct (Nat.eqb_spec (d_obj e) (d_obj d)) as [X|X]; [|split; reflexivity].
        exfalso. pose proof (find_key d_obj _ e (inv_obj st I) E) as F1. pose proof (find_key d_obj _ d (inv_obj st I) D) as F2.
        rewrite X in F1. congruence.
  Qed.
End Update.

(** ** Attributes *)
Lemma pos_of_none attrs n : pos_of attrs n = None <-> ~ In n (map a_name attrs).
Proof.
  induction attrs as [|a attrs IH]; cbn; [tauto|]. destruct (Nat.eqb_spec (a_name a) n) as [E|E]; [split; [discriminate|tauto]|].
  destruct (pos_of attrs n); [split; [discriminate|]|].
  - intros H. exfalso. assert (~ In n (map a_name attrs)) by tauto. apply IH in H0. discriminate.
  - split; [|reflexivity]. intros _ [H|H]; [tauto|]. now apply IH.
Qed.
Lemma pos_of_some attrs n p : pos_of attrs n = Some p -> exists a, nth_error attrs p = Some a /\ a_name a = n.
Proof.
  revert p. induction attrs as [|a attrs IH]; intros p H; cbn in H; [discriminate|].
  destruct (Nat.eqb_spec (a_name a) n) as [E|E]; [injection H as <-; exists a; auto|].
  destruct (pos_of attrs n) as [q|]; [|discriminate]. injection H as <-. cbn. auto.
Qed.
Lemma ty_eqb_eq a b : ty_eqb a b = true <-> a = b.
Proof. destruct a, b; cbn; try (split; congruence). rewrite Nat.eqb_eq. split; congruence. Qed.
Lemma method_eqb_eq a b : method_eqb a b = true <-> a = b.
Proof. destruct a, b; cbn; split; congruence. Qed.

Lemma NoDup_attr attrs a b : NoDup (map a_name attrs) -> In a attrs -> In b attrs -> a_name a = a_name b -> a = b.
Proof.
  intros N A B E. pose proof (find_key a_name _ a N A) as F1. pose proof (find_key a_name _ b N B) as F2. rewrite E in F1. congruence.
Qed.

Lemma view_stable d n : stable (view_db d) n = option_map view_table (find_table d n).
Proof. reflexivity. Qed.

Lemma has_attr_iff d t a ty : good_db d ->
  (has_attr (view_db d) t a ty <-> exists tb p at_, find_table d t = Some tb /\ pos_of (t_attrs tb) a = Some p /\ nth_error (t_attrs tb) p = Some at_ /\ a_type at_ = ty).
Proof.
  intros G. split.
  - intros (attrs & rows & S & I). rewrite view_stable in S. destruct (find_table d t) as [tb|] eqn:F; [|discriminate]. cbn in S. injection S as <- <-.
    apply in_map_iff in I. destruct I as (x & E & I). injection E as Ea Et.
    destruct (pos_of (t_attrs tb) a) as [p|] eqn:P.
    + destruct (pos_of_some _ _ _ P) as (y & Y & Ny). exists tb, p, y. repeat split; auto.
      assert (x = y).
      { apply (NoDup_attr (t_attrs tb)); [|exact I|exact (nth_error_In _ _ Y)|congruence]. apply (g_attrs d G). apply find_key_some in F. tauto. }
      congruence.
    + exfalso. apply pos_of_none in P. apply P. rewrite <- Ea. now apply in_map.
  - intros (tb & p & x & F & P & X & T). exists (map (fun a => (a_name a, a_type a)) (t_attrs tb)), (t_rows tb). split.
    + rewrite view_stable, F. reflexivity.
    + destruct (pos_of_some _ _ _ P) as (y & Y & Ny). replace y with x in * by congruence. apply in_map_iff. exists x. split; [congruence|].
      exact (nth_error_In _ _ X).
Qed.

Lemma resolve_iff d t r : good_db d -> ((exists x, resolve d t r = Some x) <-> has_attr (view_db d) (fst r) (snd r) t).
Proof.
  intros G. rewrite (has_attr_iff d _ _ _ G). unfold resolve. split.
  - intros (x & H). destruct (find_table d (fst r)) as [rt|]; [|discriminate]. destruct (pos_of (t_attrs rt) (snd r)) as [p|] eqn:P; [|discriminate].
    destruct (nth_error (t_attrs rt) p) as [ra|] eqn:N; [|discriminate]. destruct (ty_eqb t (a_type ra)) eqn:T; [|discriminate].
    apply ty_eqb_eq in T. exists rt, p, ra. auto.
  - intros (rt & p & ra & F & P & N & T). rewrite F, P, N. replace (ty_eqb t (a_type ra)) with true; [eauto|]. symmetry. now apply ty_eqb_eq.
Qed.

Lemma analyze_some d ds : forall done attrs, analyze_attrs d done ds = Some attrs -> NoDup (map a_name done) ->
  NoDup (map a_name attrs) /\ map (fun a => (a_name a, a_type a)) attrs = map (fun a => (a_name a, a_type a)) done ++ map fst ds /\
  (good_db d -> Forall (good_decl (view_db d)) ds).
Proof.
  induction ds as [|[[n t] r] ds IH]; intros done attrs H N.
  - cbn in H. injection H as <-. rewrite app_nil_r. repeat split; auto. 
  - cbn [analyze_attrs] in H. destruct (pos_of done n) eqn:P; [discriminate|]. apply pos_of_none in P.
    assert (Nd : forall x, NoDup (map a_name (done ++ [mkattr n t x]))).
    { intros x. rewrite map_app. cbn. apply NoDup_rev in N. rewrite <- (rev_involutive (map a_name done ++ [n])). apply NoDup_rev. rewrite rev_app_distr. cbn.
      constructor; [rewrite <- in_rev; exact P|exact N]. }
    destruct r as [r|].
    + destruct (resolve d t r) as [x|] eqn:R; [|discriminate]. destruct (IH _ _ H (Nd _)) as (H1 & H2 & H3). split; [exact H1|]. split.
      * rewrite H2, map_app. cbn. now rewrite <- app_assoc.
      * intros G. constructor; [|auto]. unfold good_decl. cbn. destruct r as [rt ra]. apply (resolve_iff d t (rt, ra) G). eauto.
    + destruct (IH _ _ H (Nd _)) as (H1 & H2 & H3). split; [exact H1|]. split.
      * rewrite H2, map_app. cbn. now rewrite <- app_assoc.
      * intros G. constructor; [exact Logic.I|auto].
Qed.
Lemma analyze_total d ds : good_db d -> forall done, NoDup (map a_name done ++ map (fun x => fst (fst x)) ds) -> Forall (good_decl (view_db d)) ds ->
  exists attrs, analyze_attrs d done ds = Some attrs.
Proof.
  intros G. induction ds as [|[[n t] r] ds IH]; intros done N F; [exists done; reflexivity|]. cbn [analyze_attrs]. inversion F as [|? ? F1 F2]; subst.
  cbn in N. assert (P : pos_of done n = None).
  { apply pos_of_none. intros X. apply NoDup_remove_2 in N. apply N. apply in_or_app. now left. }
  rewrite P. assert (N' : forall x, NoDup (map a_name (done ++ [mkattr n t x]) ++ map (fun x => fst (fst x)) ds)).
  { intros x. rewrite map_app. cbn. rewrite <- app_assoc. exact N. }
  destruct r as [[rt ra]|]; [|apply IH; auto]. unfold good_decl in F1. cbn in F1. apply (resolve_iff d t (rt, ra) G) in F1. destruct F1 as (x & ->). apply IH; auto.
Qed.

(** ** Dropping tables *)
Definition other_table (d : db) (n : name) (i : index) : bool := match deref d (i_table i) with Some t => negb (t_name t =? n) | None => true end.
Lemma drop_indexes_filter d n is : (forall i, In i is -> exists t, deref d (i_table i) = Some t) -> drop_indexes d n is = Some (filter (other_table d n) is).
Proof.
  induction is as [|i is IH]; intros H; [reflexivity|]. cbn. destruct (H i (or_introl eq_refl)) as (t & E). unfold other_table at 1. rewrite E, IH by (intros; apply H; now right).
  destruct (t_name t =? n); reflexivity.
Qed.

Lemma drop_one d n : good_db d ->
  let d' := mkdb (d_obj d) (d_name d) (filter (fun t => negb (t_name t =? n)) (tables d)) (filter (other_table d n) (indexes d)) in
  drop_indexes d n (indexes d) = Some (indexes d') /\ good_db d' /\
  (forall k, find_table d' k = if k =? n then None else find_table d k) /\
  (forall k, sindex (view_db d') k = match sindex (view_db d) k with Some (t, a, m) => if t =? n then None else Some (t, a, m) | None => None end) /\
  (forall i, In i (indexes d') -> deref d' (i_table i) = deref d (i_table i)).
Proof.
  intros G d'. assert (R : forall o, deref d' o = match deref d o with Some t => if negb (t_name t =? n) then Some t else None | None => None end).
  { intros o. unfold deref, d'. cbn. apply find_key_filter. apply (g_obj d G). }
  assert (K : forall i, In i (indexes d') -> deref d' (i_table i) = deref d (i_table i)).
  { intros i Ii. unfold d' in Ii. cbn in Ii. apply filter_In in Ii. destruct Ii as [Ii O]. rewrite R. unfold other_table in O.
    destruct (deref d (i_table i)) as [t|]; [|reflexivity]. now rewrite O. }
  split; [|split; [|split; [|split]]].
  - apply drop_indexes_filter. intros i Ii. destruct (g_ref d G i Ii) as (t & a & E & _). eauto.
  - constructor.
    + apply NoDup_key_filter, (g_obj d G).
    + apply NoDup_key_filter, (g_name d G).
    + apply NoDup_key_filter, (g_index d G).
    + intros i Ii. rewrite (K i Ii). unfold d' in Ii. cbn in Ii. apply filter_In in Ii. now apply (g_ref d G).
    + intros t It. unfold d' in It. cbn in It. apply filter_In in It. now apply (g_attrs d G).
  - intros k. unfold find_table, d'. cbn. rewrite find_key_filter by apply (g_name d G).
    destruct (find (fun t => t_name t =? k) (tables d)) as [t|] eqn:F; [|destruct (k =? n); reflexivity].
    apply find_key_some in F. destruct F as [_ <-]. destruct (t_name t =? n); reflexivity.
  - intros k. cbn [view_db sindex]. unfold find_index. unfold d' at 1. cbn [indexes]. rewrite find_key_filter by apply (g_index d G).
    destruct (find (fun i => i_name i =? k) (indexes d)) as [i|] eqn:F; [|reflexivity]. apply find_key_some in F. destruct F as [Ii _].
    destruct (g_ref d G i Ii) as (t & a & E & Ea). unfold other_table. rewrite E. unfold view_index. rewrite E, Ea.
    destruct (t_name t =? n) eqn:Tn; cbn [negb option_map]; [reflexivity|]. rewrite R, E, Tn. cbn. rewrite Ea. reflexivity.
  - exact K.
Qed.

Lemma drop_tables_view ns : forall d ok, good_db d -> NoDup ns -> (forall n, In n ns -> find_table d n <> None) ->
  exists d', drop_tables d ok ns = Some (d', ok) /\ good_db d' /\ d_obj d' = d_obj d /\ d_name d' = d_name d /\
    (forall t, In t (tables d') -> In t (tables d)) /\
    (forall i, In i (indexes d') -> In i (indexes d) /\ deref d' (i_table i) = deref d (i_table i)) /\
    (forall k, find_table d' k = if existsb (Nat.eqb k) ns then None else find_table d k) /\
    (forall k, sindex (view_db d') k = match sindex (view_db d) k with Some (t, a, m) => if existsb (Nat.eqb t) ns then None else Some (t, a, m) | None => None end).
Proof.
  induction ns as [|n ns IH]; intros d ok G N P.
  - exists d. repeat split; auto; [apply (g_obj d G)|apply (g_name d G)|apply (g_index d G)|apply (g_ref d G)|apply (g_attrs d G)|]. intros k.
    destruct (sindex (view_db d) k) as [[[t a] m]|]; reflexivity.
  - cbn [drop_tables]. inversion N as [|? ? Nn N']; subst.
    destruct (find_table d n) as [t|] eqn:F; [|exfalso; exact (P n (or_introl eq_refl) F)].
    destruct (drop_one d n G) as (E & G1 & T1 & S1 & R1). rewrite E. cbn [indexes] in *.
    set (d1 := mkdb (d_obj d) (d_name d) (filter (fun t => negb (t_name t =? n)) (tables d)) (filter (other_table d n) (indexes d))) in *.
    destruct (IH d1 ok G1 N') as (d' & E' & G' & O' & M' & I' & J' & T' & S').
    { intros k Ik. rewrite T1. destruct (Nat.eqb_spec k n) as [->|]; [contradiction|]. apply P. now right. }
    exists d'. split; [exact E'|]. split; [exact G'|]. split; [now rewrite O'|]. split; [now rewrite M'|]. split; [|split; [|split]].
    + intros x X. apply I' in X. unfold d1 in X. cbn in X. apply filter_In in X. tauto.
    + intros i X. apply J' in X. destruct X as [X Y]. rewrite Y. split; [|now apply R1]. unfold d1 in X. cbn in X. apply filter_In in X. tauto.
    + intros k. rewrite T', T1. cbn. destruct (k =? n); cbn; [now destruct (existsb (Nat.eqb k) ns)|reflexivity].
    + intros k. rewrite S', S1. destruct (sindex (view_db d) k) as [[[x a] m]|]; [|reflexivity]. cbn. destruct (x =? n); reflexivity.
Qed.

(** ** Dropping indexes *)
Lemma remove_first_find n is k : NoDup (map i_name is) -> find (fun i => i_name i =? k) (remove_first n is) = if k =? n then None else find (fun i => i_name i =? k) is.
Proof.
  induction is as [|i is IH]; intros N; cbn; [destruct (k =? n); reflexivity|]. cbn in N. inversion N as [|? ? Ni N']; subst.
  destruct (Nat.eqb_spec (i_name i) n) as [E|E].
  - destruct (Nat.eqb_spec k n) as [K|K].
    + apply find_key_none. rewrite K, <- E. exact Ni.
    + destruct (Nat.eqb_spec (i_name i) k); [congruence|reflexivity].
  - cbn. destruct (Nat.eqb_spec (i_name i) k) as [K|K]; [|auto]. destruct (Nat.eqb_spec k n); [congruence|reflexivity].
Qed.
Lemma remove_first_in n is i : In i (remove_first n is) -> In i is.
Proof. induction is as [|j is IH]; cbn; [auto|]. destruct (i_name j =? n); [now right|]. intros [H|H]; auto. Qed.
Lemma remove_first_nodup n is : NoDup (map i_name is) -> NoDup (map i_name (remove_first n is)).
Proof.
  induction is as [|i is IH]; intros N; cbn; [constructor|]. cbn in N. inversion N as [|? ? Ni N']; subst. destruct (i_name i =? n); [auto|].
  cbn. constructor; [|auto]. intros X. apply Ni. apply in_map_iff in X. destruct X as (j & <- & X). apply in_map. now apply (remove_first_in n).
Qed.
Lemma deref_set_indexes d is o : deref (set_indexes d is) o = deref d o.
Proof. reflexivity. Qed.

Lemma drop_index_loop_view ns : forall d ok, good_db d -> NoDup ns -> (forall n, In n ns -> find_index d n <> None) ->
  exists is, drop_index_loop d ok ns = (set_indexes d is, ok) /\ good_db (set_indexes d is) /\ (forall i, In i is -> In i (indexes d)) /\
    (forall k, find_index (set_indexes d is) k = if existsb (Nat.eqb k) ns then None else find_index d k).
Proof.
  induction ns as [|n ns IH]; intros d ok G N P.
  - exists (indexes d). destruct d as [o nm ts is]. cbn. repeat split; auto; apply G.
  - cbn [drop_index_loop]. inversion N as [|? ? Nn N']; subst.
    destruct (find_index d n) as [i|] eqn:F; [|exfalso; exact (P n (or_introl eq_refl) F)].
    set (d1 := set_indexes d (remove_first n (indexes d))).
    assert (F1 : forall k, find_index d1 k = if k =? n then None else find_index d k) by (intros k; apply remove_first_find, (g_index d G)).
    assert (G1 : good_db d1).
    { constructor; try apply G.
      - apply remove_first_nodup, (g_index d G).
      - intros j J. apply remove_first_in in J. exact (g_ref d G j J). }
    destruct (IH d1 ok G1 N') as (is & E & G' & I' & F').
    { intros k Ik. rewrite F1. destruct (Nat.eqb_spec k n) as [->|]; [contradiction|]. apply P. now right. }
    exists is. split; [exact E|]. split; [exact G'|]. split.
    + intros j J. apply I' in J. now apply remove_first_in in J.
    + intros k. change (set_indexes d is) with (set_indexes d1 is). rewrite F', F1. cbn. destruct (k =? n); cbn; [now destruct (existsb (Nat.eqb k) ns)|reflexivity].
Qed.

(** ** Appending rows *)
Section Append.
  Variables (d : db) (n : name) (rows : list row).
  Let g := fun t => if t_name t =? n then mktable (t_obj t) (t_name t) (t_attrs t) (t_rows t ++ rows) else t.
  Let d' := set_tables d (append n rows (tables d)).
  Lemma g_tobj t : t_obj (g t) = t_obj t.
  Proof. unfold g. destruct (t_name t =? n); reflexivity. Qed.
  Lemma g_tname t : t_name (g t) = t_name t.
  Proof. unfold g. destruct (t_name t =? n); reflexivity. Qed.
  Lemma g_tattrs t : t_attrs (g t) = t_attrs t.
  Proof. unfold g. destruct (t_name t =? n); reflexivity. Qed.
  Lemma append_deref o : deref d' o = option_map g (deref d o).
  Proof. unfold deref, d'. cbn. apply find_key_map. apply g_tobj. Qed.
  Lemma append_find k : find_table d' k = option_map g (find_table d k).
  Proof. unfold find_table, d'. cbn. apply find_key_map. apply g_tname. Qed.
  Lemma append_good : good_db d -> good_db d'.
  Proof.
    intros G. constructor; unfold d'; cbn.
    - change (append n rows (tables d)) with (map g (tables d)). rewrite (map_key_id t_obj g _ g_tobj). apply (g_obj d G).
    - change (append n rows (tables d)) with (map g (tables d)). rewrite (map_key_id t_name g _ g_tname). apply (g_name d G).
    - apply (g_index d G).
    - intros i Ii. destruct (g_ref d G i Ii) as (t & a & E & Ea). exists (g t), a. split; [|now rewrite g_tattrs].
      change (deref d' (i_table i) = Some (g t)). now rewrite append_deref, E.
    - intros t It. change (append n rows (tables d)) with (map g (tables d)) in It. apply in_map_iff in It. destruct It as (t0 & <- & It). rewrite g_tattrs. now apply (g_attrs d G).
  Qed.
  Lemma append_view t : good_db d -> find_table d n = Some t ->
    same_db (view_db d') (mksdb (set (stable (view_db d)) n (Some (map (fun a => (a_name a, a_type a)) (t_attrs t), t_rows t ++ rows))) (sindex (view_db d))).
  Proof.
    intros G F. split.
    - intros k. cbn [stable]. unfold view_db, set. cbn [stable]. rewrite append_find. destruct (Nat.eqb_spec k n) as [->|K].
      + rewrite F. apply find_key_some in F. destruct F as [_ F]. cbn. unfold view_table. rewrite g_tattrs. unfold g. rewrite F, Nat.eqb_refl. reflexivity.
      + destruct (find_table d k) as [x|] eqn:X; [|reflexivity]. apply find_key_some in X. destruct X as [_ X]. cbn. unfold g.
        destruct (Nat.eqb_spec (t_name x) n); [congruence|reflexivity].
    - intros k. cbn [sindex view_db]. change (find_index d' k) with (find_index d k). destruct (find_index d k) as [i|]; [|reflexivity].
      unfold view_index. rewrite append_deref. destruct (deref d (i_table i)) as [x|]; [|reflexivity]. cbn. now rewrite g_tattrs, g_tname.
  Qed.
End Append.

Definition stale (d : db) (n : name) (i : index) : index :=
  match deref d (i_table i) with
  | Some t => if t_name t =? n then mkindex (i_name i) (i_table i) (i_attr i) (i_method i) (i_entries i) false else i
  | None => i
  end.
Lemma invalidate_map d n is : (forall i, In i is -> exists t, deref d (i_table i) = Some t) -> invalidate d n is = Some (map (stale d n) is).
Proof.
  induction is as [|i is IH]; intros H; [reflexivity|]. cbn. destruct (H i (or_introl eq_refl)) as (t & E). unfold stale at 1. rewrite E, IH by (intros; apply H; now right). reflexivity.
Qed.
Lemma stale_same d n i : i_name (stale d n i) = i_name i /\ i_table (stale d n i) = i_table i /\ i_attr (stale d n i) = i_attr i /\ i_method (stale d n i) = i_method i /\ i_entries (stale d n i) = i_entries i.
Proof. unfold stale. destruct (deref d (i_table i)) as [t|]; [destruct (t_name t =? n)|]; cbn; auto. Qed.
Lemma invalidate_good d n : good_db d -> good_db (set_indexes d (map (stale d n) (indexes d))).
Proof.
  intros G. constructor; try apply G.
  - cbn. rewrite (map_key_id i_name); [apply (g_index d G)|]. intros i. apply stale_same.
  - intros i Ii. cbn in Ii. apply in_map_iff in Ii. destruct Ii as (j & <- & J). destruct (stale_same d n j) as (_ & -> & -> & _). exact (g_ref d G j J).
Qed.
Lemma invalidate_view d n : same_db (view_db (set_indexes d (map (stale d n) (indexes d)))) (view_db d).
Proof.
  split; [reflexivity|]. intros k. cbn [view_db sindex]. unfold find_index. cbn [set_indexes indexes]. rewrite find_key_map by (intros i; apply stale_same).
  destruct (find (fun i => i_name i =? k) (indexes d)) as [i|]; [|reflexivity]. cbn. unfold view_index. destruct (stale_same d n i) as (_ & -> & -> & -> & _). reflexivity.
Qed.

(** ** Index entries *)
Lemma bulk_in rows p v i0 i : In (v, i) (bulk rows p i0) <-> exists r, i0 <= i /\ nth_error rows (i - i0) = Some r /\ nth_error r p = Some (Some v).
Proof.
  revert i0. induction rows as [|r rows IH]; intros i0; cbn [bulk].
  - split; [intros []|]. intros (r & _ & E & _). now destruct (i - i0).
  - assert (S : In (v, i) (bulk rows p (S i0)) <-> exists r', i0 < i /\ nth_error (r :: rows) (i - i0) = Some r' /\ nth_error r' p = Some (Some v)).
    { rewrite IH. split; intros (r' & L & E & V); exists r'; split; [lia| |lia|]; split; auto.
      - replace (i - i0) with (Datatypes.S (i - Datatypes.S i0)) by lia. exact E.
      - replace (i - i0) with (Datatypes.S (i - Datatypes.S i0)) in E by lia. exact E. }
    assert (H0 : (exists r', i0 <= i /\ nth_error (r :: rows) (i - i0) = Some r' /\ nth_error r' p = Some (Some v)) <->
                 (i = i0 /\ nth_error r p = Some (Some v)) \/ exists r', i0 < i /\ nth_error (r :: rows) (i - i0) = Some r' /\ nth_error r' p = Some (Some v)).
    { split.
      - intros (r' & L & E & V). destruct (Nat.eq_dec i i0) as [->|N]; [left|right].
        + rewrite Nat.sub_diag in E. cbn in E. injection E as ->. auto.
        + exists r'. split; [lia|auto].
      - intros [[-> V]|(r' & L & E & V)].
        + exists r. rewrite Nat.sub_diag. auto.
        + exists r'. split; [lia|auto]. }
    rewrite H0, <- S. destruct (nth_error r p) as [[w|]|]; cbn [In].
    + split; [intros [E|H]; [left; injection E as -> ->; auto|now right]|intros [[-> E]|H]; [left; congruence|now right]].
    + split; [now right|intros [[_ E]|H]; [discriminate|exact H]].
    + split; [now right|intros [[_ E]|H]; [discriminate|exact H]].
Qed.
Lemma bulk_nodup rows p : forall i0, NoDup (bulk rows p i0).
Proof.
  induction rows as [|r rows IH]; intros i0; cbn [bulk]; [constructor|].
  destruct (nth_error r p) as [[w|]|]; auto. constructor; [|auto]. intros I. apply bulk_in in I. destruct I as (_ & L & _). lia.
Qed.
