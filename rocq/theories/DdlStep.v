(** * Every statement has the effect data definition gives it *)
From Coq Require Import Arith List Bool ZArith Lia.
From Verif Require Import Ddl DdlSpec DdlProofs.
Import ListNotations.

(** The valid indexes of a database hold the current rows. *)
Definition Fresh (d : db) : Prop :=
  forall i t, In i (indexes d) -> i_valid i = true -> deref d (i_table i) = Some t -> i_entries i = bulk (t_rows t) (i_attr i) 0.
Definition AllFresh (st : state) : Prop := forall d, In d (dbs st) -> Fresh d.
Definition no_stale := imports_without_index.
(** The references of attributes lead to tables. *)
Definition RefD (d : db) : Prop := forall t a o p, In t (tables d) -> In a (t_attrs t) -> a_ref a = Some (o, p) -> exists u, deref d o = Some u.
Definition RefOk (st : state) : Prop := forall d, In d (dbs st) -> RefD d.

Definition Good (st : state) (c : command) (r : result) : Prop :=
  (RefOk st -> r <> Crash) /\
  forall st' ok, r = Done st' ok -> Inv st' /\ (no_stale st c -> AllFresh st -> AllFresh st') /\ (keeps_references st c -> RefOk st -> RefOk st') /\
    (distinct c -> if ok then exists s', effect (view st) c s' /\ same (view st') s' else st' = st /\ ~ exists s', effect (view st) c s').
Lemma good_intro (st : state) (c : command) (st' : state) (ok : bool) : Inv st' -> (no_stale st c -> AllFresh st -> AllFresh st') -> (keeps_references st c -> RefOk st -> RefOk st') ->
  (distinct c -> if ok then exists s', effect (view st) c s' /\ same (view st') s' else st' = st /\ ~ exists s', effect (view st) c s') -> Good st c (Done st' ok).
Proof. intros A B C D. split; [discriminate|]. intros st2 ok2 E. injection E as <- <-. auto. Qed.
Lemma good_crash (st : state) (c : command) : ~ RefOk st -> Good st c Crash.
Proof. intros H. split; [tauto|discriminate]. Qed.
Lemma schema_ok_ref d t : RefD d -> In t (tables d) -> schema_ok d t = true.
Proof.
  intros R I. apply forallb_forall. intros a A. destruct (a_ref a) as [[o p]|] eqn:E; [|reflexivity]. destruct (R t a o p I A E) as (u & ->). reflexivity.
Qed.

Lemma same_refl s : same s s.
Proof. split; [reflexivity|]. intros n. destruct (sdbs s n); [split; reflexivity|exact I]. Qed.
Lemma same_db_refl s : same_db s s.
Proof. split; reflexivity. Qed.

Lemma good_fail st c : Inv st -> (distinct c -> forall s', effect (view st) c s' -> False) -> Good st c (Done st false).
Proof. intros I N. apply good_intro; [exact I|auto|auto|]. intros D. split; [reflexivity|]. intros [s' E]. exact (N D s' E). Qed.
Lemma good_same st c : Inv st -> (distinct c -> effect (view st) c (view st)) -> Good st c (Done st true).
Proof. intros I N. apply good_intro; [exact I|auto|auto|]. intros D. exists (view st). split; [auto|apply same_refl]. Qed.

(** ** The database in use *)
Section Use.
  Variables (st : state) (c : command) (d : db).
  Hypothesis I : Inv st.
  Hypothesis D : In d (dbs st).
  Hypothesis U : in_use st = Some (d_obj d).

  Lemma use_in_db : in_db (view st) (d_name d) (view_db d).
  Proof using I D U.
    split; unfold view; cbn.
    - rewrite U. unfold db_at. rewrite (find_key d_obj _ d (inv_obj st I) D). reflexivity.
    - unfold find_db. rewrite (find_key d_name _ d (inv_name st I) D). reflexivity.
  Qed.
  Lemma use_unique n sd : in_db (view st) n sd -> n = d_name d /\ sd = view_db d.
  Proof using I D U. intros [C S]. destruct use_in_db as [C' S']. rewrite C in C'. injection C' as ->. rewrite S in S'. injection S' as ->. auto. Qed.

  Lemma good_update d' sd : good_db d' -> d_obj d' = d_obj d -> d_name d' = d_name d -> (forall t, In t (tables d') -> t_obj t < next st) ->
    (no_stale st c -> Fresh d -> Fresh d') -> (keeps_references st c -> RefD d -> RefD d') ->
    (distinct c -> same_db (view_db d') sd /\ effect (view st) c (put (view st) (d_name d) sd)) ->
    forall ok, (distinct c -> ok = true) -> Good st c (Done (update_db st (d_obj d) d') ok).
  Proof using I D U.
    intros G Eo En T F Rf X ok Ok. apply good_intro.
    - apply (update_inv st d d' (next st) I D Eo En); auto.
    - intros Ns A e E. unfold update_db in E. cbn in E. apply in_map_iff in E. destruct E as (e0 & <- & E). destruct (d_obj e0 =? d_obj d); [apply F; auto|apply A; exact E].
    - intros Ns A e E. unfold update_db in E. cbn in E. apply in_map_iff in E. destruct E as (e0 & <- & E). destruct (d_obj e0 =? d_obj d); [apply Rf; auto|apply A; exact E].
    - intros Dc. rewrite (Ok Dc). destruct (X Dc) as [X1 X2]. exists (put (view st) (d_name d) sd). split; [exact X2|].
      exact (update_view st d d' (next st) I D Eo En sd X1 U).
  Qed.
End Use.

Definition needs_db (c : command) : Prop := forall s s', effect s c s' -> exists n d, in_db s n d.
Lemma with_db_good st c f : Inv st -> needs_db c -> (forall d, In d (dbs st) -> in_use st = Some (d_obj d) -> Good st c (f d)) -> Good st c (with_db st f).
Proof.
  intros I N H. unfold with_db. destruct (in_use st) as [o|] eqn:U.
  - destruct (inv_use st I o U) as (d & E). rewrite E. apply db_at_in in E. destruct E as [E <-]. auto.
  - apply good_fail; [exact I|]. intros _ s' E. destruct (N _ _ E) as (n & sd & C & _). unfold view in C. cbn in C. rewrite U in C. discriminate.
Qed.
Ltac needs := intros s s' E; inversion E; subst; eauto.

Lemma find_table_view d n : good_db d -> (stable (view_db d) n = None <-> find_table d n = None).
Proof. intros _. rewrite view_stable. destruct (find_table d n); cbn; split; congruence. Qed.
Lemma find_index_view d n : good_db d -> (sindex (view_db d) n = None <-> find_index d n = None).
Proof.
  intros G. cbn [view_db sindex]. destruct (find_index d n) as [i|] eqn:F; [|tauto]. apply find_key_some in F. destruct F as [F _].
  destruct (g_ref d G i F) as (t & a & E & Ea). unfold view_index. rewrite E, Ea. split; congruence.
Qed.

(** ** Tables *)
Lemma analyze_refs d ds : forall done attrs, analyze_attrs d done ds = Some attrs -> forall a o p, In a attrs -> a_ref a = Some (o, p) ->
  In a done \/ exists u, deref d o = Some u.
Proof.
  induction ds as [|[[n t] r] ds IH]; intros done attrs H a o p Ia Ea; cbn [analyze_attrs] in H; [injection H as <-; now left|].
  destruct (pos_of done n); [discriminate|]. destruct r as [r|].
  - destruct (resolve d t r) as [x|] eqn:R; [|discriminate]. destruct (IH _ _ H a o p Ia Ea) as [X|X]; [|now right].
    apply in_app_iff in X. destruct X as [X|[<-|[]]]; [now left|]. right. cbn in Ea. injection Ea as ->. unfold resolve in R.
    destruct (find_table d (fst r)) as [rt|] eqn:F; [|discriminate]. destruct (pos_of (t_attrs rt) (snd r)) as [q|]; [|discriminate].
    destruct (nth_error (t_attrs rt) q) as [ra|]; [|discriminate]. destruct (ty_eqb t (a_type ra)); [|discriminate]. injection R as <- <-.
    apply find_key_some in F. destruct F as [F _]. unfold deref. destruct (find (fun t0 => t_obj t0 =? t_obj rt) (tables d)) eqn:E; [eauto|].
    apply find_key_none in E. exfalso. apply E. now apply in_map.
  - destruct (IH _ _ H a o p Ia Ea) as [X|X]; [|now right]. apply in_app_iff in X. destruct X as [X|[<-|[]]]; [now left|discriminate].
Qed.
Lemma create_table_good st n ds : Inv st -> Good st (CreateTable n ds) (create_table st n ds).
Proof.
  intros I. apply with_db_good; [exact I|needs|]. intros d D U. pose proof (inv_db st I d D) as G. pose proof (inv_fresh st I d D) as [Fo Ft].
  destruct (find_table d n) as [t|] eqn:F.
  - apply good_fail; [exact I|]. intros _ s' E. inversion E as [| | | |c sd n' ds' C S| | | | | | |]; subst. destruct (use_unique st d I D U _ _ C) as [-> ->].
    apply (find_table_view d n G) in S. congruence.
  - destruct (analyze_attrs d [] ds) as [attrs|] eqn:A.
    + destruct (analyze_some d ds [] attrs A (NoDup_nil _)) as (N & M & V). specialize (V G). cbn in M.
      set (d' := set_tables d (mktable (next st) n attrs [] :: tables d)).
      assert (R : forall o t, deref d o = Some t -> deref d' o = Some t).
      { intros o t E. unfold deref, d'. cbn. pose proof E as E0. apply find_key_some in E0. destruct E0 as [It Et]. specialize (Ft t It).
        destruct (Nat.eqb_spec (next st) o); [lia|exact E]. }
      assert (Tk : forall k, find_table d' k = if k =? n then Some (mktable (next st) n attrs []) else find_table d k).
      { intros k. unfold find_table, d'. cbn. rewrite (Nat.eqb_sym k n). reflexivity. }
      assert (G' : good_db d').
      { constructor; unfold d'; cbn.
        - constructor; [|apply (g_obj d G)]. intros X. apply in_map_iff in X. destruct X as (t & Et & It). specialize (Ft t It). lia.
        - constructor; [|apply (g_name d G)]. apply find_key_none in F. exact F.
        - apply (g_index d G).
        - intros i Ii. destruct (g_ref d G i Ii) as (t & a & E & Ea). exists t, a. split; [|exact Ea]. apply (R _ _ E).
        - intros t [<-|It]; [exact N|now apply (g_attrs d G)]. }
      assert (Inv (mkstate (map (fun e => if d_obj e =? d_obj d then d' else e) (dbs st)) (in_use st) (S (next st)))) as I'.
      { apply (update_inv st d d' (S (next st)) I D eq_refl eq_refl); [lia|exact G'|]. intros t [<-|It]; cbn; [lia|]. specialize (Ft t It). lia. }
      apply good_intro; [exact I'| | |].
      * intros _ Af e E. cbn in E. apply in_map_iff in E. destruct E as (e0 & <- & E). destruct (d_obj e0 =? d_obj d); [|now apply Af].
        intros i t Ii Vi Et. destruct (g_ref d G i Ii) as (t0 & a0 & E0 & _). change (deref d' (i_table i) = Some t) in Et. rewrite (R _ _ E0) in Et. injection Et as <-. exact (Af d D i t0 Ii Vi E0).
      * intros _ Rf e E. cbn in E. apply in_map_iff in E. destruct E as (e0 & <- & E). destruct (d_obj e0 =? d_obj d); [|now apply Rf].
        intros t a o q It Ia Ea. destruct It as [<-|It].
        -- cbn in Ia. destruct (analyze_refs d ds [] attrs A a o q Ia Ea) as [[]|(u & Eu)]. exists u. exact (R o u Eu).
        -- destruct (Rf d D t a o q It Ia Ea) as (u & Eu). exists u. exact (R o u Eu).
      * intros _. eexists. split.
        -- apply (E_create_table _ (d_name d) (view_db d) n ds); [apply (use_in_db st d I D U)|now apply find_table_view| |exact V].
           assert (EqN : map (fun x => fst (fst x)) ds = map a_name attrs); [|rewrite EqN; exact N].
           transitivity (map fst (map (fun a => (a_name a, a_type a)) attrs)); [rewrite M, map_map; reflexivity|now rewrite map_map].
        -- apply (update_view st d d' (S (next st)) I D eq_refl eq_refl _); [|exact U]. split.
           ++ intros k. rewrite view_stable, Tk. unfold set. cbn. unfold set. destruct (k =? n); [|reflexivity]. cbn. unfold view_table. cbn. now rewrite M.
           ++ intros k. cbn [sindex view_db]. change (find_index d' k) with (find_index d k). destruct (find_index d k) as [i|] eqn:Fi; [|reflexivity].
              apply find_key_some in Fi. destruct Fi as [Fi _]. destruct (g_ref d G i Fi) as (t & a & E & Ea). unfold view_index. now rewrite (R _ _ E), E.
    + apply good_fail; [exact I|]. intros _ s' E. inversion E as [| | | |c sd n' ds' C S N V| | | | | | |]; subst. destruct (use_unique st d I D U _ _ C) as [-> ->].
      destruct (analyze_total d ds G [] N V) as (attrs & A'). congruence.
Qed.

Lemma drop_tables_total ns : forall d ok, good_db d ->
  exists d' ok', drop_tables d ok ns = Some (d', ok') /\ good_db d' /\ d_obj d' = d_obj d /\ d_name d' = d_name d /\
    tables d' = filter (fun t => negb (existsb (Nat.eqb (t_name t)) ns)) (tables d) /\
    (forall i, In i (indexes d') -> In i (indexes d) /\ deref d' (i_table i) = deref d (i_table i)).
Proof.
  induction ns as [|n ns IH]; intros d ok G.
  - exists d, ok. repeat split; auto; try apply G. cbn. clear. induction (tables d) as [|t l IH]; [reflexivity|]. cbn. now rewrite <- IH.
  - cbn [drop_tables]. destruct (find_table d n) as [t|] eqn:F.
    2:{ destruct (IH d false G) as (d' & ok' & E' & G' & O' & M' & I' & J'). exists d', ok'. do 4 (split; [assumption|]). split; [|exact J'].
        rewrite I'. apply find_key_none in F. apply filter_ext_in. intros t It. cbn. destruct (Nat.eqb_spec (t_name t) n) as [X|X]; [|reflexivity].
        exfalso. apply F. rewrite <- X. now apply in_map. }
    destruct (drop_one d n G) as (E & G1 & T1 & S1 & R1). rewrite E. cbn [indexes] in *.
    destruct (IH _ ok G1) as (d' & ok' & E' & G' & O' & M' & I' & J'). exists d', ok'. split; [exact E'|]. split; [exact G'|].
    split; [exact O'|]. split; [exact M'|]. split.
    + rewrite I'. cbn [tables]. clear. induction (tables d) as [|t l IH]; [reflexivity|]. cbn. destruct (t_name t =? n); cbn; [exact IH|].
      destruct (existsb (Nat.eqb (t_name t)) ns); cbn; now rewrite IH.
    + intros i X. apply J' in X. destruct X as [X Y]. rewrite Y. split; [|now apply R1]. cbn in X. apply filter_In in X. tauto.
Qed.

Lemma filter_all {A} (p : A -> bool) l : (length (filter p l) =? length l) = true <-> forall x, In x l -> p x = true.
Proof.
  induction l as [|x l IH]; cbn; [split; [intros _ _ []|reflexivity]|].
  assert (L : length (filter p l) <= length l) by (clear; induction l as [|y l IH]; cbn; [lia|destruct (p y); cbn; lia]).
  destruct (p x) eqn:P; cbn [length].
  - cbn. rewrite IH. split; [intros H y [<-|Y]; auto|intros H y Y; auto].
  - split; [intros H; apply Nat.eqb_eq in H; lia|intros H; specialize (H x (or_introl eq_refl)); congruence].
Qed.
Lemma existsb_eq k l : existsb (Nat.eqb k) l = true <-> In k l.
Proof. rewrite existsb_exists. split; [intros (x & I & E); apply Nat.eqb_eq in E; now subst|intros I; exists k; split; [exact I|apply Nat.eqb_refl]]. Qed.
Lemma bool_eq_iff (a b : bool) : (a = true <-> b = true) -> a = b.
Proof. destruct a, b; intros H; try reflexivity; destruct H; intuition congruence. Qed.

Lemma drop_table_good st ns e : Inv st -> Good st (DropTable ns e) (drop_table st ns e).
Proof.
  intros I. apply with_db_good; [exact I|needs|]. intros d D U. pose proof (inv_db st I d D) as G. pose proof (inv_fresh st I d D) as [Fo Ft].
  set (p := fun n => match find_table d n with Some _ => true | None => false end).
  assert (P : forall n, p n = true <-> stable (view_db d) n <> None).
  { intros n. rewrite (find_table_view d n G). unfold p. destruct (find_table d n); split; congruence. }
  change (Good st (DropTable ns e) (if e || (length (filter p ns) =? length ns) then match drop_tables d true (filter p ns) with
    None => Crash | Some (d', ok) => Done (update_db st (d_obj d) d') ok end else Done st false)).
  destruct (e || (length (filter p ns) =? length ns)) eqn:C.
  - destruct (drop_tables_total (filter p ns) d true G) as (d' & ok & E & G' & O' & M' & I' & J'). rewrite E.
    apply (good_update st _ d I D U d' (mksdb (remove (stable (view_db d)) ns)
       (fun i => match sindex (view_db d) i with Some (t, a, m) => if existsb (Nat.eqb t) ns then None else Some (t, a, m) | None => None end))); auto.
    + intros t X. rewrite I' in X. apply filter_In in X. now apply Ft.
    + intros _ F i t Ii Vi Et. destruct (J' i Ii) as [Ii' R]. rewrite R in Et. now apply F.
    + intros K Rf t a o q It Ia Ea. rewrite I' in It. apply filter_In in It. destruct It as [It Nt]. destruct (Rf t a o q It Ia Ea) as (u & Eu). exists u.
      unfold deref. rewrite I', find_key_filter by apply (g_obj d G). unfold deref in Eu. rewrite Eu. pose proof Eu as Eu0. apply find_key_some in Eu0. destruct Eu0 as [Iu Ou].
      destruct (existsb (Nat.eqb (t_name u)) (filter p ns)) eqn:X; [|reflexivity]. exfalso. apply existsb_eq in X. apply filter_In in X. destruct X as [X _].
      assert (Y : In (t_name t) ns) by (apply (K ns e eq_refl d t u D U); [split; [exact It|split; [exact Iu|exists a, q; subst o; auto]]|exact X]).
      apply negb_true_iff in Nt. assert (Z : existsb (Nat.eqb (t_name t)) (filter p ns) = true); [|congruence]. apply existsb_eq, filter_In. split; [exact Y|].
      unfold p, find_table. now rewrite (find_key t_name _ t (g_name d G) It).
    + intros Dc. cbn in Dc. split.
      * destruct (drop_tables_view (filter p ns) d true G) as (d2 & E2 & _ & _ & _ & _ & _ & T' & S').
        { now apply NoDup_filter. }
        { intros n X. apply filter_In in X. destruct X as [_ X]. unfold p in X. destruct (find_table d n); congruence. }
        rewrite E in E2. injection E2 as -> ->. split.
        -- intros k. rewrite view_stable, T'. cbn [stable]. unfold remove. rewrite view_stable.
           destruct (find_table d k) as [t|] eqn:F; [|cbn [option_map]; destruct (existsb (Nat.eqb k) ns), (existsb (Nat.eqb k) (filter p ns)); reflexivity].
           replace (existsb (Nat.eqb k) (filter p ns)) with (existsb (Nat.eqb k) ns); [destruct (existsb (Nat.eqb k) ns); reflexivity|]. apply bool_eq_iff.
           rewrite !existsb_eq, filter_In. unfold p. rewrite F. tauto.
        -- intros k. rewrite S'. cbn [sindex]. destruct (sindex (view_db d) k) as [[[t a] m]|] eqn:S; [|reflexivity].
           replace (existsb (Nat.eqb t) (filter p ns)) with (existsb (Nat.eqb t) ns); [reflexivity|]. apply bool_eq_iff. rewrite !existsb_eq, filter_In.
           split; [|tauto]. intros X. split; [exact X|]. cbn [view_db sindex] in S. destruct (find_index d k) as [i|]; [|discriminate]. unfold view_index in S.
           destruct (deref d (i_table i)) as [tb|] eqn:R; [|discriminate]. destruct (nth_error (t_attrs tb) (i_attr i)) as [x|]; [|discriminate].
           injection S as <- _ _. unfold p. apply find_key_some in R. destruct R as [R _]. unfold find_table. now rewrite (find_key t_name _ tb (g_name d G) R).
      * apply (E_drop_table _ _ (view_db d)); [apply (use_in_db st d I D U)|]. apply orb_true_iff in C. destruct C as [C|C]; [now left|right].
        intros n X. apply P. now apply (proj1 (filter_all p ns) C).
    + intros Dc. cbn in Dc. destruct (drop_tables_view (filter p ns) d true G) as (d2 & E2 & _).
      { now apply NoDup_filter. }
      { intros n X. apply filter_In in X. destruct X as [_ X]. unfold p in X. destruct (find_table d n); congruence. }
      rewrite E in E2. now injection E2 as _ ->.
  - apply good_fail; [exact I|]. intros _ s' E. inversion E as [| | | | |c sd n' e' C' S| | | | | |]; subst. destruct (use_unique st d I D U _ _ C') as [-> ->].
    apply orb_false_iff in C. destruct C as [Ce Cl]. destruct S as [S|S]; [congruence|].
    assert (X : (length (filter p ns) =? length ns) = true); [|congruence]. apply filter_all. intros n Hn. now apply P, S.
Qed.

(** ** Indexes *)
Lemma create_index_good st n e tn an m : Inv st -> Good st (CreateIndex n e tn an m) (create_index st n e tn an m).
Proof.
  intros I. apply with_db_good; [exact I|needs|]. intros d D U. pose proof (inv_db st I d D) as G. pose proof (inv_fresh st I d D) as [Fo Ft].
  destruct (find_index d n) as [i|] eqn:F.
  - destruct e.
    + apply good_same; [exact I|]. intros _. destruct (sindex (view_db d) n) as [x|] eqn:S; [|apply (find_index_view d n G) in S; congruence].
      apply (E_index_exists _ (d_name d) (view_db d) n tn an m x); [apply (use_in_db st d I D U)|exact S].
    + apply good_fail; [exact I|]. intros _ s' E. inversion E as [| | | | | |c sd n' e' t' a' m' ty C S| | | | |]; subst. destruct (use_unique st d I D U _ _ C) as [-> ->].
      apply (find_index_view d n G) in S. congruence.
  - assert (Sn : sindex (view_db d) n = None) by now apply find_index_view.
    assert (Bad : (forall ty, has_attr (view_db d) tn an ty -> (m = RMI -> ty <> TChar) -> False) -> Good st (CreateIndex n e tn an m) (Done st false)).
    { intros B. apply good_fail; [exact I|]. intros _ s' E. inversion E as [| | | | | |c sd n' e' t' a' m' ty C S A R|c sd n' t' a' m' x C S| | | |]; subst.
      - destruct (use_unique st d I D U _ _ C) as [-> ->]. eauto.
      - destruct (use_unique st d I D U _ _ C) as [-> ->]. congruence. }
    destruct (find_table d tn) as [t|] eqn:T; [|apply Bad; intros ty A _; apply (has_attr_iff d _ _ _ G) in A; destruct A as (tb & p & x & X & _); congruence].
    destruct (pos_of (t_attrs t) an) as [p|] eqn:P; [|apply Bad; intros ty A _; apply (has_attr_iff d _ _ _ G) in A; destruct A as (tb & p & x & X & Y & _); congruence].
    destruct (pos_of_some _ _ _ P) as (a & Ea & Na). rewrite Ea.
    assert (Ha : has_attr (view_db d) tn an (a_type a)) by (apply (has_attr_iff d _ _ _ G); exists t, p, a; auto).
    destruct (method_eqb m RMI && ty_eqb (a_type a) TChar) eqn:M.
    + apply Bad. intros ty A R. apply andb_true_iff in M. destruct M as [M1 M2]. apply method_eqb_eq in M1. apply ty_eqb_eq in M2. apply (R M1).
      apply (has_attr_iff d _ _ _ G) in A. destruct A as (tb & q & x & X & Y & Z & W). congruence.
    + set (new := mkindex n (t_obj t) p m (bulk (t_rows t) p 0) true).
      assert (It : In t (tables d) /\ t_name t = tn) by (apply find_key_some in T; exact T). destruct It as [It Nt].
      destruct (schema_ok d t) eqn:Sc; cbn [negb]; [|apply good_crash; intros Rf; rewrite (schema_ok_ref d t (Rf d D) It) in Sc; discriminate].
      assert (Rt : deref d (t_obj t) = Some t) by (apply (find_key t_obj); [apply (g_obj d G)|exact It]).
      apply (good_update st _ d I D U (set_indexes d (indexes d ++ [new])) (mksdb (stable (view_db d)) (set (sindex (view_db d)) n (Some (tn, an, m))))); auto.
      * constructor; try apply G.
        -- cbn. rewrite map_app. cbn. apply find_key_none in F. rewrite <- (rev_involutive (map i_name (indexes d) ++ [n])). apply NoDup_rev. rewrite rev_app_distr. cbn.
           constructor; [rewrite <- in_rev; exact F|apply NoDup_rev, (g_index d G)].
        -- intros i Ii. cbn in Ii. apply in_app_iff in Ii. destruct Ii as [Ii|[<-|[]]]; [exact (g_ref d G i Ii)|]. exists t, a. split; [exact Rt|exact Ea].
      * intros _ Fr i t' Ii Vi Et. cbn in Ii. apply in_app_iff in Ii. destruct Ii as [Ii|[<-|[]]]; [exact (Fr i t' Ii Vi Et)|].
        change (deref d (t_obj t) = Some t') in Et. rewrite Rt in Et. injection Et as <-. reflexivity.
      * intros _. split.
        -- split; [reflexivity|]. intros k. cbn [view_db sindex]. unfold find_index. cbn [set_indexes indexes]. rewrite find_key_app. unfold set.
           destruct (Nat.eqb_spec k n) as [->|K].
           ++ unfold find_index in F. rewrite F. cbn. rewrite Nat.eqb_refl. unfold view_index, new. cbn [i_table i_attr i_method]. rewrite deref_set_indexes. rewrite Rt, Ea. now rewrite Nt, Na.
           ++ destruct (find (fun i => i_name i =? k) (indexes d)) as [i|]; [reflexivity|]. cbn. destruct (Nat.eqb_spec n k); [congruence|reflexivity].
        -- apply (E_create_index _ (d_name d) (view_db d) n e tn an m (a_type a)); [apply (use_in_db st d I D U)|exact Sn|exact Ha|].
           intros -> X. rewrite X in M. discriminate.
Qed.

Lemma drop_index_loop_total ns : forall d ok, good_db d ->
  exists is ok', drop_index_loop d ok ns = (set_indexes d is, ok') /\ good_db (set_indexes d is) /\ (forall i, In i is -> In i (indexes d)).
Proof.
  induction ns as [|n ns IH]; intros d ok G.
  - exists (indexes d), ok. destruct d as [o nm ts is]. cbn. repeat split; auto; apply G.
  - cbn [drop_index_loop]. destruct (find_index d n) as [i|] eqn:F; [|apply IH, G].
    set (d1 := set_indexes d (remove_first n (indexes d))).
    assert (G1 : good_db d1).
    { constructor; try apply G.
      - apply remove_first_nodup, (g_index d G).
      - intros j J. apply remove_first_in in J. exact (g_ref d G j J). }
    destruct (IH d1 ok G1) as (is & ok' & E & G' & I'). exists is, ok'. split; [exact E|]. split; [exact G'|].
    intros j J. apply I' in J. now apply remove_first_in in J.
Qed.

Lemma drop_index_good st ns e : Inv st -> Good st (DropIndex ns e) (drop_index st ns e).
Proof.
  intros I. apply with_db_good; [exact I|needs|]. intros d D U. pose proof (inv_db st I d D) as G. pose proof (inv_fresh st I d D) as [Fo Ft].
  set (p := fun n => match find_index d n with Some _ => true | None => false end).
  assert (P : forall n, p n = true <-> sindex (view_db d) n <> None).
  { intros n. rewrite (find_index_view d n G). unfold p. destruct (find_index d n); split; congruence. }
  change (Good st (DropIndex ns e) (if e || (length (filter p ns) =? length ns) then
    let '(d', ok) := drop_index_loop d true (filter p ns) in Done (update_db st (d_obj d) d') ok else Done st false)).
  destruct (e || (length (filter p ns) =? length ns)) eqn:C.
  - destruct (drop_index_loop_total (filter p ns) d true G) as (is & ok & E & G' & I'). rewrite E.
    apply (good_update st _ d I D U (set_indexes d is) (mksdb (stable (view_db d)) (remove (sindex (view_db d)) ns))); auto.
    + intros _ F i t Ii Vi Et. exact (F i t (I' i Ii) Vi Et).
    + intros Dc. cbn in Dc. split.
      * destruct (drop_index_loop_view (filter p ns) d true G) as (is2 & E2 & _ & I2 & F2).
        { now apply NoDup_filter. }
        { intros n X. apply filter_In in X. destruct X as [_ X]. unfold p in X. destruct (find_index d n); congruence. }
        rewrite E in E2. injection E2 as -> ->. split; [reflexivity|].
        intros k. cbn [view_db sindex]. rewrite F2. unfold remove. cbn [view_db sindex]. destruct (find_index d k) as [i|] eqn:F.
        -- replace (existsb (Nat.eqb k) (filter p ns)) with (existsb (Nat.eqb k) ns).
           ++ destruct (existsb (Nat.eqb k) ns); reflexivity.
           ++ apply bool_eq_iff. rewrite !existsb_eq, filter_In. unfold p. rewrite F. tauto.
        -- destruct (existsb (Nat.eqb k) ns), (existsb (Nat.eqb k) (filter p ns)); reflexivity.
      * apply (E_drop_index _ _ (view_db d)); [apply (use_in_db st d I D U)|]. apply orb_true_iff in C. destruct C as [C|C]; [now left|right].
        intros n X. apply P. now apply (proj1 (filter_all p ns) C).
    + intros Dc. cbn in Dc. destruct (drop_index_loop_view (filter p ns) d true G) as (is2 & E2 & _).
      { now apply NoDup_filter. }
      { intros n X. apply filter_In in X. destruct X as [_ X]. unfold p in X. destruct (find_index d n); congruence. }
      rewrite E in E2. now injection E2 as _ ->.
  - apply good_fail; [exact I|]. intros _ s' E. inversion E as [| | | | | | | |c sd n' e' C' S| | |]; subst. destruct (use_unique st d I D U _ _ C') as [-> ->].
    apply orb_false_iff in C. destruct C as [Ce Cl]. destruct S as [S|S]; [congruence|].
    assert (X : (length (filter p ns) =? length ns) = true); [|congruence]. apply filter_all. intros n Hn. now apply P, S.
Qed.

(** ** Rows *)
Lemma append_tables_in d n rows t : In t (tables (set_tables d (append n rows (tables d)))) -> exists t0, In t0 (tables d) /\ t_obj t = t_obj t0.
Proof.
  cbn. intros X. apply in_map_iff in X. destruct X as (t0 & <- & X). exists t0. split; [exact X|]. destruct (t_name t0 =? n); reflexivity.
Qed.

Lemma append_tables_ref n rows ts t : In t (append n rows ts) -> exists t0, In t0 ts /\ t_attrs t = t_attrs t0.
Proof. intros X. apply in_map_iff in X. destruct X as (t0 & <- & X). exists t0. split; [exact X|]. destruct (t_name t0 =? n); reflexivity. Qed.

Lemma insert_good st tn rows : Inv st -> Good st (Insert tn rows) (insert st tn rows).
Proof.
  intros I. apply with_db_good; [exact I|needs|]. intros d D U. pose proof (inv_db st I d D) as G. pose proof (inv_fresh st I d D) as [Fo Ft].
  destruct (find_table d tn) as [t|] eqn:T.
  - set (d1 := set_tables d (append tn rows (tables d))). pose proof (append_good d tn rows G) as G1. change (good_db d1) in G1.
    destruct (schema_ok d t) eqn:Sc; cbn [negb].
    2:{ apply good_crash. intros Rf. apply find_key_some in T. destruct T as [T _]. rewrite (schema_ok_ref d t (Rf d D) T) in Sc. discriminate. }
    cbv zeta. rewrite (invalidate_map d1 tn (indexes d1)) by (intros i Ii; destruct (g_ref d1 G1 i Ii) as (x & a & E & _); eauto).
    apply (good_update st _ d I D U (set_indexes d1 (map (stale d1 tn) (indexes d1)))
      (mksdb (set (stable (view_db d)) tn (Some (map (fun a => (a_name a, a_type a)) (t_attrs t), t_rows t ++ rows))) (sindex (view_db d)))); auto.
    + apply invalidate_good, G1.
    + intros x X. cbn [set_indexes tables] in X. apply append_tables_in in X. destruct X as (x0 & X & ->). auto.
    + intros _ Fr i x Ii Vi Ex. cbn [set_indexes indexes] in Ii. apply in_map_iff in Ii. destruct Ii as (j & <- & J).
      rewrite deref_set_indexes in Ex. destruct (stale_same d1 tn j) as (_ & Et & Ea & _ & Ee). rewrite Et in Ex. rewrite Ea, Ee.
      unfold stale in Vi. rewrite Ex in Vi. destruct (t_name x =? tn) eqn:X; [discriminate|].
      unfold d1 in Ex. rewrite append_deref in Ex. destruct (deref d (i_table j)) as [y|] eqn:Y; [|discriminate]. cbn in Ex. injection Ex as <-.
      rewrite (Fr j y J Vi Y). destruct (t_name y =? tn) eqn:Z; [cbn in X; congruence|reflexivity].
    + intros _ Rf t0 a o q It0 Ia Ea. unfold set_tables in It0. apply append_tables_ref in It0. destruct It0 as (t1 & It1 & At1). rewrite At1 in Ia. destruct (Rf t1 a o q It1 Ia Ea) as (u & Eu).
      change (exists u, deref d1 o = Some u). unfold d1. rewrite append_deref, Eu. cbn. eauto.
    + intros _. split.
      * destruct (invalidate_view d1 tn) as [V1 V2]. destruct (append_view d tn rows t G T) as [W1 W2]. change (set_tables d (append tn rows (tables d))) with d1 in W1, W2.
        split; intros k; [now rewrite V1, W1|now rewrite V2, W2].
      * apply (E_insert _ _ (view_db d)); [apply (use_in_db st d I D U)|]. rewrite view_stable, T. reflexivity.
  - apply good_fail; [exact I|]. intros _ s' E. inversion E as [| | | | | | | | |c sd t' r' at' old C S| |]; subst. destruct (use_unique st d I D U _ _ C) as [-> ->].
    rewrite view_stable, T in S. discriminate.
Qed.

Lemma lookup_none d tn an m is : lookup_index d tn an m is = Some None -> forall i t a, In i is -> deref d (i_table i) = Some t -> nth_error (t_attrs t) (i_attr i) = Some a ->
  i_valid i = true -> t_name t = tn -> a_name a = an -> i_method i = m -> False.
Proof.
  induction is as [|j is IH]; intros H i t a Ii E Ea V Nt Na M; [destruct Ii|]. cbn in H.
  destruct (deref d (i_table j)) as [t'|] eqn:Ej; [|discriminate]. destruct (nth_error (t_attrs t') (i_attr j)) as [a'|] eqn:Aj; [|discriminate].
  destruct (i_valid j && (t_name t' =? tn) && (a_name a' =? an) && method_eqb (i_method j) m) eqn:C; [discriminate|].
  destruct Ii as [->|Ii]; [|exact (IH H i t a Ii E Ea V Nt Na M)].
  rewrite E in Ej. injection Ej as <-. rewrite Ea in Aj. injection Aj as <-. rewrite V, Nt, Na, M, !Nat.eqb_refl in C. cbn in C.
  destruct m; discriminate.
Qed.

Lemma import_good st tn rows : Inv st -> Good st (Import tn rows) (import st tn rows).
Proof.
  intros I. apply with_db_good; [exact I|needs|]. intros d D U. pose proof (inv_db st I d D) as G. pose proof (inv_fresh st I d D) as [Fo Ft].
  destruct (find_table d tn) as [t|] eqn:T.
  - set (d1 := set_tables d (append tn rows (tables d))). pose proof (append_good d tn rows G) as G1. change (good_db d1) in G1.
    apply (good_update st _ d I D U d1
      (mksdb (set (stable (view_db d)) tn (Some (map (fun a => (a_name a, a_type a)) (t_attrs t), t_rows t ++ rows))) (sindex (view_db d)))); auto.
    + intros x X. apply append_tables_in in X. destruct X as (x0 & X & ->). auto.
    + intros Ns Fr i x Ii Vi Ex. change (indexes d1) with (indexes d) in Ii.
      unfold d1 in Ex. rewrite append_deref in Ex. destruct (deref d (i_table i)) as [y|] eqn:Y; [|discriminate]. cbn in Ex. injection Ex as <-.
      destruct (Nat.eqb_spec (t_name y) tn) as [Z|Z]; [|exact (Fr i y Ii Vi Y)]. exfalso.
      destruct (g_ref d G i Ii) as (y' & a & Y' & A). rewrite Y in Y'. injection Y' as <-.
      specialize (Ns tn rows eq_refl (a_name a) (i_method i)). unfold get_index in Ns. rewrite U in Ns. unfold db_at in Ns. rewrite (find_key d_obj _ d (inv_obj st I) D), T in Ns.
      assert (y = t).
      { apply find_key_some in Y. destruct Y as [Y _]. unfold find_table in T. pose proof (find_key t_name _ y (g_name d G) Y) as K. rewrite Z in K. congruence. }
      subst y. destruct (pos_of (t_attrs t) (a_name a)) as [q|] eqn:Q.
      * exact (lookup_none d tn (a_name a) (i_method i) (indexes d) Ns i t a Ii Y A Vi Z eq_refl eq_refl).
      * apply pos_of_none in Q. apply Q. apply in_map. exact (nth_error_In _ _ A).
    + intros _ Rf t0 a o q It0 Ia Ea. unfold set_tables in It0. apply append_tables_ref in It0. destruct It0 as (t1 & It1 & At1). rewrite At1 in Ia. destruct (Rf t1 a o q It1 Ia Ea) as (u & Eu).
      change (exists u, deref d1 o = Some u). unfold d1. rewrite append_deref, Eu. cbn. eauto.
    + intros _. split.
      * exact (append_view d tn rows t G T).
      * apply (E_import _ _ (view_db d)); [apply (use_in_db st d I D U)|]. rewrite view_stable, T. reflexivity.
  - apply good_fail; [exact I|]. intros _ s' E. inversion E as [| | | | | | | | | |c sd t' r' at' old C S|]; subst. destruct (use_unique st d I D U _ _ C) as [-> ->].
    rewrite view_stable, T in S. discriminate.
Qed.

Lemma select_good st tn : Inv st -> Good st (Select tn) (select st tn).
Proof.
  intros I. apply with_db_good; [exact I|needs|]. intros d D U. destruct (find_table d tn) as [t|] eqn:T.
  - destruct (schema_ok d t) eqn:Sc.
    + apply good_same; [exact I|]. intros _. apply (E_select _ (d_name d) (view_db d) tn (view_table t)); [apply (use_in_db st d I D U)|]. rewrite view_stable, T. reflexivity.
    + apply good_crash. intros Rf. apply find_key_some in T. destruct T as [T _]. rewrite (schema_ok_ref d t (Rf d D) T) in Sc. discriminate.
  - apply good_fail; [exact I|]. intros _ s' E. inversion E as [| | | | | | | | | | |c sd t' x C S]; subst. destruct (use_unique st d I D U _ _ C) as [-> ->].
    rewrite view_stable, T in S. discriminate.
Qed.

(** ** Databases *)
Lemma view_none st n : sdbs (view st) n = None <-> find_db st n = None.
Proof. unfold view. cbn. destruct (find_db st n); cbn; split; congruence. Qed.
Lemma good_empty o n : good_db (mkdb o n [] []).
Proof. constructor; cbn; try constructor; intros ? []. Qed.

Lemma create_database_good st n : Inv st -> Good st (CreateDatabase n) (create_database st n).
Proof.
  intros I. unfold create_database. destruct (find_db st n) as [d|] eqn:F.
  - apply good_fail; [exact I|]. intros _ s' E. inversion E as [n' S| | | | | | | | | | |]; subst. apply view_none in S. congruence.
  - set (st' := mkstate (mkdb (next st) n [] [] :: dbs st) (in_use st) (S (next st))).
    assert (A : forall o d, db_at st o = Some d -> db_at st' o = Some d).
    { intros o d E. unfold db_at, st'. cbn. pose proof (db_at_in _ _ _ E) as [X <-]. destruct (inv_fresh st I d X) as [L _].
      destruct (Nat.eqb_spec (next st) (d_obj d)); [lia|exact E]. }
    apply good_intro.
    + constructor; unfold st'; cbn.
      * constructor; [|apply (inv_obj st I)]. intros X. apply in_map_iff in X. destruct X as (d & E & X). destruct (inv_fresh st I d X). lia.
      * constructor; [|apply (inv_name st I)]. now apply find_key_none in F.
      * intros d [<-|X]; cbn; [split; [lia|intros t []]|]. destruct (inv_fresh st I d X) as [L T]. split; [lia|]. intros t Ht. specialize (T t Ht). lia.
      * intros d [<-|X]; [apply good_empty|now apply (inv_db st I)].
      * intros o X. destruct (inv_use st I o X) as (d & E). exists d. exact (A o d E).
    + intros _ Af d [<-|X]; [intros i t []|now apply Af].
    + intros _ Rf d [<-|X]; [intros t a o p []|now apply Rf].
    + intros _. exists (mksstate (set (sdbs (view st)) n (Some empty_db)) (current (view st))). split.
      * constructor. now apply view_none.
      * split.
        -- unfold view. cbn [current]. change (in_use st') with (in_use st). destruct (in_use st) as [o|] eqn:U; [|reflexivity].
           destruct (inv_use st I o U) as (d & E). now rewrite (A o d E), E.
        -- intros k. unfold view, set. cbn [sdbs]. unfold find_db, st'. cbn [dbs find d_name]. rewrite (Nat.eqb_sym n k). destruct (k =? n).
           ++ cbn. split; reflexivity.
           ++ destruct (find (fun d => d_name d =? k) (dbs st)); cbn; [split; reflexivity|exact Logic.I].
Qed.

Lemma drop_database_good st n e : Inv st -> Good st (DropDatabase n e) (drop_database st n e).
Proof.
  intros I. unfold drop_database. cbv zeta.
  assert (Go : current (view st) <> Some n -> Good st (DropDatabase n e)
    (match find_db st n with None => Done st e | Some d => Done (mkstate (filter (fun x => negb (d_obj x =? d_obj d)) (dbs st)) (in_use st) (next st)) true end)).
  { intros Cn. destruct (find_db st n) as [d|] eqn:F.
    - pose proof F as F0. apply find_key_some in F0. destruct F0 as [D Nd].
      set (st' := mkstate (filter (fun x => negb (d_obj x =? d_obj d)) (dbs st)) (in_use st) (next st)).
      assert (A : forall o x, in_use st = Some o -> db_at st o = Some x -> db_at st' o = Some x).
      { intros o x U E. unfold db_at, st'. cbn. rewrite find_key_filter by apply (inv_obj st I). unfold db_at in E. rewrite E.
        destruct (Nat.eqb_spec (d_obj x) (d_obj d)) as [X|X]; [|reflexivity]. exfalso. apply Cn. unfold view. cbn. rewrite U. unfold db_at. rewrite E. cbn.
        apply find_key_some in E. destruct E as [E _]. pose proof (find_key d_obj _ x (inv_obj st I) E) as K1. pose proof (find_key d_obj _ d (inv_obj st I) D) as K2. rewrite X in K1. congruence. }
      apply good_intro.
      + constructor; unfold st'; cbn.
        * apply NoDup_key_filter, (inv_obj st I).
        * apply NoDup_key_filter, (inv_name st I).
        * intros x X. apply filter_In in X. now apply (inv_fresh st I).
        * intros x X. apply filter_In in X. now apply (inv_db st I).
        * intros o X. destruct (inv_use st I o X) as (x & E). exists x. exact (A o x X E).
      + intros _ Af x X. apply filter_In in X. now apply Af.
      + intros _ Rf x X. apply filter_In in X. now apply Rf.
      + intros _. exists (mksstate (set (sdbs (view st)) n None) (current (view st))). split.
        * apply (E_drop_database _ n e (view_db d)); [|exact Cn]. unfold view. cbn. now rewrite F.
        * split.
          -- unfold view. cbn [current]. change (in_use st') with (in_use st). destruct (in_use st) as [o|] eqn:U; [|reflexivity].
             destruct (inv_use st I o U) as (x & E). now rewrite (A o x eq_refl E), E.
          -- intros k. unfold view, set. cbn [sdbs]. unfold find_db, st'. cbn [dbs]. rewrite find_key_filter by apply (inv_name st I).
             destruct (find (fun d => d_name d =? k) (dbs st)) as [x|] eqn:Fx.
             ++ apply find_key_some in Fx. destruct Fx as [X Nx]. destruct (Nat.eqb_spec (d_obj x) (d_obj d)) as [Y|Y]; cbn [negb].
                ** pose proof (find_key d_obj _ x (inv_obj st I) X) as K1. pose proof (find_key d_obj _ d (inv_obj st I) D) as K2. rewrite Y in K1.
                   assert (x = d) by congruence. subst x. replace (k =? n) with true by (symmetry; apply Nat.eqb_eq; congruence). exact Logic.I.
                ** destruct (Nat.eqb_spec k n) as [Z|Z]; [|split; reflexivity].
                   pose proof (find_key d_name _ x (inv_name st I) X) as K1. pose proof (find_key d_name _ d (inv_name st I) D) as K2. rewrite Nx, Z, <- Nd in K1. congruence.
             ++ destruct (k =? n); exact Logic.I.
    - destruct e.
      + apply good_same; [exact I|]. intros _. constructor. now apply view_none.
      + apply good_fail; [exact I|]. intros _ s' E. inversion E as [|n' e' d S| | | | | | | | | |]; subst. unfold view in S. cbn in S. rewrite F in S. discriminate. }
  destruct (in_use st) as [o|] eqn:U.
  - destruct (inv_use st I o U) as (d & E). rewrite E. assert (Cd : current (view st) = Some (d_name d)) by (unfold view; cbn; now rewrite U, E).
    destruct (Nat.eqb_spec (d_name d) n) as [X|X].
    + apply good_fail; [exact I|]. intros _ s' Ef. inversion Ef as [|n' e' d' S C|n' S| | | | | | | | |]; subst; [congruence|].
      apply view_none in S. apply db_at_in in E. destruct E as [E _]. unfold find_db in S. rewrite (find_key d_name _ d (inv_name st I) E) in S. discriminate.
    + apply Go. congruence.
  - apply Go. unfold view. cbn. rewrite U. discriminate.
Qed.

Lemma use_database_good st n : Inv st -> Good st (UseDatabase n) (use_database st n).
Proof.
  intros I. unfold use_database. destruct (find_db st n) as [d|] eqn:F.
  - pose proof F as F0. apply find_key_some in F0. destruct F0 as [D Nd].
    assert (A : db_at st (d_obj d) = Some d) by (apply (find_key d_obj); [apply (inv_obj st I)|exact D]).
    apply good_intro.
    + constructor; cbn; try apply I. intros o X. injection X as <-. exists d. exact A.
    + intros _ Af. exact Af.
    + intros _ Rf. exact Rf.
    + intros _. exists (mksstate (sdbs (view st)) (Some n)). split.
      * apply (E_use _ n (view_db d)). unfold view. cbn. now rewrite F.
      * split; [unfold view; cbn; unfold db_at in *; cbn; rewrite A; cbn; congruence|]. intros k. change (find_db _ k) with (find_db st k).
        unfold view. cbn [sdbs]. change (find_db (mkstate (dbs st) (Some (d_obj d)) (next st)) k) with (find_db st k).
        destruct (find_db st k); [split; reflexivity|exact Logic.I].
  - apply good_fail; [exact I|]. intros _ s' E. inversion E as [| | |n' d' S| | | | | | | |]; subst. unfold view in S. cbn in S. rewrite F in S. discriminate.
Qed.

(** ** All statements *)
Lemma execute_good st c : Inv st -> Good st c (execute st c).
Proof.
  intros I. destruct c; cbn [execute]; [apply create_database_good|apply drop_database_good|apply use_database_good|apply create_table_good|apply drop_table_good|
    apply create_index_good|apply drop_index_good|apply insert_good|apply import_good|apply select_good]; exact I.
Qed.
Lemma init_inv : Inv init.
Proof. constructor; cbn; [apply NoDup_nil|apply NoDup_nil|intros ? []|intros ? []|discriminate]. Qed.
Lemma init_ref : RefOk init.
Proof. intros ? []. Qed.
Lemma history_inv P st : history P st -> Inv st.
Proof.
  induction 1 as [|st c st' ok _ I N E]; [apply init_inv|]. destruct (execute_good st c I) as [_ G]. apply (G _ _ E).
Qed.
Lemma history_ref st : history keeps_references st -> RefOk st.
Proof.
  intros H. induction H as [|st c st' ok H R N E]; [apply init_ref|]. destruct (execute_good st c (history_inv _ _ H)) as [_ G].
  destruct (G _ _ E) as (_ & _ & K & _). auto.
Qed.
Lemma history_fresh st : history imports_without_index st -> AllFresh st.
Proof.
  intros H. induction H as [|st c st' ok H R N E]; [intros ? []|]. destruct (execute_good st c (history_inv _ _ H)) as [_ G].
  destruct (G _ _ E) as (_ & K & _ & _). auto.
Qed.

Lemma lookup_total d tn an m is : (forall i, In i is -> exists t a, deref d (i_table i) = Some t /\ nth_error (t_attrs t) (i_attr i) = Some a) ->
  exists r, lookup_index d tn an m is = Some r.
Proof.
  induction is as [|i is IH]; intros H; [exists None; reflexivity|]. cbn. destruct (H i (or_introl eq_refl)) as (t & a & -> & ->).
  destruct (i_valid i && _ && _ && _); [eauto|]. apply IH. intros j J. apply H. now right.
Qed.
Lemma lookup_some d tn an m is es : lookup_index d tn an m is = Some (Some es) ->
  exists i t a, In i is /\ deref d (i_table i) = Some t /\ nth_error (t_attrs t) (i_attr i) = Some a /\ i_valid i = true /\ t_name t = tn /\ a_name a = an /\ i_method i = m /\ es = i_entries i.
Proof.
  induction is as [|i is IH]; intros H; [discriminate|]. cbn in H. destruct (deref d (i_table i)) as [t|] eqn:E; [|discriminate].
  destruct (nth_error (t_attrs t) (i_attr i)) as [a|] eqn:A; [|discriminate].
  destruct (i_valid i && (t_name t =? tn) && (a_name a =? an) && method_eqb (i_method i) m) eqn:C.
  - injection H as <-. apply andb_true_iff in C. destruct C as [C M]. apply andb_true_iff in C. destruct C as [C Na]. apply andb_true_iff in C. destruct C as [V Nt].
    apply method_eqb_eq in M. apply Nat.eqb_eq in Na, Nt. exists i, t, a. repeat split; auto. now left.
  - destruct (IH H) as (j & t' & a' & J & R). exists j, t', a'. split; [now right|exact R].
Qed.
Lemma get_index_total st t a m : Inv st -> exists r, get_index st t a m = Some r.
Proof.
  intros I. unfold get_index. destruct (in_use st) as [o|] eqn:U; [|eauto]. destruct (inv_use st I o U) as (d & E). rewrite E. apply db_at_in in E.
  destruct (find_table d t) as [tb|]; [|eauto]. destruct (pos_of (t_attrs tb) a); [|eauto]. apply lookup_total. apply (g_ref d). now apply (inv_db st I).
Qed.
