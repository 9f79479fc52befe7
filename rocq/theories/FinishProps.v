(** * The end of a plan: theorems C52 *)
From Coq Require Import NArith ZArith List Bool Arith Lia Permutation Sorted.
From Verif Require Import Interp InterpSpec InterpClaims Finish FinishSpec.
Import ListNotations.

Section Fin.
Context (text : expr -> N) (fn_sem : N -> cell -> cell) (un_sem : N -> cell -> cell) (bin_sem : N -> cell -> cell -> cell) (const_id : ident).
Notation compile := (compile fn_sem un_sem bin_sem).
Notation value := (value fn_sem un_sem bin_sem).
Notation out_name := (out_name text const_id).
Notation names := (names text const_id).
Notation required := (required text).
Notation expr_eqb := (expr_eqb text).
Notation emit := (emit text fn_sem un_sem bin_sem).
Notation hidden := (hidden text).
Notation merged := (merged text).

Lemma ident_eqb_spec a b : reflect (a = b) (ident_eqb a b).
Proof.
  destruct a as [[p|] n], b as [[p'|] n']; unfold ident_eqb; cbn [fst snd]; try (constructor; congruence).
  - destruct (N.eqb_spec p p'), (N.eqb_spec n n'); constructor; congruence.
  - destruct (N.eqb_spec n n'); constructor; congruence.
Qed.
Lemma ident_eqb_refl a : ident_eqb a a = true. Proof. destruct (ident_eqb_spec a a); congruence. Qed.

(** ** searching columns *)
Lemma positions_none S id i : ~ In id S -> positions S id i = [].
Proof.
  revert i. induction S as [|x S IH]; intros i H; [reflexivity|]. cbn [positions]. destruct (ident_eqb_spec x id) as [->|]; [exfalso; apply H; left; reflexivity|]. apply IH. intros X. apply H. right. exact X.
Qed.
Lemma find_unique S id i : nth_error S i = Some id -> (forall j, nth_error S j = Some id -> j = i) -> find_id S id = Some i.
Proof.
  unfold find_id. assert (G : forall S i b, nth_error S i = Some id -> (forall j, nth_error S j = Some id -> j = i) -> positions S id b = [b + i]%nat).
  { clear. induction S as [|x S IH]; intros [|i] b H U; cbn in H; try discriminate.
    - injection H as ->. cbn [positions]. rewrite ident_eqb_refl, positions_none; [rewrite Nat.add_0_r; reflexivity|].
      intros X. apply In_nth_error in X. destruct X as [j Hj]. specialize (U (Datatypes.S j) Hj). discriminate.
    - cbn [positions]. destruct (ident_eqb_spec x id) as [->|Hne]; [specialize (U 0%nat eq_refl); discriminate|]. cbn [app].
      rewrite (IH i (Datatypes.S b) H); [f_equal; lia|]. intros j Hj. specialize (U (Datatypes.S j) Hj). lia. }
  intros H U. rewrite (G S i 0%nat H U). reflexivity.
Qed.
Lemma find_nodup S id i : NoDup S -> nth_error S i = Some id -> find_id S id = Some i.
Proof.
  intros ND H. apply find_unique; [exact H|]. intros j Hj. apply (proj1 (NoDup_nth_error S) ND); [apply nth_error_Some; congruence|congruence].
Qed.
Lemma all_some_spec {A} (l : list (option A)) gs : Forall2 (fun o g => o = Some g) l gs -> all_some l = Some gs.
Proof. induction 1 as [|o g l gs E H IH]; [reflexivity|]. cbn [all_some]. rewrite E, IH. reflexivity. Qed.

(** ** compiling on the plan *)
Lemma load_ok S id i r v : find_id S id = Some i -> nth_error r i = Some v -> exists g, load_col S id = Some g /\ g r = v.
Proof. intros E Hv. unfold load_col. rewrite E. eexists. split; [reflexivity|]. apply nth_error_nth, Hv. Qed.
Lemma value_known S P P' r e v : known S e -> value S P r e v -> value S P' r e v.
Proof.
  intros K. revert v. induction K; intros v HV; inversion HV; subst; econstructor; eauto.
Qed.
Lemma compile_known S e : NoDup S -> known S e -> exists g, compile S e = Some g /\ forall P r, length r = length S -> value S P r e (g r).
Proof.
  intros ND. assert (L : forall id, In id S -> exists i, nth_error S i = Some id /\ load_col S id = Some (fun r => nth i r None)).
  { intros id H. apply In_nth_error in H. destruct H as [i Hi]. exists i. split; [exact Hi|]. unfold load_col. rewrite (find_nodup S id i ND Hi). reflexivity. }
  assert (N : forall i (id : ident) (r : row), nth_error S i = Some id -> length r = length S -> nth_error r i = Some (nth i r None)).
  { intros i id r Hi Hl. apply nth_error_nth'. rewrite Hl. apply nth_error_Some. congruence. }
  induction 1 as [t n H|n H|c|f e K [g [E V]]|o e K [g [E V]]|o e1 e2 K1 [g1 [E1 V1]] K2 [g2 [E2 V2]]]; cbn [Finish.compile].
  - destruct (L _ H) as [i [Hi El]]. rewrite El. eexists. split; [reflexivity|]. intros P r Hl. eapply v_col; [exact Hi|]. eapply N; eassumption.
  - destruct (L _ H) as [i [Hi El]]. rewrite El. eexists. split; [reflexivity|]. intros P r Hl. eapply v_agg; [exact Hi|]. eapply N; eassumption.
  - eexists. split; [reflexivity|]. intros. constructor.
  - rewrite E. eexists. split; [reflexivity|]. intros P r Hl. constructor. apply V, Hl.
  - rewrite E. eexists. split; [reflexivity|]. intros P r Hl. constructor. apply V, Hl.
  - rewrite E1, E2. eexists. split; [reflexivity|]. intros P r Hl. constructor; [apply V1, Hl|apply V2, Hl].
Qed.
Lemma emit_plain S e : ~ computed e -> emit S e = compile S e.
Proof.
  intros H. unfold Finish.emit. destruct e; cbn [computed] in H; try (exfalso; exact (H I)); cbn [Finish.expr_id Finish.compile]; unfold load_col, find_id;
    destruct (positions S _ 0) as [|i [|j l]]; reflexivity.
Qed.
Lemma emit_absent S e : ~ In (None, text e) S -> computed e -> emit S e = compile S e.
Proof.
  intros H C. unfold Finish.emit. replace (expr_id text e) with (@None N, text e) by (destruct e; cbn in C; try contradiction; reflexivity). rewrite positions_none by exact H. reflexivity.
Qed.
Lemma computed_dec e : computed e \/ ~ computed e. Proof. destruct e; cbn; tauto. Qed.
Lemma emit_all S P0 : NoDup S -> Forall (fun s : expr * option N => known S (fst s)) P0 -> (forall s, In s P0 -> computed (fst s) -> ~ In (None, text (fst s)) S) ->
  exists gs, all_some (map (fun s => emit S (fst s)) P0) = Some gs /\
  Forall2 (fun s g => forall P r, length r = length S -> value S P r (fst s) (g r)) P0 gs.
Proof.
  intros ND HK HC. induction HK as [|s P0 K KS IH]; [exists []; split; [reflexivity|constructor]|]. destruct IH as [gs [E H]]; [intros s' Hs'; apply HC; right; exact Hs'|].
  destruct (compile_known S (fst s) ND K) as [g [E1 V]].
  assert (EE : emit S (fst s) = compile S (fst s)) by (destruct (computed_dec (fst s)) as [C|C]; [apply emit_absent; [apply HC; [left; reflexivity|exact C]|exact C]|apply emit_plain, C]). rewrite <- EE in E1. exists (g :: gs). split; [cbn [map all_some]; rewrite E1, E; reflexivity|]. constructor; assumption.
Qed.

(** ** names *)
Definition unnamed (s : expr * option N) : bool := match s with (EConst _, None) => true | _ => false end.
Lemma names_cons s P : names (s :: P) = (if unnamed s then [] else [out_name s]) ++ names P.
Proof. unfold FinishSpec.names. cbn [flat_map]. destruct s as [[] [a|]]; reflexivity. Qed.
Lemma names_in P j s : nth_error P j = Some s -> unnamed s = false -> In (out_name s) (names P).
Proof.
  revert j. induction P as [|x P IH]; intros [|j] H U; cbn in H; try discriminate; rewrite names_cons.
  - injection H as ->. rewrite U. left. reflexivity.
  - apply in_or_app. right. eapply IH; eassumption.
Qed.
Lemma unnamed_name s : unnamed s = true -> out_name s = const_id.
Proof. destruct s as [[] [a|]]; cbn; try discriminate; reflexivity. Qed.
Lemma name_unique P : NoDup (names P) -> ~ In const_id (names P) -> forall i s, nth_error P i = Some s -> unnamed s = false ->
  forall j, nth_error (map out_name P) j = Some (out_name s) -> j = i.
Proof.
  induction P as [|x P IH]; intros ND NC i s Hi U j Hj; [destruct i; discriminate|]. rewrite names_cons in ND, NC.
  assert (ND' : NoDup (names P)) by (clear - ND; destruct (unnamed x); [exact ND|inversion ND; assumption]). assert (NC' : ~ In const_id (names P)) by (intros X; apply NC, in_or_app; right; exact X).
  assert (Hout : forall j' s', nth_error P j' = Some s' -> unnamed s' = false -> nth_error (map out_name (x :: P)) 0 <> Some (out_name s')).
  { intros j' s' H' U' E. cbn in E. injection E as E. pose proof (names_in P j' s' H' U') as I. destruct (unnamed x) eqn:Ux.
    - rewrite (unnamed_name x Ux) in E. rewrite <- E in I. contradiction.
    - cbn [app] in ND. inversion ND as [|? ? Hn _]; subst. apply Hn. rewrite E. exact I. }
  destruct i as [|i], j as [|j]; cbn [nth_error] in Hi.
  - reflexivity.
  - injection Hi as ->. cbn [map nth_error] in Hj. rewrite nth_error_map in Hj. destruct (nth_error P j) as [y|] eqn:Ey; [|discriminate]. cbn in Hj. injection Hj as Hj.
    destruct (unnamed y) eqn:Uy.
    + rewrite (unnamed_name y Uy) in Hj. exfalso. apply NC. rewrite U. left. symmetry. exact Hj.
    + exfalso. apply (Hout j y Ey Uy). cbn. rewrite Hj. reflexivity.
  - exfalso. apply (Hout i s Hi U). exact Hj.
  - f_equal. apply (IH ND' NC' i s Hi U j). exact Hj.
Qed.

(** ** the additional projections *)
Definition is_col (S : schema) (e : expr) : Prop := (exists t n, e = ECol t n None /\ In (t, n) S) \/ (exists n, e = EAgg n /\ In (None, n) S).
Definition delivered (P : list (expr * option N)) (e : expr) : bool := existsb (fun s => match snd s with None => same_expr text e (fst s) | Some _ => false end) P.
Lemma expr_eqb_same a b : expr_eqb a b = same_expr text a b.
Proof. revert b. induction a; intros []; cbn [Finish.expr_eqb same_expr]; try reflexivity; rewrite ?IHa, ?IHa1, ?IHa2; reflexivity. Qed.
Lemma delivered_eq P e : existsb (fun q => match snd q with None => expr_eqb e (fst q) | Some _ => false end) P = delivered P e.
Proof. unfold delivered. induction P as [|[e' al] P IH]; [reflexivity|]. cbn [existsb fst snd]. rewrite IH. destruct al; [reflexivity|]. rewrite expr_eqb_same. reflexivity. Qed.
Lemma delivered_spec S P e : Forall (fun s : expr * option N => known S (fst s)) P -> is_col S e -> delivered P e = true -> exists j, nth_error P j = Some (e, None).
Proof.
  intros HK He H. apply existsb_exists in H. destruct H as [[e' al] [I E]]. cbn [fst snd] in E. destruct al; [discriminate|].
  rewrite Forall_forall in HK. pose proof (HK _ I) as K. cbn [fst] in K. assert (X : e' = e).
  { destruct He as [[t [n [-> _]]]|[n [-> _]]]; destruct e'; cbn [same_expr] in E; try discriminate.
    - inversion K; subst. destruct (ident_eqb_spec (t, n) (table, attr)) as [F|]; [injection F as -> ->; reflexivity|discriminate].
    - apply N.eqb_eq in E. congruence. }
  subst e'. apply In_nth_error in I. exact I.
Qed.
Lemma required_spec S P e : orderable text const_id S P e -> required P e = filter (fun c => negb (delivered P c)) (mentions e) /\ Forall (is_col S) (mentions e).
Proof.
  induction 1 as [t n H|t n k e al H1 H2 H3|n H|c|o e H [IH1 IH2]|o e1 e2 H1 [IH1 IH1'] H2 [IH2 IH2']]; cbn [Finish.required mentions filter].
  - rewrite delivered_eq. split; [destruct (delivered P (ECol t n None)); reflexivity|]. constructor; [left; eauto|constructor].
  - split; [reflexivity|constructor].
  - rewrite delivered_eq. split; [destruct (delivered P (EAgg n)); reflexivity|]. constructor; [right; eauto|constructor].
  - split; [reflexivity|constructor].
  - split; assumption.
  - rewrite filter_app, IH1, IH2. split; [reflexivity|]. apply Forall_app. split; assumption.
Qed.
Lemma required_key S P e : sort_key text const_id S P e -> required P e = filter (fun c => negb (delivered P c)) (mentions e) /\ Forall (known S) (mentions e).
Proof.
  intros [H|[f [a [-> H]]]].
  - destruct (required_spec S P e H) as [E F]. split; [exact E|]. eapply Forall_impl; [|exact F]. intros c [[t [n [-> Hc]]]|[n [-> Hc]]]; constructor; exact Hc.
  - cbn [Finish.required mentions filter]. rewrite delivered_eq. split; [destruct (delivered P (EFn f a)); reflexivity|]. constructor; [exact H|constructor].
Qed.
Lemma required_hidden S P (O : list (expr * bool)) : Forall (fun o => sort_key text const_id S P (fst o)) O ->
  flat_map (fun o => required P (fst o)) O = hidden P O /\ Forall (known S) (hidden P O).
Proof.
  unfold FinishSpec.hidden. induction 1 as [|o O H HO [IH1 IH2]]; [split; [reflexivity|constructor]|]. cbn [flat_map]. destruct (required_key S P (fst o) H) as [E F]. rewrite filter_app, E, IH1. split; [reflexivity|].
  apply Forall_app. split; [|exact IH2]. rewrite Forall_forall in *. intros x Hx. apply filter_In in Hx. apply F. tauto.
Qed.

(** ** compiling above the projection: [merged] is projected, [F] computes its row *)
Section Above.
Context (S : schema) (P : list (expr * option N)) (extra : list expr).
Let merged := map (fun e => (e, @None N)) extra ++ P.
Hypothesis HND : NoDup (names merged).
Hypothesis HNC : ~ In const_id (names merged).
Context (gs : list (row -> cell)).
Hypothesis Hgs : Forall2 (fun s g => forall Q r, length r = length S -> value S Q r (fst s) (g r)) merged gs.
Let F (r : row) : row := map (fun g => g r) gs.
Let S1 := map out_name merged.
Lemma above_load i s : nth_error merged i = Some s -> unnamed s = false -> exists g, load_col S1 (out_name s) = Some g /\ forall Q r, length r = length S -> value S Q r (fst s) (g (F r)).
Proof.
  intros Hi U. unfold load_col. rewrite (find_unique S1 (out_name s) i).
  - eexists. split; [reflexivity|]. intros Q r Hl.
    assert (X : forall l hs, Forall2 (fun s g => forall Q r, length r = length S -> value S Q r (fst s) (g r)) l hs -> forall i, nth_error l i = Some s -> value S Q r (fst s) (nth i (map (fun g => g r) hs) None)).
    { clear - Hl. induction 1 as [|x g l hs V H IH]; intros [|i] E; cbn in E; try discriminate; [injection E as ->; cbn; apply V, Hl|]. cbn [map nth]. apply IH, E. }
    apply (X merged gs Hgs i Hi).
  - unfold S1. rewrite nth_error_map, Hi. reflexivity.
  - apply (name_unique merged HND HNC i s Hi U).
Qed.
Lemma above_col e : is_col S e -> (delivered P e = true \/ In e extra) -> Forall (fun s => known S (fst s)) P -> exists g, compile S1 e = Some g /\ forall Q r, length r = length S -> value S Q r e (g (F r)).
Proof.
  intros He Hd HK. assert (X : exists i, nth_error merged i = Some (e, None)).
  { destruct Hd as [Hd|Hd].
    - destruct (delivered_spec S P e HK He Hd) as [j Hj]. exists (length (map (fun e => (e, @None N)) extra) + j)%nat. unfold merged. rewrite nth_error_app2 by lia. rewrite Nat.add_comm, Nat.add_sub. exact Hj.
    - apply In_nth_error in Hd. destruct Hd as [j Hj]. exists j. unfold merged. rewrite nth_error_app1 by (rewrite map_length; apply nth_error_Some; congruence). rewrite nth_error_map, Hj. reflexivity. }
  destruct X as [i Hi]. destruct (above_load i (e, None) Hi) as [g [E V]]; [destruct He as [[t [n [-> _]]]|[n [-> _]]]; reflexivity|].
  exists g. split; [|exact V]. destruct He as [[t [n [-> _]]]|[n [-> _]]]; exact E.
Qed.
Lemma above_order e : orderable text const_id S P e -> (forall c, In c (mentions e) -> delivered P c = true \/ In c extra) -> Forall (fun s => known S (fst s)) P ->
  exists g, compile S1 e = Some g /\ forall r, length r = length S -> value S P r e (g (F r)).
Proof.
  intros HO HM HK. induction HO as [t n H|t n k e al H1 H2 H3|n H|c|o e H IH|o e1 e2 H1 IH1 H2 IH2]; cbn [mentions] in HM.
  - destruct (above_col (ECol t n None)) as [g [E V]]; [left; eauto|apply HM; left; reflexivity|exact HK|]. exists g. split; [exact E|]. intros r Hl. apply V, Hl.
  - destruct (above_load (length (map (fun e => (e, @None N)) extra) + k) (e, al)) as [g [E V]].
    + unfold merged. rewrite nth_error_app2 by lia. rewrite Nat.add_comm, Nat.add_sub. exact H1.
    + destruct e, al; cbn; try reflexivity. exfalso. eapply H2; reflexivity.
    + exists g. cbn [Finish.compile]. rewrite H3. split; [exact E|]. intros r Hl. eapply v_ref; [exact H1|]. apply (V [] r Hl).
  - destruct (above_col (EAgg n)) as [g [E V]]; [right; eauto|apply HM; left; reflexivity|exact HK|]. exists g. split; [exact E|]. intros r Hl. apply V, Hl.
  - exists (fun _ => c). split; [reflexivity|]. intros. constructor.
  - destruct (IH HM) as [g [E V]]. cbn [Finish.compile]. rewrite E. eexists. split; [reflexivity|]. intros r Hl. constructor. apply V, Hl.
  - destruct IH1 as [g1 [E1 V1]]; [intros c Hc; apply HM, in_or_app; left; exact Hc|]. destruct IH2 as [g2 [E2 V2]]; [intros c Hc; apply HM, in_or_app; right; exact Hc|].
    cbn [Finish.compile]. rewrite E1, E2. eexists. split; [reflexivity|]. intros r Hl. constructor; [apply V1, Hl|apply V2, Hl].
Qed.
Lemma in_merged_select k s : nth_error P k = Some s -> nth_error merged (length (map (fun e => (e, @None N)) extra) + k) = Some s.
Proof. intros H. unfold merged. rewrite nth_error_app2 by lia. rewrite Nat.add_comm, Nat.add_sub. exact H. Qed.
(** an expression evaluated above: already computed, or computed from the columns *)
Lemma above_emit e : computed e -> const_id <> (None, text e) -> (forall s, In s merged -> out_name s = (None, text e) -> fst s = e) ->
  (In (None, text e) S1 -> exists g, emit S1 e = Some g /\ forall Q r, length r = length S -> value S Q r e (g (F r))).
Proof.
  intros C NC HU HI. unfold S1 in HI. apply in_map_iff in HI. destruct HI as [s [Es Is]]. pose proof (HU s Is Es) as <-. apply In_nth_error in Is. destruct Is as [i Hi].
  destruct (above_load i s Hi) as [g [E V]]; [destruct (unnamed s) eqn:U; [|reflexivity]; exfalso; apply NC; rewrite <- Es; symmetry; apply unnamed_name, U|].
  exists g. split; [|exact V]. unfold Finish.emit. replace (expr_id text (fst s)) with (@None N, text (fst s)) by (destruct (fst s); cbn in C; try contradiction; reflexivity).
  rewrite Es in E. unfold load_col, find_id in E. destruct (positions S1 (None, text (fst s)) 0) as [|x [|y l]]; try discriminate. exact E.
Qed.
Lemma in_dec_S1 id : In id S1 \/ ~ In id S1.
Proof. destruct (in_dec (fun a b => match ident_eqb_spec a b with ReflectT _ H => left H | ReflectF _ H => right H end) id S1); tauto. Qed.
Lemma above_orders (O : list (expr * bool)) : prints text -> Forall (fun o => sort_key text const_id S P (fst o)) O -> (forall c, In c (flat_map (fun o => mentions (fst o)) O) -> delivered P c = true \/ In c extra) ->
  (forall e, In e (map fst O) -> computed e -> const_id <> (None, text e) /\ forall s, In s merged -> out_name s = (None, text e) -> fst s = e) ->
  Forall (fun s => known S (fst s)) P -> exists hs, all_some (map (fun o => emit S1 (fst o)) O) = Some hs /\ Forall2 (fun o h => forall r, length r = length S -> value S P r (fst o) (h (F r))) O hs.
Proof.
  intros HT HO HM HU HK. induction HO as [|o O H HO IH]; [exists []; split; [reflexivity|constructor]|]. cbn [flat_map] in HM.
  assert (X : exists g, emit S1 (fst o) = Some g /\ forall r, length r = length S -> value S P r (fst o) (g (F r))).
  { destruct (computed_dec (fst o)) as [C|C].
    - destruct (HU (fst o) (or_introl eq_refl) C) as [NC U]. destruct (in_dec_S1 (None, text (fst o))) as [I|NI].
      + destruct (above_emit (fst o) C NC U I) as [g [E V]]. exists g. split; [exact E|]. intros r Hl. apply V, Hl.
      + destruct H as [H|[f [a [Ef Hk]]]].
        * rewrite emit_absent by assumption. apply above_order; [exact H|intros c Hc; apply HM, in_or_app; left; exact Hc|exact HK].
        * exfalso. apply NI. unfold S1. rewrite Ef in *. destruct (HM (EFn f a) (or_introl eq_refl)) as [D|D].
          -- apply existsb_exists in D. destruct D as [[e' [al|]] [I D]]; cbn [fst snd] in D; [discriminate|]. apply in_map_iff. exists (e', None). split; [|apply in_or_app; right; exact I].
             rewrite (HT _ _ D). destruct e'; cbn [same_expr] in D; try discriminate. reflexivity.
          -- apply in_map_iff. exists (EFn f a, None). split; [reflexivity|]. apply in_or_app. left. apply (in_map (fun e => (e, @None N)) extra (EFn f a)), D.
    - rewrite (emit_plain _ _ C). destruct H as [H|[f [a [Ef _]]]]; [|rewrite Ef in C; exfalso; exact (C I)]. apply above_order; [exact H|intros c Hc; apply HM, in_or_app; left; exact Hc|exact HK]. }
  destruct X as [g [E V]]. destruct IH as [hs [E' V']]; [intros c Hc; apply HM, in_or_app; right; exact Hc|intros e He; apply HU; right; exact He|].
  exists (g :: hs). cbn [map all_some]. rewrite E, E'. split; [reflexivity|]. constructor; assumption.
Qed.
Lemma above_adapt Q : incl Q P -> (forall e, In (e, None) P -> computed e -> const_id <> (None, text e) /\ forall s, In s merged -> out_name s = (None, text e) -> fst s = e) -> Forall (fun s => known S (fst s)) P ->
  exists hs, all_some (map (fun s => emit S1 (fst s)) (map adapt Q)) = Some hs /\ Forall2 (fun s h => forall r, length r = length S -> value S [] r (fst s) (h (F r))) Q hs.
Proof.
  intros HI HU HK. induction Q as [|[e al] Q IH]; [exists []; split; [reflexivity|constructor]|].
  destruct IH as [hs [E V]]; [intros x Hx; apply HI; right; exact Hx|].
  assert (X : exists g, emit S1 (fst (adapt (e, al))) = Some g /\ forall r, length r = length S -> value S [] r e (g (F r))).
  { assert (I : In (e, al) P) by (apply HI; left; reflexivity). pose proof I as I'. apply In_nth_error in I'. destruct I' as [k Hk]. apply in_merged_select in Hk.
    destruct al as [a|]; cbn [adapt fst snd].
    - destruct (above_load _ _ Hk) as [g [E1 V1]]; [destruct e; reflexivity|]. rewrite emit_plain by (cbn; tauto). exists g. split; [exact E1|]. intros r Hl. apply (V1 [] r Hl).
    - destruct (computed_dec e) as [C|C].
      + destruct (HU e I C) as [NC U]. destruct (in_dec_S1 (None, text e)) as [I'|NI].
        * destruct (above_emit e C NC U I') as [g [E1 V1]]. exists g. split; [exact E1|]. intros r Hl. apply V1, Hl.
        * destruct e; cbn in C; try contradiction.
          -- rewrite emit_absent by (try exact NI; exact C). exists (fun _ => v). split; [reflexivity|]. intros. constructor.
          -- exfalso. apply NI. unfold S1. apply (in_map out_name merged (EFn f e, None)). eapply nth_error_In, Hk.
          -- exfalso. apply NI. unfold S1. apply (in_map out_name merged (EUn op e, None)). eapply nth_error_In, Hk.
          -- exfalso. apply NI. unfold S1. apply (in_map out_name merged (EBin op e1 e2, None)). eapply nth_error_In, Hk.
      + rewrite (emit_plain _ _ C). destruct e; cbn in C; try (exfalso; exact (C I0)); try (exfalso; exact (C Logic.I)).
        * destruct (above_load _ _ Hk eq_refl) as [g [E1 V1]]. exists g. split; [exact E1|]. intros r Hl. apply (V1 [] r Hl).
        * destruct (above_load _ _ Hk eq_refl) as [g [E1 V1]]. exists g. split; [exact E1|]. intros r Hl. apply (V1 [] r Hl). }
  destruct X as [g [E1 V1]]. exists (g :: hs). cbn [map all_some]. rewrite E1, E. split; [reflexivity|]. constructor; assumption.
Qed.
End Above.

(** ** answers *)
Lemma precedes_map (F : row -> row) (ks : list ((row -> cell) * bool)) x y : precedes (map (fun k => (fun r => fst k (F r), snd k)) ks) x y <-> precedes ks (F x) (F y).
Proof.
  induction ks as [|[g b] ks IH]; cbn [map fst snd]; split; intros H; inversion H; subst.
  - apply prec_asc. assumption.
  - apply prec_desc. assumption.
  - apply prec_next; [assumption|]. apply IH. assumption.
  - apply (prec_asc (fun r => g (F r))). assumption.
  - apply (prec_desc (fun r => g (F r))). assumption.
  - apply (prec_next (fun r => g (F r))); [assumption|]. apply IH. assumption.
Qed.
Lemma sorted_map (F : row -> row) ks l : StronglySorted (fun x y => ~ precedes ks y x) (map F l) -> StronglySorted (fun x y => ~ precedes (map (fun k => (fun r => fst k (F r), snd k)) ks) y x) l.
Proof.
  induction l as [|x l IH]; cbn [map]; intros H; [constructor|]. inversion H as [|? ? H1 H2]; subst. constructor; [apply IH, H1|].
  apply Forall_forall. intros y Hy. rewrite precedes_map. rewrite Forall_forall in H2. apply H2, in_map, Hy.
Qed.
Lemma sorted_nil l : StronglySorted (fun x y => ~ @precedes row [] y x) l.
Proof. induction l; constructor; [assumption|]. apply Forall_forall. intros y _ H. inversion H. Qed.
Lemma in_cut c l (r : row) : In r (cut c l) -> In r l.
Proof.
  destruct c as [[a b]|]; cbn [cut]; [|tauto]. intros H. assert (X : forall n (l : list row), In r (firstn n l) -> In r l).
  { induction n; intros [|x t]; cbn; try tauto. intros [->|X]; [left; reflexivity|right; apply IHn, X]. }
  assert (Y : forall n (l : list row), In r (skipn n l) -> In r l) by (induction n; intros [|x t]; cbn; try tauto; intros Z; right; apply IHn, Z). apply Y with (n := N.to_nat b), X with (n := N.to_nat a), H.
Qed.
Lemma cut_map c (F : row -> row) l : cut c (map F l) = map F (cut c l).
Proof. destruct c as [[a b]|]; cbn [cut]; [|reflexivity]. rewrite skipn_map, firstn_map. reflexivity. Qed.
Lemma cells_of {A} (Q : list A) (gs : list (row -> cell)) (V : A -> cell -> Prop) r : Forall2 (fun s g => V s (g r)) Q gs -> Forall2 V Q (map (fun g => g r) gs).
Proof. induction 1; cbn; constructor; assumption. Qed.
Lemma rows_by (f : row -> row) (Q : row -> row -> Prop) l : (forall r, In r l -> Q r (f r)) -> Forall2 Q l (map f l).
Proof. induction l as [|r l IH]; intros H; cbn; constructor; [apply H; left; reflexivity|apply IH; intros; apply H; right; assumption]. Qed.

Theorem C52_select q S p : prints text -> proper text const_id q S -> (forall l r, answer p l -> In r l -> length r = length S) ->
  exists p' S', finish text fn_sem un_sem bin_sem const_id q S p = Some (p', S') /\ S' = map out_name (q_select q) /\
    (forall rows, answer p' rows -> answers_select fn_sem un_sem bin_sem q S p rows) /\
    (safe true p -> sortable fn_sem un_sem bin_sem q S p -> countable q -> safe true p').
Proof.
  intros HT [HP [ND [HK [HO [HC [HN HL]]]]]] HR. destruct (required_hidden S (q_select q) (q_order q) HO) as [Ereq Hcols].
  assert (HKm : Forall (fun s => known S (fst s)) (merged q)).
  { unfold merged. apply Forall_app. split; [|exact HK]. apply Forall_map. exact Hcols. }
  destruct (emit_all S (merged q) ND HKm HC) as [gs [Egs Vgs]]. set (F := fun r : row => map (fun g => g r) gs).
  assert (Hm : merged q <> []) by (unfold merged; intros X; apply app_eq_nil in X; tauto).
  unfold finish. rewrite Ereq. fold (merged q). unfold project. rewrite Egs. fold F.
  assert (E1 : (match merged q with [] => Some (p, S) | _ :: _ => Some (Project F p, map out_name (merged q)) end) = Some (Project F p, map out_name (merged q))) by (destruct (merged q); [contradiction|reflexivity]).
  rewrite E1. cbv iota beta.
  (* sorting *)
  assert (E2 : exists p2, (match q_order q with [] => Some (Project F p) | _ :: _ =>
      match all_some (map (fun o => emit (map out_name (merged q)) (fst o)) (q_order q)) with Some gs0 => Some (Sort (combine gs0 (map snd (q_order q))) (Project F p)) | None => None end end) = Some p2 /\
    (forall l2, answer p2 l2 -> exists l ordered keys, answer p l /\ Permutation ordered l /\ l2 = map F ordered /\
       Forall2 (fun o k => snd o = snd k /\ forall r, In r l -> value S (q_select q) r (fst o) (fst k r)) (q_order q) keys /\ StronglySorted (fun x y => ~ precedes keys y x) ordered) /\
    (safe true p -> sortable fn_sem un_sem bin_sem q S p -> forall u, safe u p2)).
  { destruct (q_order q) as [|o O] eqn:EO.
    - exists (Project F p). split; [reflexivity|]. split.
      + intros l2 A. inversion A; subst. exists l, l, []. split; [assumption|]. split; [apply Permutation_refl|]. split; [reflexivity|]. split; [constructor|apply sorted_nil].
      + intros Hs _ u. constructor. exact Hs.
    - rewrite <- EO in *. assert (HN' : NoDup (names (merged q)) /\ ~ In const_id (names (merged q)) /\ forall e, In e (map fst (q_order q)) \/ In (e, None) (q_select q) -> computed e -> const_id <> (None, text e) /\ forall s, In s (merged q) -> out_name s = (None, text e) -> fst s = e) by (apply HN; left; rewrite EO; discriminate).
      destruct (above_orders S (q_select q) (hidden (q_select q) (q_order q)) (proj1 HN') (proj1 (proj2 HN')) gs Vgs (q_order q) HT HO) as [hs [Ehs Vhs]]; [|intros e He; apply (proj2 (proj2 HN')); left; exact He|exact HK|].
      { intros c Hc. destruct (delivered (q_select q) c) eqn:Ed; [left; reflexivity|right]. unfold hidden. apply filter_In. split; [exact Hc|]. fold (delivered (q_select q) c). rewrite Ed. reflexivity. }
      fold (merged q) in Ehs. rewrite Ehs. exists (Sort (combine hs (map snd (q_order q))) (Project F p)). split; [destruct (q_order q); [discriminate|reflexivity]|]. split.
      + intros l2 A. inversion A as [| | | | | | | | |? ? l1 ? A1 A2 A3]; subst. inversion A1; subst. apply Permutation_map_inv in A2. destruct A2 as [ordered [-> A2]].
        exists l, ordered, (map (fun k => (fun r => fst k (F r), snd k)) (combine hs (map snd (q_order q)))). split; [assumption|]. split; [apply Permutation_sym; exact A2|]. split; [reflexivity|]. split; [|apply sorted_map, A3].
        clear - Vhs HR H2. fold F in Vhs. induction Vhs as [|x h O hs V H IH]; cbn [map combine]; [constructor|]. constructor; [|exact IH]. cbn [fst snd]. split; [reflexivity|]. intros r Hr. apply V. eapply HR; eassumption.
      + intros Hs Hso u. apply safe_sort; [constructor; exact Hs|]. intros l1 A1. inversion A1; subst. destruct (Hso l H2) as [Hle|Hc]; [left; rewrite map_length; exact Hle|right].
        intros e asc He. fold F in Vhs.
        assert (X : exists o, In o (q_order q) /\ forall r, length r = length S -> value S (q_select q) r (fst o) (e (F r))).
        { clear - Vhs He. induction Vhs as [|x h O hs V H IH]; [destruct He|]. cbn [map combine] in He. destruct He as [He|He].
          - injection He as -> _. exists x. split; [left; reflexivity|exact V].
          - destruct (IH He) as [o [I W]]. exists o. split; [right; exact I|exact W]. }
        destruct X as [o' [I W]]. destruct (Hc o' I) as [C|[C|C]]; [left|right; left|right; right]; intros r1 Hr1; apply in_map_iff in Hr1; destruct Hr1 as [r [<- Hr]]; apply (C r); [exact Hr|apply W; eapply HR; eassumption|exact Hr|apply W; eapply HR; eassumption|exact Hr|apply W; eapply HR; eassumption]. }
  destruct E2 as [p2 [E2 [A2 S2]]].
  match goal with |- context [match ?X with Some _ => _ | None => None end] => replace X with (Some p2) by (rewrite <- E2; destruct (q_order q); reflexivity) end. clear E1 E2.
  (* limit *)
  set (limited := negb (N.eqb (fst (limit_of q)) 0) || negb (N.eqb (snd (limit_of q)) 0)).
  assert (E3 : exists p3, (if limited then Limit (fst (limit_of q)) (snd (limit_of q)) p2 else p2) = p3 /\
    (forall l3, answer p3 l3 -> exists l ordered keys, answer p l /\ Permutation ordered l /\ l3 = map F (cut (q_limit q) ordered) /\
       Forall2 (fun o k => snd o = snd k /\ forall r, In r l -> value S (q_select q) r (fst o) (fst k r)) (q_order q) keys /\ StronglySorted (fun x y => ~ precedes keys y x) ordered) /\
    (safe true p -> sortable fn_sem un_sem bin_sem q S p -> countable q -> forall u, safe u p3)).
  { eexists. split; [reflexivity|]. unfold limited, limit_of. destruct (q_limit q) as [[a b]|] eqn:El; cbn [fst snd].
    - assert (X : negb (a =? 0)%N || negb (b =? 0)%N = true) by (destruct (N.eqb_spec a 0) as [->|], (N.eqb_spec b 0) as [->|]; try reflexivity; exfalso; apply HL; reflexivity). rewrite X. split.
      + intros l3 A. inversion A as [| | | | | |? ? ? l' A'| | |]; subst. destruct (A2 _ A') as [l [ordered [keys [B1 [B2 [B3 B4]]]]]]. exists l, ordered, keys. split; [exact B1|]. split; [exact B2|]. split; [|exact B4].
        rewrite B3. exact (cut_map (Some (a, b)) F ordered).
      + intros Hs Hso Hc u. apply safe_limit; [apply (Hc a b El)|]. apply S2; assumption.
    - cbn [N.eqb negb orb]. split; [|intros Hs Hso _; apply S2; assumption]. intros l3 A. exact (A2 l3 A). }
  destruct E3 as [p3 [E3 [A3 S3]]].
  destruct (limit_of q) as [limit offset] eqn:Elim. cbn [fst snd] in *. fold limited. rewrite E3.
  (* second projection *)
  match goal with |- context [if ?b then _ else _] => destruct b eqn:Eb end.
  - assert (HD' : NoDup (names (merged q)) /\ ~ In const_id (names (merged q)) /\ forall e, In e (map fst (q_order q)) \/ In (e, None) (q_select q) -> computed e -> const_id <> (None, text e) /\ forall s, In s (merged q) -> out_name s = (None, text e) -> fst s = e).
    { assert (Hor : hidden (q_select q) (q_order q) <> [] \/ (q_nested q = true /\ (q_order q <> [] \/ q_limit q <> None))).
      { apply orb_true_iff in Eb. destruct Eb as [Eb|Eb]; [left; destruct (hidden (q_select q) (q_order q)); [discriminate|discriminate]|right].
        apply andb_true_iff in Eb. destruct Eb as [Eb1 Eb2]. split; [exact Eb2|]. destruct (q_order q) as [|o O]; [right|left; discriminate].
        intros Hl. unfold limited in Eb1. unfold limit_of in Elim. rewrite Hl in Elim. injection Elim as <- <-. destruct (merged q); [contradiction|]. discriminate. }
      apply HN. destruct Hor as [Hor|[H1 [H2|H2]]].
      - left. intros X. apply Hor. rewrite X. reflexivity.
      - left. exact H2.
      - right. tauto. }
    destruct HD' as [HNd [HNc HNu]].
    destruct (above_adapt S (q_select q) (hidden (q_select q) (q_order q)) HNd HNc gs Vgs (q_select q) (fun x H => H) (fun e He => HNu e (or_intror He)) HK) as [hs [Ehs Vhs]]. fold (merged q) in Ehs. fold F in Vhs.
    rewrite Ehs. eexists _, _. split; [reflexivity|]. split; [|split].
    + rewrite map_map. apply map_ext. intros [e [a|]]; reflexivity.
    + intros rows A. inversion A as [| | | |? ? l3 A'| | | | |]; subst. destruct (A3 _ A') as [l [ordered [keys [B1 [B2 [-> [B4 B5]]]]]]]. exists l, ordered, keys. repeat (split; [assumption|]).
      rewrite map_map. apply rows_by. intros r Hr. apply cells_of. apply in_cut in Hr.
      assert (Hl : length r = length S) by (eapply HR; [exact B1|]; eapply Permutation_in; eassumption). clear - Vhs Hl. induction Vhs; [constructor|constructor; [apply (H r Hl)|assumption]].
    + intros Hs Hso Hc. constructor. apply S3; assumption.
  - apply orb_false_iff in Eb. destruct Eb as [Eb _]. assert (Eh : hidden (q_select q) (q_order q) = []) by (destruct (hidden (q_select q) (q_order q)); [reflexivity|discriminate]).
    assert (Em : merged q = q_select q) by (unfold merged; rewrite Eh; reflexivity). rewrite Em in *. eexists _, _. split; [reflexivity|]. split; [reflexivity|]. split; [|intros; apply S3; assumption].
    intros rows A. destruct (A3 _ A) as [l [ordered [keys [B1 [B2 [-> [B4 B5]]]]]]]. exists l, ordered, keys. repeat (split; [assumption|]).
    apply rows_by. intros r Hr. apply in_cut in Hr. assert (Hl : length r = length S) by (eapply HR; [exact B1|]; eapply Permutation_in; eassumption).
    unfold F. apply cells_of. clear - Vgs Hl. induction Vgs; [constructor|constructor; [apply H, Hl|assumption]].
Qed.
End Fin.

(** ** Execution by the interpreter *)
Theorem C52_run text fn_sem un_sem bin_sem const_id q S p (shuffle : forall A : Type, list A -> list A) (std_sort : (row -> row -> bool) -> list row -> list row) :
  any_order shuffle -> sorts std_sort -> prints text -> proper text const_id q S -> (forall l r, answer p l -> In r l -> length r = length S) ->
  safe true p -> sortable fn_sem un_sem bin_sem q S p -> countable q ->
  exists p' rows, finish text fn_sem un_sem bin_sem const_id q S p = Some (p', map (out_name text const_id) (q_select q)) /\
    run shuffle std_sort p' = Some rows /\ answers_select fn_sem un_sem bin_sem q S p rows.
Proof.
  intros Hsh Hst HT HP HR Hs Hso Hc. destruct (C52_select text fn_sem un_sem bin_sem const_id q S p HT HP HR) as [p' [S' [E [ES [A SF]]]]]. subst S'.
  destruct (C46_run shuffle std_sort p' Hsh Hst (SF Hs Hso Hc)) as [rows [E1 A1]]. exists p', rows. split; [exact E|]. split; [exact E1|]. apply A, A1.
Qed.

(** a query without source: the values of the expressions of SELECT, once *)
Theorem C52_no_source text fn_sem un_sem bin_sem const_id q (shuffle : forall A : Type, list A -> list A) (std_sort : (row -> row -> bool) -> list row -> list row) :
  Forall (fun s => known [] (fst s)) (q_select q) ->
  exists p' r, finish_no_source text fn_sem un_sem bin_sem q = Some p' /\ run shuffle std_sort p' = Some [r] /\
    Forall2 (fun s v => value fn_sem un_sem bin_sem [] [] [] (fst s) v) (q_select q) r /\
    (q_select q <> [] -> q_order q = [] -> q_limit q = None -> q_nested q = false -> finish text fn_sem un_sem bin_sem const_id q [] (Scan [[]]) <> None).
Proof.
  intros HK. destruct (emit_all text fn_sem un_sem bin_sem const_id [] (q_select q) (NoDup_nil _) HK (fun s _ _ X => X)) as [gs [E V]].
  unfold finish_no_source. rewrite E. eexists _, _. split; [reflexivity|]. split; [reflexivity|]. split.
  - clear - V. induction V as [|s g P gs H V IH]; cbn [map]; [apply Forall2_nil|apply Forall2_cons; [apply (H [] [] eq_refl)|exact IH]].
  - intros HN HO HL HQ. unfold finish, limit_of. rewrite HO, HL, HQ. cbn [flat_map map app N.eqb negb orb fst snd]. unfold project. rewrite E. destruct (q_select q); [contradiction|]. discriminate.
Qed.

(** ** Concrete queries
    on a table [t] (number 9) with the columns [a] (0), [b] (1) and [s] (2) *)
Definition ex_text (e : expr) : N := match e with EBin o _ _ => 1000 + o | EUn o _ => 2000 + o | EFn f _ => 3000 + f | EConst _ => 4000 | _ => 5000 end.
Definition ex_bin (o : N) (x y : cell) : cell :=
  match x, y with Some (DInt a), Some (DInt b) => Some (DInt (if N.eqb o 0 then a + b else a - b)%Z) | _, _ => None end.
Definition ex_un (_ : N) (x : cell) : cell := match x with Some (DInt a) => Some (DInt (- a)) | _ => None end.
Definition ex_fn (_ : N) (x : cell) : cell := match x with None => Some (DInt 1) | Some _ => Some (DInt 0) end.
Definition ex_const : ident := (None, 99%N).
Definition ex_S : schema := [(Some 9, 0); (Some 9, 1); (Some 9, 2)]%N.
Definition ex_rows : list row := [[int 1; int 5; int 0]; [int 2; int 3; int 0]; [int 3; int 9; int 1]; [int 4; int 7; None]].
Definition ex_p : @plan row := Scan ex_rows.
Definition ca : expr := ECol (Some 9%N) 0%N None.
Definition cb : expr := ECol (Some 9%N) 1%N None.
Definition ex_finish := finish ex_text ex_fn ex_un ex_bin ex_const.
Definition ex_run (q : query) (S : schema) (p : @plan row) : option (list row) := match ex_finish q S p with Some (p', _) => run_id p' | None => None end.

(** SELECT a, a + b AS x (10), 7 FROM t ORDER BY -b, x DESC LIMIT 2 OFFSET 1: the column [b] is not selected *)
Definition ex_q : query :=
  mkQuery [(ca, None); (EBin 0%N ca cb, Some 10%N); (EConst (int 7), None)] [(EUn 0%N cb, true); (ECol None 10%N (Some 1%nat), false)] (Some (2, 1)%N) false.
Lemma ex_prints : prints ex_text.
Proof.
  intros a b H. destruct a, b; cbn [same_expr] in H; try discriminate; try reflexivity; repeat (apply andb_true_iff in H; destruct H as [H _]); apply N.eqb_eq in H; subst; reflexivity.
Qed.
Theorem C52_inhabited : prints ex_text /\
  proper ex_text ex_const ex_q ex_S /\ (forall l r, answer ex_p l -> In r l -> length r = length ex_S) /\ safe true ex_p /\ sortable ex_fn ex_un ex_bin ex_q ex_S ex_p /\ countable ex_q /\
  hidden ex_text (q_select ex_q) (q_order ex_q) = [cb] /\ ex_run ex_q ex_S ex_p = Some [[int 4; int 11; int 7]; [int 1; int 6; int 7]].
Proof.
  split; [exact ex_prints|]. split; [|split; [|split; [|split; [|split; [|split; [reflexivity|vm_compute; reflexivity]]]]]].
  - split; [discriminate|]. split; [repeat constructor; cbn; intuition discriminate|]. split; [repeat constructor; cbn; tauto|]. split; [|split; [|split; [|discriminate]]].
    + apply Forall_cons; [left; repeat constructor; cbn; tauto|]. apply Forall_cons; [|apply Forall_nil]. left. apply (o_ref _ _ _ _ _ _ _ (EBin 0%N ca cb) (Some 10%N)); [reflexivity|discriminate|reflexivity].
    + intros s _ C X. destruct X as [X|[X|[X|[]]]]; discriminate X.
    + intros _. split; [repeat constructor; cbn; intuition discriminate|]. split; [cbn; intuition discriminate|].
      intros e He C. assert (X : e = EUn 0%N cb \/ e = EConst (int 7)).
      { destruct He as [[<-|[<-|[]]]|[He|[He|[He|[]]]]]; try discriminate He; try (injection He as <-); cbn in C; try contradiction; [left|right]; reflexivity. }
      destruct X as [-> | ->]; (split; [discriminate|]); intros s Hs E; destruct Hs as [<-|[<-|[<-|[<-|[]]]]]; discriminate E.
  - intros l r A Hr. inversion A; subst. revert Hr. vm_compute. intuition (subst; reflexivity).
  - constructor.
  - intros l A. right. inversion A; subst. intros o Ho. left. intros r v Hr Hv.
    assert (Hc : forall v i P, value ex_fn ex_un ex_bin ex_S P r (ECol (Some 9%N) i None) v -> (i <= 1)%N -> exists z, v = Some (DInt z)).
    { clear Ho Hv v. intros v i P H Hi. inversion H as [? ? j ? N1 N2| | | | | |]; subst. do 3 (destruct j as [|j]; [injection N1 as <-; try (exfalso; revert Hi; vm_compute; congruence);
        cbn in Hr; repeat (destruct Hr as [<-|Hr]; [injection N2 as <-; eexists; reflexivity|]); destruct Hr|]). destruct j; discriminate. }
    destruct Ho as [<-|[<-|[]]]; cbn [fst] in Hv.
    + inversion Hv; subst. destruct (Hc v0 1%N _ ltac:(eassumption)) as [z ->]; [vm_compute; congruence|]. eexists; reflexivity.
    + inversion Hv as [|? ? ? ? ? ? N1 N2| | | | |]; subst. injection N1 as <- <-. inversion N2; subst. destruct (Hc v1 0%N [] ltac:(eassumption)) as [z1 ->]; [vm_compute; congruence|]. destruct (Hc v2 1%N [] ltac:(eassumption)) as [z2 ->]; [vm_compute; congruence|]. eexists; reflexivity.
  - intros limit offset [= <- <-]. vm_compute. reflexivity.
Qed.

(** ** Where the program goes wrong
    LIMIT 0 is ignored: SELECT a FROM t LIMIT 0 delivers all rows *)
Theorem C52_refuted_limit_0 : let q := mkQuery [(ca, None)] [] (Some (0, 0)%N) false in
  ex_run q ex_S ex_p = Some [[int 1]; [int 2]; [int 3]; [int 4]] /\ ~ answers_select ex_fn ex_un ex_bin q ex_S ex_p [[int 1]; [int 2]; [int 3]; [int 4]].
Proof. split; [vm_compute; reflexivity|]. intros [l [o [k [_ [_ [_ [_ H]]]]]]]. cbn in H. inversion H. Qed.
(** SELECT a, a FROM t ORDER BY b; SELECT a FROM t ORDER BY b, b + 1 *)
Theorem C52_refuted_duplicates :
  ex_finish (mkQuery [(ca, None); (ca, None)] [(cb, true)] None false) ex_S ex_p = None /\
  ex_finish (mkQuery [(ca, None)] [(cb, true); (EBin 0%N cb (EConst (int 1)), true)] None false) ex_S ex_p = None /\
  ex_run (mkQuery [(ca, None)] [(cb, true)] None false) ex_S ex_p = Some [[int 2]; [int 1]; [int 4]; [int 3]].
Proof. vm_compute. repeat split; reflexivity. Qed.
(** SELECT b FROM t ORDER BY ISNULL(a) + 1: the projection computes ISNULL(a), but the key is compiled from [a].  ORDER BY ISNULL(a) alone works, and so do
    SELECT a + b FROM t ORDER BY a and (SELECT a + b FROM t LIMIT 3) AS q *)
Theorem C52_refuted_function :
  ex_finish (mkQuery [(cb, None)] [(EBin 0%N (EFn 0%N ca) (EConst (int 1)), true)] None false) ex_S ex_p = None /\
  ex_run (mkQuery [(cb, None)] [(EFn 0%N ca, true)] None false) ex_S ex_p = Some [[int 5]; [int 3]; [int 9]; [int 7]] /\
  ex_run (mkQuery [(EBin 0%N ca cb, None)] [(ca, false)] None false) ex_S ex_p = Some [[int 11]; [int 12]; [int 5]; [int 6]] /\
  ex_run (mkQuery [(EBin 0%N ca cb, None)] [] (Some (3, 0)%N) true) ex_S ex_p = Some [[int 6]; [int 5]; [int 12]].
Proof. vm_compute. repeat split; reflexivity. Qed.
(** an expression is taken for a column of the same printed form: SELECT COUNT() AS k, k + 1 FROM t GROUP BY k ORDER BY k + 1.  The plan below delivers [k]
    (20) and the number of rows (21).  In ORDER BY, [k] is the first column of SELECT; the rows are ordered by the second, which prints alike *)
Theorem C52_refuted_capture :
  let q := mkQuery [(EAgg 21%N, Some 20%N); (EBin 0%N (ECol None 20%N None) (EConst (int 1)), None)] [(EBin 0%N (ECol None 20%N (Some 0%nat)) (EConst (int 1)), true)] None false in
  let S := [(None, 20); (None, 21)]%N in let p := Scan [[int 5; int 3]; [int 7; int 2]] in
  ex_run q S p = Some [[int 3; int 6]; [int 2; int 8]] /\ ~ answers_select ex_fn ex_un ex_bin q S p [[int 3; int 6]; [int 2; int 8]].
Proof.
  split; [vm_compute; reflexivity|]. intros [l [o [k [A [P [K [ST X]]]]]]]. inversion A; subst l. cbn [q_select q_limit cut q_order] in *.
  assert (V : forall r, In r [[int 5; int 3]; [int 7; int 2]] -> forall v, value ex_fn ex_un ex_bin [(None, 20%N); (None, 21%N)] [] r (EAgg 21%N) v -> v = nth 1 r None).
  { intros r Hr v HV. inversion HV as [| |? i ? N1 N2| | | |]; subst. destruct i as [|[|i]]; [discriminate N1| |destruct i; discriminate N1]. symmetry. apply nth_error_nth, N2. }
  assert (Ho : o = [[int 5; int 3]; [int 7; int 2]]).
  { inversion X as [|r1 ? ? ? Y1 X']; subst. inversion X' as [|r2 ? ? ? Y2 X'']; subst. inversion X''; subst.
    assert (I1 : In r1 [[int 5; int 3]; [int 7; int 2]]) by (apply (Permutation_in _ P); left; reflexivity).
    assert (I2 : In r2 [[int 5; int 3]; [int 7; int 2]]) by (apply (Permutation_in _ P); right; left; reflexivity).
    inversion Y1 as [|? ? ? ? W1 _]; subst. inversion Y2 as [|? ? ? ? W2 _]; subst. cbn [fst] in W1, W2. apply V in W1; [|exact I1]. apply V in W2; [|exact I2].
    destruct I1 as [<-|[<-|[]]]; [|vm_compute in W1; discriminate]. destruct I2 as [<-|[<-|[]]]; [vm_compute in W2; discriminate|]. reflexivity. }
  subst o. inversion K as [|? k1 ? ? [Kb Kv] K']; subst. inversion K'; subst. cbn [fst snd] in *.
  assert (E : forall r, In r [[int 5; int 3]; [int 7; int 2]] -> fst k1 r = ex_bin 0 (nth 1 r None) (int 1)).
  { intros r Hr. specialize (Kv r Hr). inversion Kv as [| | | | | |? ? ? v1 v2 V1 V2]; subst. inversion V1 as [|? ? ? ? ? ? N1 V3| | | | |]; subst. injection N1 as <- <-. apply V in V3; [|exact Hr]. subst v1. inversion V2; subst. reflexivity. }
  inversion ST as [|? ? _ F]; subst. inversion F as [|? ? F1 _]; subst. apply F1. destruct k1 as [g b]. cbn [fst snd] in *. subst b. apply prec_asc.
  rewrite (E [int 5; int 3] (or_introl eq_refl)), (E [int 7; int 2] (or_intror (or_introl eq_refl))). cbn. lia.
Qed.
(** without FROM, LIMIT and WHERE are ignored: SELECT 1 LIMIT 1 OFFSET 1 *)
Theorem C52_refuted_no_source : let q := mkQuery [(EConst (int 1), None)] [] (Some (1, 1)%N) false in
  exists p', finish_no_source ex_text ex_fn ex_un ex_bin q = Some p' /\ run_id p' = Some [[int 1]] /\ cut (q_limit q) [[]] = [].
Proof. eexists. split; [reflexivity|]. split; reflexivity. Qed.
