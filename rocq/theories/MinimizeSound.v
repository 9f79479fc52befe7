(** * A plan with narrower schemas, executed by positions, computes the plan by names (for C53) *)
From Coq Require Import NArith ZArith List Bool Arith Lia.
From Verif Require Import Interp InterpSpec Finish FinishSpec FinishProps Minimize MinimizeSpec MinimizeSim MinimizeSchemas MinimizeRows MinimizeSem.
Import ListNotations.

Section Sound.
Context (text : expr -> N) (fn_sem : N -> cell -> cell) (un_sem : N -> cell -> cell) (bin_sem : N -> cell -> cell -> cell) (truth : cell -> option bool).
Notation ev := (ev fn_sem un_sem bin_sem).
Notation by_name := (by_name fn_sem un_sem bin_sem truth).
Notation built := (built text fn_sem un_sem bin_sem truth).
Notation readable := (readable text fn_sem un_sem bin_sem truth).
Notation lower := (lower text fn_sem un_sem bin_sem truth).
Notation emit := (emit text fn_sem un_sem bin_sem).
Notation condition := (condition fn_sem un_sem bin_sem truth).
Notation right := (right fn_sem un_sem bin_sem).
Notation name_agg := (name_agg fn_sem un_sem bin_sem).

Definition good (V : nrow -> row) (o o' : op) : Prop := exists p', lower o' = Some p' /\ sim V (by_name o) p' /\ forall u, safe u (by_name o) -> safe u p'.

(** ** expressions *)
Definition Q (o : op) (S : schema) (x : row) (r : nrow) : Prop := rows_of (by_name o) r /\ exists y, x = view S r ++ y.
Lemma emit_right c S e : NoDup S -> incl S (sch c) -> incl (uses e) S -> readable c e -> right (Q c S) (emit S e) e.
Proof.
  intros ND HS HU [_ HR]. apply (emit_ok text fn_sem un_sem bin_sem truth S e (rows_of (by_name c)) ND HU). intros C I r [l [A Hr]]. apply (HR C (HS _ I) l r A Hr).
Qed.
Lemma q_view c S r : rows_of (by_name c) r -> Q c S (view S r) r. Proof. intros H. split; [exact H|]. exists []. rewrite app_nil_r. reflexivity. Qed.
Lemma q_prefix c c' r : prefixed c' -> rows_of (by_name c) r -> Q c (sch c') (view (pipe c') r) r.
Proof. intros [t E] H. split; [exact H|]. exists (view t r). rewrite E, view_app. reflexivity. Qed.

(** ** scans *)
Lemma scan_view S T r : NoDup S -> NoDup T -> incl S T -> length r = length T -> exists ld, load_attrs S T 0 = Some ld /\ ld r (fresh S) = view S (combine T r).
Proof.
  intros NS NT HI HL. destruct (load_attrs_ok S T NS 0) as [ld [E [L [_ W]]]]. exists ld. split; [exact E|]. apply nth_ext with (d := None) (d' := None); [rewrite L, view_length; unfold fresh; apply repeat_length|].
  intros j Hj. rewrite L in Hj. unfold fresh in Hj. rewrite repeat_length in Hj. destruct (nth_error S j) as [id|] eqn:Ej; [|apply nth_error_None in Ej; lia].
  pose proof (HI id (nth_error_In _ _ Ej)) as I. apply In_nth_error in I. destruct I as [k Hk]. rewrite (W NT r (fresh S) j k id Ej Hk) by (unfold fresh; apply repeat_length).
  rewrite <- (app_nil_r (view S _)), (nth_view S _ j id [] Ej). rewrite (lookup_combine T r k id NT Hk). reflexivity.
Qed.

(** ** aggregates *)
Lemma mk_agg_like (V : nrow -> row) (P : nrow -> Prop) k g g' : (forall r, P r -> g' (V r) = g r) -> agg_like V P (mk_agg k g) (mk_agg k g').
Proof. intros H. destruct k; cbn [mk_agg agg_like]; intros r Hr; rewrite ?(H r Hr); reflexivity. Qed.
Lemma aggs_ok c c' aggs : NoDup (sch c') -> incl (sch c') (sch c) -> prefixed c' -> (forall a e, In a aggs -> In e (agg_args a) -> readable c e /\ incl (uses e) (sch c')) ->
  exists as', all_some (map (comp_agg text fn_sem un_sem bin_sem (sch c')) aggs) = Some as' /\ Forall2 (agg_like (view (pipe c')) (rows_of (by_name c))) (map name_agg aggs) as'.
Proof.
  intros ND HS HP. induction aggs as [|a aggs IH]; intros H; [exists []; split; [reflexivity|constructor]|]. destruct IH as [as' [E F]]; [intros; eapply H; [right|]; eassumption|].
  assert (X : exists a', comp_agg text fn_sem un_sem bin_sem (sch c') a = Some a' /\ agg_like (view (pipe c')) (rows_of (by_name c)) (name_agg a) a').
  { destruct a as [n [[k e]|]]; [|exists CountAll; split; [reflexivity|exact I]]. destruct (H (Agg n (Some (k, e))) e (or_introl eq_refl) (or_introl eq_refl)) as [HR HU]. destruct (emit_right c (sch c') e ND HS HU HR) as [g [Eg V]].
    cbn [comp_agg]. rewrite Eg. eexists. split; [reflexivity|]. assert (M : agg_like (view (pipe c')) (rows_of (by_name c)) (mk_agg k (fun r => ev r e)) (mk_agg k g)); [apply mk_agg_like|destruct k; exact M]. intros r Hr. apply V. apply q_prefix; assumption. }
  destruct X as [a' [E' A']]. exists (a' :: as'). cbn [map all_some]. rewrite E', E. split; [reflexivity|]. constructor; assumption.
Qed.
Lemma pick_prefix {A} (l m : list A) mask : pick (repeat true (length l) ++ mask) (l ++ m) = l ++ pick mask m.
Proof. induction l as [|x l IH]; cbn; [reflexivity|]. rewrite IH. reflexivity. Qed.

(** ** joins *)
Lemma lower_list cs : (fix go (cs : list op) : option (list (@plan row)) := match cs with [] => Some [] | c :: cs' => match lower c with Some p => match go cs' with Some ps => Some (p :: ps) | None => None end | None => None end end) cs = all_some (map lower cs).
Proof. induction cs as [|c cs IH]; [reflexivity|]. cbn [map all_some]. destruct (lower c); [|reflexivity]. rewrite IH. reflexivity. Qed.
Lemma flat_unique {A B} (f : A -> list B) l a b x : NoDup (flat_map f l) -> In a l -> In b l -> In x (f a) -> In x (f b) -> a = b.
Proof.
  induction l as [|y l IH]; cbn [flat_map]; intros ND Ha Hb Xa Xb; [destruct Ha|].
  assert (O : forall c, In c l -> In x (f c) -> ~ In x (f y)) by (intros c Hc Xc; apply (nodup_app_out _ _ _ ND); apply in_flat_map; exists c; tauto).
  destruct Ha as [->|Ha], Hb as [->|Hb]; [reflexivity|exfalso; exact (O b Hb Xb Xa)|exfalso; exact (O a Ha Xa Xb)|]. apply IH; try assumption. eapply nodup_app_r; exact ND.
Qed.
Lemma nodup_flat_incl cs cs' : Forall2 (fun c' c => incl (pipe c') (sch c)) cs' cs -> Forall (fun c' => NoDup (pipe c')) cs' -> NoDup (flat_map sch cs) -> NoDup (flat_map pipe cs').
Proof.
  induction 1 as [|c' c cs' cs H F IH]; intros HN ND; [constructor|]. inversion HN; subst. cbn [flat_map] in *.
  assert (G : forall l : list ident, NoDup l -> incl l (sch c) -> NoDup (l ++ flat_map pipe cs')).
  { intros l Nl Hl. induction l as [|x l IHl]; cbn; [apply IH; [assumption|eapply nodup_app_r; exact ND]|]. inversion Nl; subst. constructor; [|apply IHl; [assumption|intros y Hy; apply Hl; right; exact Hy]].
    intros X. apply in_app_or in X. destruct X as [X|X]; [contradiction|]. apply (flat_incl pipe sch cs' cs F) in X. apply (nodup_app_out _ _ _ ND X), Hl. left. reflexivity. }
  apply G; assumption.
Qed.
Definition n_of (c : op) : nat := length (sch c).
Definition v_of (c : op) : nrow -> row := view (pipe c).
Lemma rights_clones D cs' : forall cs es, (forall c', In c' cs' -> NoDup (pipe c') /\ forall id, In id D -> In id (pipe c') -> In id (sch c')) -> Forall prefixed (removelast cs') ->
  Forall2 (fun c' c => incl (pipe c') (sch c)) cs' cs -> Forall2 (fun c (e : nrow) => map fst e = sch c) cs es ->
  rights D (map pipe cs') (clones (map n_of cs') (zip (map v_of cs') es)) es.
Proof.
  induction cs' as [|c' cs' IH]; intros cs es HD HP HI HE; inversion HI as [|? c ? cs1 I1 I2]; subst; inversion HE as [|? e ? es1 E1 E2]; subst; [constructor|].
  destruct (HD c' (or_introl eq_refl)) as [ND HDc]. destruct cs' as [|c2 cs2].
  - inversion I2; subst. inversion E2; subst. cbn. constructor; [|rewrite E1; exact I1|constructor]. intros id k Hk Hid. unfold v_of. rewrite <- (app_nil_r (view _ _)). apply nth_view, Hk.
  - cbn [map zip clones]. destruct es1 as [|e2 es2]; [inversion I2; subst; inversion E2|]. constructor.
    + intros id k Hk Hid. cbn [removelast] in HP. inversion HP as [|? ? [t Ht] HP']; subst. unfold v_of, n_of. rewrite Ht, view_app. rewrite firstn_app, view_length, Nat.sub_diag, firstn_O, app_nil_r, firstn_all2 by (rewrite view_length; lia).
      assert (I : In id (sch c')) by (apply HDc; [exact Hid|eapply nth_error_In, Hk]). apply In_nth_error in I. destruct I as [k' Hk']. rewrite Ht in ND, Hk.
      assert (k = k') as ->. { apply (proj1 (NoDup_nth_error _) ND); [apply nth_error_Some; congruence|]. rewrite Hk, nth_error_app1 by (apply nth_error_Some; congruence). symmetry. exact Hk'. }
      rewrite <- (app_nil_r (view _ _)). apply nth_view, Hk'.
    + rewrite E1. exact I1.
    + apply (IH cs1 (e2 :: es2)); [intros c3 H3; apply HD; right; exact H3|cbn [removelast] in HP; inversion HP; assumption|exact I2|exact E2].
Qed.
Lemma concat_flat {A B} (f : A -> list B) l : concat (map f l) = flat_map f l. Proof. symmetry. apply flat_map_concat_map. Qed.
Lemma names_flat cs (es : list nrow) : Forall2 (fun c (e : nrow) => map fst e = sch c) cs es -> map fst (concat es) = flat_map sch cs.
Proof. induction 1 as [|c e cs es E F IH]; [reflexivity|]. cbn [concat flat_map]. rewrite map_app, E, IH. reflexivity. Qed.
Lemma names_of_rows top cs es : Forall (built top) cs -> Forall2 rows_of (map by_name cs) es -> Forall2 (fun c (e : nrow) => map fst e = sch c) cs es.
Proof.
  intros B. revert es. induction B as [|c cs B1 B2 IH]; intros es F; cbn [map] in F; inversion F as [|? e ? es' [l [A Hr]] F']; subst; constructor; [|apply IH, F'].
  exact (row_names text fn_sem un_sem bin_sem truth c top B1 l e A Hr).
Qed.
(** what the children of a join deliver *)
Record joined (cs cs' : list op) (D : schema) : Prop := mkJoined {
  j_sims : exists ps', all_some (map lower cs') = Some ps' /\ sims (map v_of cs') (map by_name cs) ps' /\ Forall2 (fun c p' => safe true (by_name c) -> safe true p') cs ps';
  j_nodup : forall c', In c' cs' -> NoDup (pipe c');
  j_rights : forall es, Forall2 rows_of (map by_name cs) es -> rights D (map pipe cs') (clones (map n_of cs') (zip (map v_of cs') es)) es /\ NoDup (map fst (concat es)) }.
Lemma join_children cs cs' : Forall (fun o => forall o', built false o -> narrow o o' -> good (view (pipe o')) o o') cs -> Forall (built false) cs -> NoDup (flat_map sch cs) -> Forall2 narrow cs cs' ->
  Forall prefixed (removelast cs') -> Forall (fun c => incl (sch c) (pipe c)) cs' -> joined cs cs' (flat_map sch cs').
Proof.
  intros IH BB ND HN HP HS.
  assert (HI : Forall2 (fun c' c => incl (pipe c') (sch c)) cs' cs /\ Forall (fun c' => NoDup (pipe c')) cs').
  { clear - BB HN. induction HN as [|c c' cs cs' Hn F IHf]; [split; constructor|]. inversion BB; subst. destruct (IHf ltac:(assumption)) as [X Y]. destruct (pipe_ok text fn_sem un_sem bin_sem truth c c' ltac:(assumption) Hn) as [P1 P2]. split; constructor; assumption. }
  destruct HI as [HI HD]. pose proof (nodup_flat_incl cs cs' HI HD ND) as NP. constructor.
  - clear - IH BB HN. induction HN as [|c c' cs cs' Hn F IHf]; [exists []; split; [reflexivity|]; split; constructor|]. inversion BB; inversion IH; subst. destruct IHf as [ps' [E [S1 S2]]]; [assumption|assumption|].
    match goal with X : forall o', built false c -> _ |- _ => destruct (X c') as [p' [E' [S' F']]]; [assumption|assumption|] end. exists (p' :: ps'). cbn [map all_some]. rewrite E', E. split; [reflexivity|]. split; constructor; try assumption. intros; apply F'; assumption.
  - intros c' Hc. rewrite Forall_forall in HD. apply HD, Hc.
  - intros es HE. apply (names_of_rows false cs es BB) in HE. split; [|rewrite (names_flat cs es HE); exact ND]. apply (rights_clones _ cs' cs es); try assumption.
    intros c' Hc. rewrite Forall_forall in HD, HS. split; [apply HD, Hc|]. intros id Hid Hp. apply in_flat_map in Hid. destruct Hid as [c2 [H2 I2]].
    assert (c2 = c') as -> by (apply (flat_unique pipe cs' c2 c' id NP H2 Hc); [apply HS; assumption|exact Hp]). exact I2.
Qed.

Lemma all_some_map {A B} (f : A -> option B) (P : A -> B -> Prop) l : (forall x, In x l -> exists y, f x = Some y /\ P x y) -> exists ys, all_some (map f l) = Some ys /\ Forall2 P l ys.
Proof.
  induction l as [|x l IH]; intros H; [exists []; split; [reflexivity|constructor]|]. destruct (H x (or_introl eq_refl)) as [y [E Hy]]. destruct IH as [ys [E' F]]; [intros; apply H; right; assumption|].
  exists (y :: ys). cbn [map all_some]. rewrite E, E'. split; [reflexivity|constructor; assumption].
Qed.
Lemma safe_list cs (ps' : list (@plan row)) : Forall2 (fun c p' => safe true (by_name c) -> safe true p') cs ps' -> Forall (safe true) (map by_name cs) -> Forall (safe true) ps'.
Proof. induction 1 as [|c p' cs ps' H F IH]; cbn [map]; intros X; constructor; inversion X; subst; auto. Qed.
Lemma incl_flat cs' : Forall (fun c => incl (sch c) (pipe c)) cs' -> incl (flat_map sch cs') (flat_map pipe cs').
Proof. intros H. induction H as [|c l Hc Hl IHl]; [intros x []|]. cbn [flat_map]. intros x Hx. apply in_app_or in Hx. apply in_or_app. destruct Hx as [Hx|Hx]; [left; apply Hc, Hx|right; apply IHl, Hx]. Qed.
Lemma join_theta f S S' cs cs' : joined cs cs' (flat_map sch cs') -> NoDup S' -> incl S' (flat_map sch cs') -> (forall id, j_names (JCnf f) id -> In id (flat_map sch cs')) ->
  Forall (fun c => incl (sch c) (pipe c)) cs' -> good (view S') (OJoin (JCnf f) S cs) (OJoin (JCnf f) S' cs').
Proof.
  intros [[ps' [Ep [SS SF]]] JN JR] NS HS HJ HP. pose proof (incl_flat cs' HP) as HF. set (D := flat_map sch cs') in *.
  assert (HN : forall I, In I (map pipe cs') -> NoDup I) by (intros I HI; apply in_map_iff in HI; destruct HI as [c' [<- Hc]]; apply JN, Hc).
  assert (HC : incl D (concat (map pipe cs'))) by (rewrite concat_flat; exact HF).
  destruct (load_all_view S' D (map pipe cs') NS HS (fun x Hx => HC x (HS x Hx)) HN) as [ls [El VL]]. rewrite map_map in El.
  unfold good. cbn [Minimize.lower MinimizeSpec.by_name]. rewrite lower_list, Ep. rewrite El. destruct f as [|cl f].
  - eexists. split; [reflexivity|]. split.
    + apply (sim_join (map v_of cs')); [exact SS|]. intros rs HR. destruct (JR rs HR) as [RR ND]. split; [reflexivity|]. apply (VL _ rs RR ND).
    + intros u Hs. inversion Hs; subst. match goal with X : _ :: _ :: _ = map by_name cs |- _ => rename X into X2 end. assert (Y : Forall (safe true) ps') by (apply (safe_list cs ps' SF); congruence). apply forall2_length in SF.
      assert (L : length (map by_name cs) = length ps') by (rewrite map_length; exact SF). destruct ps' as [|q1 [|q2 qs]]; try (exfalso; rewrite <- X2 in L; cbn in L; lia). apply safe_cross. exact Y.
  - remember (cl :: f) as f' eqn:Ef. destruct (cnf_ok fn_sem un_sem bin_sem truth (fun (x : list row) (r : nrow) => exists es, r = concat es /\ rights D (map pipe cs') x es /\ NoDup (map fst (concat es))) (comp fn_sem un_sem bin_sem (load_multi (map pipe cs'))) f') as [g [Eg V]].
    { intros cl' l I1 I2. apply comp_ok. intros id Hid. assert (ID : In id D) by (apply HJ; exists cl', l; tauto). destruct (multi_ok D (map pipe cs') id HN ID (HC id ID)) as [g [Eg V]]. exists g. split; [exact Eg|].
      intros x r [es [-> X]]. apply V, X. }
    rewrite Eg. eexists. split; [reflexivity|]. split.
    + apply (sim_join (map v_of cs')); [exact SS|]. intros rs HR. destruct (JR rs HR) as [RR ND]. split; [|apply (VL _ rs RR ND)].
      cbn [jholds]. fold n_of. rewrite (V _ (concat rs)); [reflexivity|]. exists rs. tauto.
    + intros u Hs. inversion Hs; subst. match goal with X : _ :: _ :: _ = map by_name cs |- _ => rename X into X2 end. assert (Y : Forall (safe true) ps') by (apply (safe_list cs ps' SF); congruence). apply forall2_length in SF.
      assert (L : length (map by_name cs) = length ps') by (rewrite map_length; exact SF). destruct ps' as [|q1 [|q2 qs]]; try (exfalso; rewrite <- X2 in L; cbn in L; lia). apply safe_theta. exact Y.
Qed.
Lemma join_equi ks S S' c0 c1 c0' c1' : joined [c0; c1] [c0'; c1'] (sch c0' ++ sch c1') -> NoDup S' -> incl S' (sch c0' ++ sch c1') -> (forall id, j_names (JColumns ks) id -> In id (sch c0' ++ sch c1')) ->
  incl (sch c0') (pipe c0') -> incl (sch c1') (pipe c1') -> NoDup (sch c0') -> incl (sch c0') (sch c0) -> incl (sch c1') (sch c1) -> NoDup (sch c0 ++ sch c1) ->
  (forall a b, In (a, b) ks -> (In a (sch c0) /\ In b (sch c1)) \/ (In a (sch c1) /\ In b (sch c0))) ->
  good (view S') (OJoin (JColumns ks) S [c0; c1]) (OJoin (JColumns ks) S' [c0'; c1']).
Proof.
  intros [[ps' [Ep [SS SF]]] JN JR] NS HS HJ P0 P1 N0 I0 I1 ND HK. unfold good. cbn [Minimize.lower MinimizeSpec.by_name map] in *. cbn [all_some] in Ep.
  destruct (lower c0') as [p0|]; [|discriminate]. destruct (lower c1') as [p1|]; [|discriminate]. injection Ep as <-.
  assert (HSide : all_some (map (side (sch c0')) ks) = Some (map (left_first (sch c0)) ks)).
  { apply all_some_spec. clear SS SF JR JN. revert HJ HK. induction ks as [|k ks IH]; intros HJ HK; cbn [map]; constructor.
    - unfold side. rewrite (has_spec (sch c0') (fst k) N0). unfold left_first. change (existsb (ident_eqb (fst k)) (sch c0)) with (mem (sch c0) (fst k)).
      assert (X : In (fst k) (sch c0' ++ sch c1')) by (apply HJ; exists k; cbn; tauto). apply in_app_or in X. destruct (mem_spec (sch c0') (fst k)) as [M|M].
      + replace (mem (sch c0) (fst k)) with true; [reflexivity|]. symmetry. apply mem_in, I0, M.
      + destruct X as [X|X]; [contradiction|]. destruct (mem_spec (sch c0) (fst k)) as [M'|M']; [|reflexivity]. exfalso. apply (nodup_app_out _ _ _ ND (I1 _ X) M').
    - apply IH; [intros id [k' [Hk' E]]; apply HJ; exists k'; split; [right; exact Hk'|exact E]|intros; apply HK; right; assumption]. }
  rewrite HSide.
  assert (HB : forall k, In k (map (left_first (sch c0)) ks) -> In (fst k) (pipe c0') /\ In (snd k) (pipe c1')).
  { intros k Hk. apply in_map_iff in Hk. destruct Hk as [[a b] [<- Hk]]. assert (Xa : In a (sch c0' ++ sch c1')) by (apply HJ; exists (a, b); cbn; tauto). assert (Xb : In b (sch c0' ++ sch c1')) by (apply HJ; exists (a, b); cbn; tauto).
    assert (Y : forall x, In x (sch c0' ++ sch c1') -> (In x (sch c0) -> In x (sch c0')) /\ (In x (sch c1) -> In x (sch c1'))).
    { intros x Hx. apply in_app_or in Hx. split; intros Hc; destruct Hx as [Hx|Hx]; try assumption; exfalso; [apply (nodup_app_out _ _ _ ND (I1 _ Hx) Hc)|apply (nodup_app_out _ _ _ ND Hc (I0 _ Hx))]. }
    unfold left_first. change (existsb (ident_eqb (fst (a, b))) (sch c0)) with (mem (sch c0) a). destruct (mem_spec (sch c0) a) as [M|M]; destruct (HK a b Hk) as [[A1 A2]|[A1 A2]]; cbn [fst snd].
    - split; [apply P0, Y|apply P1, Y]; assumption.
    - exfalso. exact (nodup_app_out _ _ _ ND A1 M).
    - contradiction.
    - split; [apply P0, Y|apply P1, Y]; assumption. }
  destruct (all_some_map (fun k => load_col (pipe c0') (fst k)) (fun k g => forall r, g (view (pipe c0') r) = lookup (fst k) r) (map (left_first (sch c0)) ks)) as [fs [Ef Ff]].
  { intros k Hk. destruct (load_view (pipe c0') (fst k)) as [g [Eg V]]; [apply JN; left; reflexivity|apply HB, Hk|]. exists g. split; [exact Eg|]. intros r. rewrite <- (V r []), app_nil_r. reflexivity. }
  destruct (all_some_map (fun k => load_col (pipe c1') (snd k)) (fun k g => forall r, g (view (pipe c1') r) = lookup (snd k) r) (map (left_first (sch c0)) ks)) as [gs [Eg Fg]].
  { intros k Hk. destruct (load_view (pipe c1') (snd k)) as [g [Eg V]]; [apply JN; right; left; reflexivity|apply HB, Hk|]. exists g. split; [exact Eg|]. intros r. rewrite <- (V r []), app_nil_r. reflexivity. }
  rewrite Ef, Eg.
  assert (HC : incl (sch c0' ++ sch c1') (concat [pipe c0'; pipe c1'])) by (cbn [concat]; rewrite app_nil_r; intros x Hx; apply in_app_or in Hx; apply in_or_app; destruct Hx; [left; auto|right; auto]).
  destruct (load_all_view S' (sch c0' ++ sch c1') [pipe c0'; pipe c1'] NS HS (fun x Hx => HC x (HS x Hx))) as [ls [El VL]].
  { intros I [<-|[<-|[]]]; apply JN; cbn; tauto. }
  cbn [map all_some] in El. destruct (load_attrs S' (pipe c0') 0) as [l0|]; [|discriminate]. destruct (load_attrs S' (pipe c1') 0) as [l1|]; [|discriminate]. injection El as <-.
  set (L := map (left_first (sch c0)) ks) in *.
  set (K := map (fun k : ident * ident => let k' := left_first (sch c0) k in (lookup (fst k'), lookup (snd k'))) ks).
  assert (EK : Forall2 (fun k k' => (forall r, fst k' (view (pipe c0') r) = fst k r) /\ (forall r, snd k' (view (pipe c1') r) = snd k r)) K (combine fs gs)).
  { unfold K, L in *. clear - Ff Fg. revert fs gs Ff Fg. induction ks as [|k ks IH]; intros fs gs Ff Fg; cbn [map] in *; inversion Ff; inversion Fg; subst; cbn [combine]; constructor; [cbn [fst snd]; split; assumption|apply IH; assumption]. }
  eexists. split; [reflexivity|]. inversion SS as [|? ? ? ? ? ? S0 SS1]; subst. inversion SS1 as [|? ? ? ? ? ? S1 SS2]; subst. inversion SF as [|? ? ? ? F0 SF1]; subst. inversion SF1 as [|? ? ? ? F1 SF2]; subst. split.
  - apply (sim_join [v_of c0'; v_of c1']); [exact SS|]. intros rs HR. destruct (JR rs HR) as [RR NDr]. split; [|apply (VL _ rs RR NDr)].
    inversion HR as [|? a ? ? Ha HR1]; subst. inversion HR1 as [|? b ? ? Hb HR2]; subst. inversion HR2; subst. cbn [zip jholds]. clear - EK. fold K. induction EK as [|[k1 k2] [k1' k2'] K L [E1 E2] F IH]; [reflexivity|]. cbn [forallb fst snd] in *. unfold v_of in *. rewrite E1, E2, IH. reflexivity.
  - intros u Hs. inversion Hs as [| | | | |? ? ? ? Hs0 Hs1 HH| | | | | |]; subst. apply safe_equi; [apply F0, Hs0|apply F1, Hs1|]. intros l l' x y f g A A' Hx Hy Hfg. destruct (S0 _ A) as [m [Am ->]]. destruct (S1 _ A') as [m' [Am' ->]].
    apply in_map_iff in Hx. destruct Hx as [a [<- Ha]]. apply in_map_iff in Hy. destruct Hy as [b [<- Hb]].
    assert (Z : exists k1 k2, In (k1, k2) K /\ f (v_of c0' a) = k1 a /\ g (v_of c1' b) = k2 b).
    { clear - EK Hfg. induction EK as [|[k1 k2] [k1' k2'] K L [E1 E2] F IH]; [destruct Hfg|]. destruct Hfg as [E|Hfg]; [injection E as -> ->; exists k1, k2; cbn [fst snd] in *; split; [left; reflexivity|split; [apply E1|apply E2]]|].
      destruct (IH Hfg) as [x1 [x2 [I E]]]. exists x1, x2. split; [right; exact I|exact E]. }
    destruct Z as [k1 [k2 [IK [-> ->]]]]. apply (HH m m'); assumption.
Qed.

Theorem narrow_sound o : forall o', built false o -> narrow o o' -> good (view (pipe o')) o o'.
Proof.
  induction o as [T rows S|d f S c IH|j S cs IH|es S c IH|es S|a b S c IH|ks aggs S c IH|aggs S c IH|order S c IH] using op_ind2; intros o' B H; pose proof (pipe_ok text fn_sem un_sem bin_sem truth _ o' B H) as [P1 P2]; inversion H; subst.
  - (* scan *) inversion B; subst. unfold good. cbn [Minimize.lower pipe MinimizeSpec.by_name] in *. rewrite all_in_incl by assumption. cbn [negb].
    destruct (load_attrs_ok S0 S ltac:(assumption) 0) as [ld [E _]]. rewrite E. eexists. split; [reflexivity|]. split; [|intros; constructor].
    intros l' A. inversion A; subst. eexists. split; [constructor|]. rewrite map_map. apply map_ext_in. intros r Hr. rewrite Forall_forall in *. destruct (scan_view S0 S r) as [ld' [E' V]]; try assumption; [match goal with X : forall r, In r rows -> _ |- _ => apply X, Hr end|]. congruence.
  - (* filter *) inversion B; subst. destruct (IH c' ltac:(assumption) ltac:(assumption)) as [p [E [SM SF]]]. cbn [pipe] in *. unfold good. cbn [Minimize.lower MinimizeSpec.by_name pipe]. rewrite E.
    destruct (pipe_ok text fn_sem un_sem bin_sem truth c c' ltac:(assumption) ltac:(assumption)) as [Pi _].
    assert (HL : forall cl l, In cl f -> In l cl -> right (Q c (pipe c')) (emit (pipe c') (snd l)) (snd l)) by (intros cl l I1 I2; apply emit_right; try assumption; [eauto|eauto]).
    destruct d.
    + match goal with X : true = true -> _ |- _ => destruct (X eq_refl) as [cl ->] end. destruct (lits_ok fn_sem un_sem bin_sem truth (Q c (pipe c')) (emit (pipe c')) cl (fun l => HL cl l (or_introl eq_refl))) as [gs [Eg V]]. rewrite Eg.
      eexists. split; [reflexivity|]. split; [|intros u Hs; inversion Hs; subst; constructor; apply SF; assumption].
      apply sim_disjunctive; [exact SM|]. intros l r A Hr. rewrite (V _ r); [|apply q_view; exists l; tauto]. unfold MinimizeSpec.condition. cbn [map fold_right]. change (any3 ?x) with (fold_right Minimize.or3 (Some false) x). unfold disjunction.
      destruct (fold_right Minimize.or3 (Some false) (map (literal fn_sem un_sem bin_sem truth r) cl)) as [[|]|]; reflexivity.
    + destruct (cnf_ok fn_sem un_sem bin_sem truth (Q c (pipe c')) (emit (pipe c')) f HL) as [g [Eg V]]. rewrite Eg.
      eexists. split; [reflexivity|]. split; [|intros u Hs; inversion Hs; subst; constructor; apply SF; assumption].
      apply sim_filter; [exact SM|]. intros l r A Hr. apply V. apply q_view. exists l. tauto.
  - (* join *) destruct (built_children text fn_sem un_sem bin_sem truth _ _ _ _ B) as [BB [-> [ND _]]].
    match goal with X : Forall2 narrow cs cs' |- _ => rename X into HN end. match goal with X : Forall prefixed (removelast cs') |- _ => rename X into HP end. match goal with X : Forall (fun c => incl (sch c) (pipe c)) cs' |- _ => rename X into HS end.
    pose proof (join_children cs cs' IH BB ND HN HP HS) as JJ. cbn [pipe]. destruct j as [ks|f]; [|apply join_theta; assumption].
    inversion B as [| | |? ? c0 c1 B0 B1 NDs ST HK E1 E2| | | | | |]; subst. inversion HN as [|? c0' ? cs1 N0 HN1]; subst. inversion HN1 as [|? c1' ? cs2 N1 HN2]; subst. inversion HN2; subst. inversion HS as [|? ? S0 HS1]; subst. inversion HS1 as [|? ? S1 HS2]; subst.
    cbn [removelast] in HP. inversion HP as [|? ? [t Et] HP1]; subst. destruct (pipe_ok text fn_sem un_sem bin_sem truth c0 c0' B0 N0) as [Q0 Q1]. destruct (pipe_ok text fn_sem un_sem bin_sem truth c1 c1' B1 N1) as [Q2 Q3].
    cbn [flat_map] in *. rewrite !app_nil_r in *. apply join_equi; try assumption; [rewrite Et in Q1; eapply nodup_app_l; exact Q1| |]; intros x Hx; [apply Q0, S0, Hx|apply Q2, S1, Hx].
  - (* project *) inversion B; subst. destruct (IH c' ltac:(assumption) ltac:(assumption)) as [p [E [SM SF]]]. unfold good. cbn [Minimize.lower MinimizeSpec.by_name pipe] in *. rewrite E.
    destruct (pipe_ok text fn_sem un_sem bin_sem truth c c' ltac:(assumption) ltac:(assumption)) as [Pi Pn].
    destruct (list_ok fn_sem un_sem bin_sem (Q c (pipe c')) (emit (pipe c')) (pick mask es)) as [gs [Eg V]]; [intros e He; apply emit_right; try assumption; [auto|]; match goal with X : forall e, In e es -> _ |- _ => apply X, (pick_in mask), He end|].
    rewrite Eg. eexists. split; [reflexivity|]. split; [|intros u Hs; inversion Hs; subst; constructor; apply SF; assumption].
    apply (sim_project (view (pipe c'))); [exact SM|]. intros l r A Hr. rewrite view_pick; [|auto|rewrite map_length; assumption]. rewrite pick_map.
    assert (Hq : Q c (pipe c') (view (pipe c') r) r) by (apply q_view; exists l; tauto). clear - V Hq. induction V as [|e g es0 gs0 H V IH]; cbn [map]; [reflexivity|]. rewrite (H _ _ Hq), IH. reflexivity.
  - (* once *) inversion B; subst. unfold good. cbn [Minimize.lower MinimizeSpec.by_name pipe] in *.
    destruct (list_ok fn_sem un_sem bin_sem (fun (x : row) (r : nrow) => True /\ exists y, x = view [] r ++ y) (emit []) (pick mask es)) as [gs [Eg V]].
    { intros e He. apply (emit_ok text fn_sem un_sem bin_sem truth [] e (fun _ => True)); [constructor| |intros _ []]. match goal with X : forall e, In e es -> uses e = [] |- _ => rewrite (X e); [intros x []|eapply pick_in, He] end. }
    rewrite Eg. eexists. split; [reflexivity|]. split; [|intros; constructor]. intros l' A. inversion A; subst. eexists. split; [constructor|]. cbn [map]. f_equal. rewrite view_pick; [|auto|rewrite map_length; assumption]. rewrite pick_map.
    clear - V. induction V as [|e g es0 gs0 H V IH]; cbn [map]; [reflexivity|]. rewrite (H [] []), IH; [reflexivity|]. split; [exact I|]. exists []. reflexivity.
  - (* limit *) inversion B; subst. destruct (IH c' ltac:(assumption) ltac:(assumption)) as [p [E [SM SF]]]. unfold good. cbn [Minimize.lower MinimizeSpec.by_name pipe] in *. rewrite E. eexists. split; [reflexivity|]. split; [apply sim_limit, SM|].
    intros u Hs. inversion Hs; subst. constructor; [assumption|]. apply SF. assumption.
  - (* group *) inversion B; subst. match goal with E : ?N0 ++ map agg_id aggs = ?N ++ map agg_id aggs |- _ => apply app_inv_tail in E; subst N0 end.
    destruct (IH c' ltac:(assumption) ltac:(assumption)) as [p [E [SM SF]]]. unfold good. cbn [Minimize.lower MinimizeSpec.by_name pipe] in *. rewrite E.
    destruct (pipe_ok text fn_sem un_sem bin_sem truth c c' ltac:(assumption) ltac:(assumption)) as [Pi Pn].
    assert (Sn : NoDup (sch c')) by (match goal with X : prefixed c' |- _ => destruct X as [t Et] end; rewrite Et in Pn; eapply nodup_app_l; exact Pn).
    assert (Si : incl (sch c') (sch c)) by (match goal with X : prefixed c' |- _ => destruct X as [t Et] end; intros x Hx; apply Pi; rewrite Et; apply in_or_app; left; exact Hx).
    destruct (list_ok fn_sem un_sem bin_sem (Q c (sch c')) (emit (sch c')) ks) as [gs [Eg V]]; [intros e He; apply emit_right; auto|]. rewrite Eg.
    destruct (aggs_ok c c' (pick mask aggs)) as [as' [Ea Fa]]; try assumption; [intros a e I1 I2; split; [|eauto]; match goal with X : forall a e, In a aggs -> _ |- _ => eapply X; [eapply pick_in, I1|exact I2] end|]. rewrite Ea.
    eexists. split; [reflexivity|].
    assert (KL : Forall2 (fun (k : nrow -> cell) (k' : row -> cell) => onrows (by_name c) (fun r => k' (view (pipe c') r) = k r)) (map (fun e r => ev r e) ks) gs).
    { match goal with X : prefixed c' |- _ => rename X into Hpre end. clear - V Hpre. induction V as [|e g ks gs Hg V IHv]; cbn [map]; constructor; [|exact IHv]. intros l r A Hr. apply Hg. apply q_prefix; [assumption|]. exists l. tauto. }
    split.
    + apply (sim_group (view (pipe c')) _ _ _ _ _ _ mask); [exact SM|exact KL|rewrite map_length; assumption|rewrite pick_map; exact Fa|].
      intros k cs Lk Lc. rewrite map_length in Lk, Lc. rewrite <- pick_map, <- (pick_prefix k cs mask), <- (pick_prefix _ (map agg_id aggs) mask). rewrite view_pick; [|assumption|rewrite !app_length, map_length; lia]. f_equal. f_equal. f_equal. lia.
    + intros u Hs. inversion Hs as [| | | | | | | | |? ? ? ? ? Hs1 Hs2| |]; subst. constructor; [apply SF, Hs1|]. intros l' A'. destruct (SM _ A') as [l [A0 ->]]. destruct (Hs2 l A0) as [X1 [X2 X3]]. rewrite map_length. split; [exact X1|].
      assert (KL' : Forall2 (fun (k : nrow -> cell) (k' : row -> cell) => forall r, In r l -> k' (view (pipe c') r) = k r) (map (fun e r => ev r e) ks) gs) by (eapply forall2_rows; [exact KL|]; intros k k' Y r Hr; apply (Y l r A0 Hr)).
      split.
      * intros r' e Hr He. apply in_map_iff in Hr. destruct Hr as [r [<- Hr]]. clear - KL' He X2 Hr. assert (Y : exists k, In k (map (fun e r => ev r e) ks) /\ e (view (pipe c') r) = k r).
        { revert KL' He. clear X2. generalize (map (fun (e0 : expr) (r0 : nrow) => ev r0 e0) ks). intros L KL' He. induction KL' as [|k k' L gs Hk KL' IH]; [destruct He|]. destruct He as [->|He]; [exists k; split; [left; reflexivity|apply Hk, Hr]|]. destruct (IH He) as [k2 [I2 E2]]. exists k2. split; [right; exact I2|exact E2]. }
        destruct Y as [k [Ik ->]]. apply X2; assumption.
      * intros k a' Hk Ha. rewrite (keys_list (view (pipe c')) l _ gs KL') in Hk. rewrite (members_like (view (pipe c')) l _ gs k KL').
        assert (Y : exists a, In a (map name_agg aggs) /\ agg_like (view (pipe c')) (rows_of (by_name c)) a a').
        { assert (Z : exists a, In a (map name_agg (pick mask aggs)) /\ agg_like (view (pipe c')) (rows_of (by_name c)) a a').
          { clear - Fa Ha. induction Fa as [|a a2 l1 l2 Hk Fa IH]; [destruct Ha|]. destruct Ha as [->|Ha]; [exists a; split; [left; reflexivity|exact Hk]|]. destruct (IH Ha) as [k2 [I2 E2]]. exists k2. split; [right; exact I2|exact E2]. }
          destruct Z as [a [Ia La]]. exists a. split; [|exact La]. rewrite <- pick_map in Ia. eapply pick_in, Ia. }
        destruct Y as [a [Ia La]]. eapply agg_safe_like; [exact La| |apply X3; assumption]. intros r Hr. unfold members in Hr. apply filter_In in Hr. exists l. tauto.
  - (* aggregate *) inversion B; subst.
    destruct (IH c' ltac:(assumption) ltac:(assumption)) as [p [E [SM SF]]]. unfold good. cbn [Minimize.lower MinimizeSpec.by_name pipe] in *. rewrite E.
    destruct (pipe_ok text fn_sem un_sem bin_sem truth c c' ltac:(assumption) ltac:(assumption)) as [Pi Pn].
    assert (Sn : NoDup (sch c')) by (match goal with X : prefixed c' |- _ => destruct X as [t Et] end; rewrite Et in Pn; eapply nodup_app_l; exact Pn).
    assert (Si : incl (sch c') (sch c)) by (match goal with X : prefixed c' |- _ => destruct X as [t Et] end; intros x Hx; apply Pi; rewrite Et; apply in_or_app; left; exact Hx).
    destruct (aggs_ok c c' (pick mask aggs)) as [as' [Ea Fa]]; try assumption; [intros a e I1 I2; split; [|eauto]; match goal with X : forall a e, In a aggs -> _ |- _ => eapply X; [eapply pick_in, I1|exact I2] end|]. rewrite Ea.
    eexists. split; [reflexivity|]. split.
    + apply (sim_aggregate (view (pipe c')) _ _ _ _ mask); [exact SM|rewrite map_length; assumption|rewrite pick_map; exact Fa|].
      intros cs Lc. rewrite map_length in Lc. rewrite <- pick_map. rewrite view_pick; [reflexivity|assumption|rewrite map_length; lia].
    + intros u Hs. inversion Hs; subst. constructor; [apply SF; assumption|]. intros l' a' A' Ha. destruct (SM _ A') as [l [A0 ->]].
      assert (Z : exists a, In a (map name_agg (pick mask aggs)) /\ agg_like (view (pipe c')) (rows_of (by_name c)) a a').
      { clear - Fa Ha. induction Fa as [|a a2 l1 l2 Hk Fa IH]; [destruct Ha|]. destruct Ha as [->|Ha]; [exists a; split; [left; reflexivity|exact Hk]|]. destruct (IH Ha) as [k2 [I2 E2]]. exists k2. split; [right; exact I2|exact E2]. }
      destruct Z as [a [Ia La]]. rewrite <- pick_map in Ia. apply pick_in in Ia. eapply agg_safe_like; [exact La| |match goal with X : forall l a, answer (by_name c) l -> _ |- _ => apply (X l a A0 Ia) end]. intros r Hr. exists l. tauto.
  - (* sort *) inversion B; subst. destruct (IH c' ltac:(assumption) ltac:(assumption)) as [p [E [SM SF]]]. unfold good. cbn [Minimize.lower MinimizeSpec.by_name pipe] in *. rewrite E.
    destruct (pipe_ok text fn_sem un_sem bin_sem truth c c' ltac:(assumption) ltac:(assumption)) as [Pi Pn].
    assert (X : exists gs, all_some (map (fun o => emit (pipe c') (fst o)) order) = Some gs /\ Forall2 (fun (k : (nrow -> cell) * bool) (k' : (row -> cell) * bool) => snd k = snd k' /\ onrows (by_name c) (fun r => fst k' (view (pipe c') r) = fst k r)) (map (fun o => ((fun r => ev r (fst o)), snd o)) order) (combine gs (map snd order))).
    { destruct (list_ok fn_sem un_sem bin_sem (Q c (pipe c')) (emit (pipe c')) (map fst order)) as [gs [Eg V]].
      { intros e He. apply in_map_iff in He. destruct He as [o [<- Ho]]. apply emit_right; auto. }
      rewrite map_map in Eg. exists gs. split; [exact Eg|]. clear - V. remember (map fst order) as es eqn:Ees. revert order Ees. induction V as [|e g es gs Hg V IHv]; intros [|o order] Ees; try discriminate; [constructor|]. injection Ees as -> ->. cbn [map combine]. constructor; [|apply IHv; reflexivity].
      cbn [fst snd]. split; [reflexivity|]. intros l r A Hr. apply Hg, q_view. exists l. tauto. }
    destruct X as [gs [Eg V]]. rewrite Eg. eexists. split; [reflexivity|]. split; [apply sim_sort; assumption|].
    intros u Hs. inversion Hs; subst. constructor; [apply SF; assumption|]. intros l' A'. destruct (SM _ A') as [l [A0 ->]]. rewrite map_length. match goal with X : forall l, answer (by_name c) l -> _ |- _ => destruct (X l A0) as [Hle|Hc] end; [left; exact Hle|right].
    intros e asc He. assert (Y : exists e0, In (e0, asc) (map (fun o => ((fun r => ev r (fst o)), snd o)) order) /\ onrows (by_name c) (fun r => e (view (pipe c') r) = e0 r)).
    { clear - V He. induction V as [|[k b] [k' b'] L L' [Hb Hk] V IHv]; [destruct He|]. cbn [fst snd] in *. destruct He as [He|He]; [injection He as -> ->; exists k; split; [left; subst; reflexivity|exact Hk]|]. destruct (IHv He) as [e0 [I0 E0]]. exists e0. split; [right; exact I0|exact E0]. }
    destruct Y as [e0 [I0 E0]]. destruct (Hc e0 asc I0) as [Z|[Z|Z]]; [left|right; left|right; right]; intros r' Hr'; apply in_map_iff in Hr'; destruct Hr' as [r [<- Hr]]; rewrite (E0 l r A0 Hr); apply Z, Hr.
Qed.
End Sound.
