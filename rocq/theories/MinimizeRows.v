(** * Positions and names (for C53): compiled expressions and joins *)
From Coq Require Import NArith ZArith List Bool Arith Lia.
From Verif Require Import Interp InterpSpec Finish FinishSpec FinishProps Minimize MinimizeSpec MinimizeSim MinimizeSchemas.
Import ListNotations.

(** the tuple of schema [S] of a row with names *)
Definition view (S : schema) (r : nrow) : row := map (fun id => lookup id r) S.
Lemma view_app S T r : view (S ++ T) r = view S r ++ view T r. Proof. apply map_app. Qed.
Lemma view_length S r : length (view S r) = length S. Proof. apply map_length. Qed.
Lemma nth_view S r i id x : nth_error S i = Some id -> nth i (view S r ++ x) None = lookup id r.
Proof.
  intros H. assert (L : (i < length (view S r))%nat) by (rewrite view_length; apply nth_error_Some; congruence). rewrite app_nth1 by exact L. unfold view.
  apply nth_error_nth with (d := None). rewrite nth_error_map, H. reflexivity.
Qed.
Lemma lookup_in id (a b : nrow) : In id (map fst a) -> lookup id (a ++ b) = lookup id a.
Proof. induction a as [|[x v] a IH]; cbn [map fst app lookup]; intros H; [destruct H|]. destruct (ident_eqb_spec x id) as [->|N]; [reflexivity|]. apply IH. destruct H; [congruence|assumption]. Qed.
Lemma lookup_out id (a b : nrow) : ~ In id (map fst a) -> lookup id (a ++ b) = lookup id b.
Proof. induction a as [|[x v] a IH]; cbn [map fst app lookup]; intros H; [reflexivity|]. destruct (ident_eqb_spec x id) as [->|N]; [exfalso; apply H; left; reflexivity|]. apply IH. intros X. apply H. right. exact X. Qed.
Lemma view_names (r : nrow) : NoDup (map fst r) -> view (map fst r) r = map snd r.
Proof.
  unfold view. induction r as [|[x v] r IH]; cbn [map fst snd]; intros ND; [reflexivity|]. inversion ND; subst. cbn [lookup]. rewrite ident_eqb_refl. f_equal. rewrite <- IH by assumption.
  apply map_ext_in. intros id Hid. destruct (ident_eqb_spec x id) as [->|]; [contradiction|reflexivity].
Qed.
Lemma lookup_combine (S : schema) (vs : row) i id : NoDup S -> nth_error S i = Some id -> lookup id (combine S vs) = nth i vs None.
Proof.
  revert vs i. induction S as [|x S IH]; intros vs i ND H; [destruct i; discriminate|]. inversion ND; subst. destruct vs as [|v vs]; [destruct i; reflexivity|]. cbn [combine lookup].
  destruct i as [|i]; cbn [nth_error nth] in *; [injection H as ->; rewrite ident_eqb_refl; reflexivity|]. destruct (ident_eqb_spec x id) as [->|]; [exfalso; apply nth_error_In in H; contradiction|]. apply IH; assumption.
Qed.
Lemma view_combine S vs : NoDup S -> length vs = length S -> view S (combine S vs) = vs.
Proof.
  intros ND HL. apply nth_ext with (d := None) (d' := None); rewrite view_length; [lia|]. intros i Hi. destruct (nth_error S i) as [id|] eqn:E; [|apply nth_error_None in E; lia].
  rewrite <- (app_nil_r (view S _)). rewrite (nth_view S _ i id [] E). apply lookup_combine; assumption.
Qed.
Lemma view_pick S vs mask : NoDup S -> length vs = length S -> view (pick mask S) (combine S vs) = pick mask vs.
Proof. intros ND HL. unfold view. rewrite <- (pick_map (fun id => lookup id (combine S vs))). f_equal. apply (view_combine S vs ND HL). Qed.

Section Exec.
Context (text : expr -> N) (fn_sem : N -> cell -> cell) (un_sem : N -> cell -> cell) (bin_sem : N -> cell -> cell -> cell) (truth : cell -> option bool).
Notation ev := (ev fn_sem un_sem bin_sem).
Notation compile := (compile fn_sem un_sem bin_sem).
Notation comp := (comp fn_sem un_sem bin_sem).
Notation emit := (emit text fn_sem un_sem bin_sem).
Notation condition := (condition fn_sem un_sem bin_sem truth).

Section Generic.
Context {X : Type} (Q : X -> nrow -> Prop).
Definition right (o : option (X -> cell)) (e : expr) : Prop := exists g, o = Some g /\ forall x r, Q x r -> g x = ev r e.
Lemma comp_ok load e : (forall id, In id (uses e) -> exists g, load id = Some g /\ forall x r, Q x r -> g x = lookup id r) -> right (comp load e) e.
Proof.
  induction e as [t n k|n|v|f e IH|o e IH|o l IHl r IHr]; intros H; cbn [Minimize.comp uses] in *.
  - apply H. left. reflexivity.
  - apply H. left. reflexivity.
  - eexists. split; [reflexivity|]. reflexivity.
  - destruct (IH H) as [g [E V]]. rewrite E. eexists. split; [reflexivity|]. intros x r' Hx. cbn. rewrite (V x r' Hx). reflexivity.
  - destruct (IH H) as [g [E V]]. rewrite E. eexists. split; [reflexivity|]. intros x r' Hx. cbn. rewrite (V x r' Hx). reflexivity.
  - destruct IHl as [g [E V]]; [intros; apply H, in_or_app; left; assumption|]. destruct IHr as [h [E' V']]; [intros; apply H, in_or_app; right; assumption|]. rewrite E, E'.
    eexists. split; [reflexivity|]. intros x r' Hx. cbn. rewrite (V x r' Hx), (V' x r' Hx). reflexivity.
Qed.
Lemma lit_ok cmp l : right (cmp (snd l)) (snd l) -> exists g, comp_lit truth cmp l = Some g /\ forall x r, Q x r -> g x = literal fn_sem un_sem bin_sem truth r l.
Proof. intros [g [E V]]. unfold comp_lit. rewrite E. eexists. split; [reflexivity|]. intros x r Hx. unfold literal. rewrite (V x r Hx). reflexivity. Qed.
Lemma lits_ok cmp cl : (forall l, In l cl -> right (cmp (snd l)) (snd l)) -> exists gs, all_some (map (comp_lit truth cmp) cl) = Some gs /\
  forall x r, Q x r -> map (fun g => g x) gs = map (literal fn_sem un_sem bin_sem truth r) cl.
Proof.
  induction cl as [|l cl IH]; intros H; [exists []; split; reflexivity|]. destruct (lit_ok cmp l (H l (or_introl eq_refl))) as [g [E V]]. destruct IH as [gs [E' V']]; [intros; apply H; right; assumption|].
  exists (g :: gs). cbn [map all_some]. rewrite E, E'. split; [reflexivity|]. intros x r Hx. cbn [map]. rewrite (V x r Hx), (V' x r Hx). reflexivity.
Qed.
Lemma fold_map {A} (f : option bool -> option bool -> option bool) z (gs : list (A -> option bool)) x : fold_right (fun g b => f (g x) b) z gs = fold_right f z (map (fun g => g x) gs).
Proof. induction gs as [|g gs IH]; cbn; [reflexivity|]. rewrite IH. reflexivity. Qed.
Lemma clause_ok cmp cl : (forall l, In l cl -> right (cmp (snd l)) (snd l)) -> exists g, comp_clause truth cmp cl = Some g /\ forall x r, Q x r -> g x = disjunction fn_sem un_sem bin_sem truth r cl.
Proof. intros H. destruct (lits_ok cmp cl H) as [gs [E V]]. unfold comp_clause. rewrite E. eexists. split; [reflexivity|]. intros x r Hx. cbn beta. rewrite fold_map, (V x r Hx). reflexivity. Qed.
Lemma cnf_ok cmp f : (forall cl l, In cl f -> In l cl -> right (cmp (snd l)) (snd l)) -> exists g, comp_cnf truth cmp f = Some g /\ forall x r, Q x r -> g x = condition r f.
Proof.
  intros H. assert (Y : exists gs, all_some (map (comp_clause truth cmp) f) = Some gs /\ forall x r, Q x r -> map (fun g => g x) gs = map (disjunction fn_sem un_sem bin_sem truth r) f).
  { induction f as [|cl f IH]; [exists []; split; reflexivity|]. destruct (clause_ok cmp cl (fun l => H cl l (or_introl eq_refl))) as [g [E V]]. destruct IH as [gs [E' V']]; [intros cl' l I; apply H; right; exact I|].
    exists (g :: gs). cbn [map all_some]. rewrite E, E'. split; [reflexivity|]. intros x r Hx. cbn [map]. rewrite (V x r Hx), (V' x r Hx). reflexivity. }
  destruct Y as [gs [E V]]. unfold comp_cnf. rewrite E. eexists. split; [reflexivity|]. intros x r Hx. cbn beta. rewrite fold_map, (V x r Hx). reflexivity.
Qed.
Lemma list_ok cmp es : (forall e, In e es -> right (cmp e) e) -> exists gs, all_some (map cmp es) = Some gs /\ Forall2 (fun e g => forall x r, Q x r -> g x = ev r e) es gs.
Proof.
  induction es as [|e es IH]; intros H; [exists []; split; [reflexivity|constructor]|]. destruct (H e (or_introl eq_refl)) as [g [E V]]. destruct IH as [gs [E' V']]; [intros; apply H; right; assumption|].
  exists (g :: gs). cbn [map all_some]. rewrite E, E'. split; [reflexivity|]. constructor; assumption.
Qed.
End Generic.

(** ** one schema *)
Lemma load_view S id : NoDup S -> In id S -> exists g, load_col S id = Some g /\ forall r y, g (view S r ++ y) = lookup id r.
Proof.
  intros ND I. apply In_nth_error in I. destruct I as [i Hi]. unfold load_col. rewrite (find_nodup S id i ND Hi). eexists. split; [reflexivity|]. intros r y. apply nth_view, Hi.
Qed.
Lemma compile_comp S e : compile S e = comp (load_col S) e.
Proof. induction e; cbn [Finish.compile Minimize.comp]; try reflexivity; rewrite ?IHe, ?IHe1, ?IHe2; reflexivity. Qed.
Lemma emit_ok S e (P : nrow -> Prop) : NoDup S -> incl (uses e) S -> (computed e -> In (None, text e) S -> forall r, P r -> lookup (None, text e) r = ev r e) ->
  right (fun x r => P r /\ exists y, x = view S r ++ y) (emit S e) e.
Proof.
  intros ND HI HC. assert (CD : computed e \/ ~ computed e) by (destruct e; cbn; tauto). destruct CD as [C|C].
  - destruct (mem_spec S (None, text e)) as [I|I].
    + destruct (find_in S _ ND I) as [i [Hi Ep]]. exists (fun r => nth i r None). unfold Finish.emit. replace (expr_id text e) with (@None N, text e) by (destruct e; cbn in C; try contradiction; reflexivity).
      rewrite Ep. split; [reflexivity|]. intros x r [Hr [y ->]]. rewrite (nth_view S r i _ y Hi). apply HC; assumption.
    + rewrite (emit_absent text fn_sem un_sem bin_sem S e I C), compile_comp. apply comp_ok. intros id Hid. destruct (load_view S id ND (HI id Hid)) as [g [E V]]. exists g. split; [exact E|]. intros x r [_ [y ->]]. apply V.
  - rewrite (emit_plain text fn_sem un_sem bin_sem S e C), compile_comp. apply comp_ok. intros id Hid. destruct (load_view S id ND (HI id Hid)) as [g [E V]]. exists g. split; [exact E|]. intros x r [_ [y ->]]. apply V.
Qed.

End Exec.

(** ** joins: tuples [rs] of schemas [Is] of the rows [es], right on the names of [D] *)
Inductive rights (D : schema) : list schema -> list row -> list nrow -> Prop :=
  | rights_nil : rights D [] [] []
  | rights_cons I r e Is rs es : (forall id k, nth_error I k = Some id -> In id D -> nth k r None = lookup id e) -> incl I (map fst e) -> rights D Is rs es ->
      rights D (I :: Is) (r :: rs) (e :: es).
Lemma names_concat (es : list nrow) : map fst (concat es) = concat (map (map fst) es). Proof. apply concat_map. Qed.
Lemma rights_names D Is rs es : rights D Is rs es -> incl (concat Is) (map fst (concat es)).
Proof.
  induction 1 as [|I r e Is rs es V HI H IH]; [intros x []|]. cbn [concat]. rewrite map_app. intros x Hx. apply in_app_or in Hx. apply in_or_app. destruct Hx as [Hx|Hx]; [left; apply HI, Hx|right; apply IH, Hx].
Qed.
Lemma nodup_app_out {A} (a b : list A) x : NoDup (a ++ b) -> In x b -> ~ In x a.
Proof. induction a as [|y a IH]; cbn; intros ND H; [tauto|]. inversion ND; subst. intros [->|X]; [apply H2, in_or_app; right; exact H|]. exact (IH H3 H X). Qed.
Lemma nodup_app_r {A} (a b : list A) : NoDup (a ++ b) -> NoDup b.
Proof. induction a; cbn; intros H; [exact H|]. inversion H; subst. apply IHa. assumption. Qed.
Lemma nodup_app_l {A} (a b : list A) : NoDup (a ++ b) -> NoDup a.
Proof. induction a as [|x a IH]; cbn; intros H; [constructor|]. inversion H; subst. constructor; [intros X; apply H2, in_or_app; left; exact X|apply IH; assumption]. Qed.
Lemma multi_ok D Is id : (forall I, In I Is -> NoDup I) -> In id D -> In id (concat Is) ->
  exists g, load_multi Is id = Some g /\ forall rs es, rights D Is rs es /\ NoDup (map fst (concat es)) -> g rs = lookup id (concat es).
Proof.
  intros HN HD. induction Is as [|I Is IH]; intros HI; [destruct HI|]. cbn [load_multi]. destruct (mem_spec I id) as [M|M].
  - destruct (find_in I id (HN I (or_introl eq_refl)) M) as [i [Hi Ep]]. rewrite Ep. eexists. split; [reflexivity|]. intros rs es [HR _]. inversion HR as [|? r e ? rs' es' V HS HR']; subst. cbn [hd concat].
    rewrite lookup_in by (apply HS, M). apply V; assumption.
  - rewrite positions_none by exact M. destruct IH as [g [E V]]; [intros; apply HN; right; assumption|cbn [concat] in HI; apply in_app_or in HI; tauto|]. rewrite E. eexists. split; [reflexivity|].
    intros rs es [HR ND]. inversion HR as [|? r e ? rs' es' V' HS HR']; subst. cbn [tl concat]. cbn [concat] in ND. rewrite map_app in ND. rewrite (V rs' es'); [|split; [exact HR'|eapply nodup_app_r; exact ND]].
    symmetry. apply lookup_out. cbn [concat] in HI. apply in_app_or in HI. destruct HI as [HI|HI]; [contradiction|]. apply (nodup_app_out _ _ _ ND). apply (rights_names _ _ _ _ HR'), HI.
Qed.
Lemma set_nth_length i v r : length (set_nth i v r) = length r. Proof. revert i. induction r as [|x r IH]; intros [|i]; cbn; try reflexivity. rewrite IH. reflexivity. Qed.
Lemma nth_set_same i v r : (i < length r)%nat -> nth i (set_nth i v r) None = v.
Proof. revert i. induction r as [|x r IH]; intros [|i] H; cbn in *; try lia; [reflexivity|]. apply IH. lia. Qed.
Lemma nth_set_other i j v r : i <> j -> nth j (set_nth i v r) None = nth j r None.
Proof. revert i j. induction r as [|x r IH]; intros [|i] [|j] H; cbn; try reflexivity; try lia. apply IH. lia. Qed.
Lemma load_attrs_ok S I : NoDup S -> forall i, exists ld, load_attrs S I i = Some ld /\ (forall r out, length (ld r out) = length out) /\
  (forall r out j id, nth_error S j = Some id -> ~ In id I -> nth j (ld r out) None = nth j out None) /\
  (NoDup I -> forall r out j k id, nth_error S j = Some id -> nth_error I k = Some id -> length out = length S -> nth j (ld r out) None = nth (i + k) r None).
Proof.
  intros NS. induction I as [|x I IH]; intros i; cbn [load_attrs].
  - eexists. split; [reflexivity|]. split; [reflexivity|]. split; [reflexivity|]. intros _ r out j k id _ H. destruct k; discriminate.
  - destruct (IH (Datatypes.S i)) as [ld [E [L [O V]]]]. rewrite E. destruct (mem_spec S x) as [M|M].
    + destruct (find_in S x NS M) as [p [Hp Ep]]. rewrite Ep. eexists. split; [reflexivity|]. split; [intros r out; rewrite L; apply set_nth_length|]. split.
      * intros r out j id Hj HI. rewrite (O r _ j id Hj) by (intros X; apply HI; right; exact X). apply nth_set_other. intros ->. apply HI. left. congruence.
      * intros ND r out j k id Hj Hk HL. inversion ND; subst. destruct k as [|k]; cbn [nth_error] in Hk.
        -- injection Hk as ->. rewrite (O r _ j id Hj) by assumption. assert (j = p) as -> by (apply (proj1 (NoDup_nth_error S) NS); [apply nth_error_Some; congruence|congruence]).
           rewrite Nat.add_0_r. apply nth_set_same. rewrite HL. apply nth_error_Some. congruence.
        -- rewrite (V ltac:(assumption) r _ j k id Hj Hk) by (rewrite set_nth_length; exact HL). f_equal. lia.
    + rewrite positions_none by exact M. exists ld. split; [reflexivity|]. split; [exact L|]. split.
      * intros r out j id Hj HI. apply (O r out j id Hj). intros X. apply HI. right. exact X.
      * intros ND r out j k id Hj Hk HL. inversion ND; subst. destruct k as [|k]; cbn [nth_error] in Hk; [injection Hk as ->; apply nth_error_In in Hj; contradiction|].
        rewrite (V ltac:(assumption) r out j k id Hj Hk HL). f_equal. lia.
Qed.
Lemma load_all_ok S D Is : NoDup S -> incl S D -> (forall I, In I Is -> NoDup I) -> exists ls, all_some (map (fun I => load_attrs S I 0) Is) = Some ls /\
  forall rs es, rights D Is rs es -> NoDup (map fst (concat es)) -> forall out, length out = length S ->
    length (load_all ls rs out) = length S /\
    forall j id, nth_error S j = Some id -> nth j (load_all ls rs out) None = if mem (concat Is) id then lookup id (concat es) else nth j out None.
Proof.
  intros NS HD. induction Is as [|I Is IH]; intros HN.
  - exists []. split; [reflexivity|]. intros rs es HR _ out HL. inversion HR; subst. cbn. split; [exact HL|reflexivity].
  - destruct IH as [ls [E V]]; [intros; apply HN; right; assumption|]. destruct (load_attrs_ok S I NS 0) as [ld [E' [L [O W]]]]. exists (ld :: ls). cbn [map all_some]. rewrite E', E. split; [reflexivity|].
    intros rs es HR ND out HL. inversion HR as [|? r e ? rs' es' V' HS HR']; subst. cbn [load_all concat] in *. rewrite map_app in ND.
    destruct (V rs' es' HR' (nodup_app_r _ _ ND) (ld r out)) as [V1 V2]; [rewrite L; exact HL|]. split; [exact V1|]. intros j id Hj. rewrite (V2 j id Hj).
    assert (EM : mem (I ++ concat Is) id = mem I id || mem (concat Is) id) by (unfold mem; apply existsb_app). rewrite EM.
    destruct (mem_spec (concat Is) id) as [M|M].
    + rewrite orb_true_r. symmetry. apply lookup_out. apply (nodup_app_out _ _ _ ND). apply (rights_names _ _ _ _ HR'), M.
    + rewrite orb_false_r. destruct (mem_spec I id) as [M'|M']; [|apply (O r out j id Hj M')]. rewrite lookup_in by (apply HS, M'). apply In_nth_error in M'. destruct M' as [k Hk].
      rewrite (W (HN I (or_introl eq_refl)) r out j k id Hj Hk HL). apply V'; [exact Hk|]. apply HD. eapply nth_error_In, Hj.
Qed.
Lemma load_all_view S D Is : NoDup S -> incl S D -> incl S (concat Is) -> (forall I, In I Is -> NoDup I) -> exists ls, all_some (map (fun I => load_attrs S I 0) Is) = Some ls /\
  forall rs es, rights D Is rs es -> NoDup (map fst (concat es)) -> load_all ls rs (fresh S) = view S (concat es).
Proof.
  intros NS HD HI HN. destruct (load_all_ok S D Is NS HD HN) as [ls [E V]]. exists ls. split; [exact E|]. intros rs es HR ND. destruct (V rs es HR ND (fresh S)) as [L W]; [unfold fresh; apply repeat_length|].
  apply nth_ext with (d := None) (d' := None); [rewrite L, view_length; reflexivity|]. intros j Hj. rewrite L in Hj. destruct (nth_error S j) as [id|] eqn:Ej; [|apply nth_error_None in Ej; lia].
  rewrite (W j id Ej). replace (mem (concat Is) id) with true by (symmetry; apply mem_in, HI; eapply nth_error_In, Ej). rewrite <- (app_nil_r (view S _)), (nth_view S _ j id [] Ej). reflexivity.
Qed.
