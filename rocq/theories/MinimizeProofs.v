(** * Minimization yields a plan with narrower schemas (for C53) *)
From Coq Require Import NArith ZArith List Bool Arith Lia.
From Verif Require Import Interp InterpSpec Finish FinishSpec FinishProps Minimize MinimizeSpec MinimizeSim MinimizeSchemas MinimizeRows MinimizeSem MinimizeSound.
Import ListNotations.

Definition min_list (below S' : schema) : list op -> option (list op) :=
  fix go (cs : list op) : option (list op) :=
        match cs with
        | [] => Some []
        | c :: cs1 =>
            match inter below (sch c) with Some Rc =>
            match minimize Rc false c with Some c' =>
            if searchable S' (sch c') then match go cs1 with Some cs1' => Some (c' :: cs1') | None => None end else None
            | None => None end | None => None end
        end.

Record mini (R : schema) (o o' : op) : Prop := mkMini {
  m_narrow : narrow o o';
  m_has : incl R (sch o');
  m_sch : incl (sch o') (sch o);
  m_nodup : NoDup (sch o');
  m_pipe : incl (sch o') (pipe o');
  m_based : based o -> sch o' = R /\ exists t, pipe o' = R ++ t;
  m_straight : straight o -> prefixed o';
  m_all : R = sch o -> pipe o' = sch o;
  m_again : full o' -> minimize R false o' = Some o';
  m_scans : forall X id, In X (scans o') -> In id X -> In id R \/ In id (mentioned o') }.

Section Proofs.
Context (text : expr -> N) (fn_sem : N -> cell -> cell) (un_sem : N -> cell -> cell) (bin_sem : N -> cell -> cell -> cell) (truth : cell -> option bool).
Notation ev := (ev fn_sem un_sem bin_sem).
Notation by_name := (by_name fn_sem un_sem bin_sem truth).
Notation built := (built text fn_sem un_sem bin_sem truth).
Notation readable := (readable text fn_sem un_sem bin_sem truth).
Notation lower := (lower text fn_sem un_sem bin_sem truth).

Lemma built_nodup o : built false o -> NoDup (sch o).
Proof.
  induction o as [T rows S|d f S c IH|j S cs IH|es S c IH|es S|a b S c IH|ks aggs S c IH|aggs S c IH|order S c IH] using op_ind2; intros B; inversion B; subst; cbn [sch]; auto.
Qed.
Lemma filter_in_mem (S : schema) below : NoDup below -> NoDup (filter (mem S) below) /\ incl (filter (mem S) below) S /\ forall id, In id below -> In id S -> In id (filter (mem S) below).
Proof. intros ND. split; [apply NoDup_filter, ND|]. split; [intros x Hx; apply filter_In in Hx; apply mem_in, Hx|]. intros id H1 H2. apply filter_In. split; [exact H1|apply mem_in, H2]. Qed.
Lemma incl_nil_eq (R T : schema) : NoDup (R ++ T) -> (forall id, In id (R ++ T) -> In id R) -> T = [].
Proof. destruct T as [|x T]; [reflexivity|]. intros ND H. exfalso. apply (nodup_app_out R (x :: T) x ND (or_introl eq_refl)). apply H, in_or_app. right. left. reflexivity. Qed.

Lemma min_children below S' cs : Forall (fun o => forall R, built false o -> NoDup R -> incl R (sch o) -> exists o', minimize R false o = Some o' /\ mini R o o') cs -> Forall (built false) cs -> NoDup below ->
  exists cs', min_list below S' cs = Some cs' /\ Forall2 (fun c c' => mini (filter (mem (sch c)) below) c c') cs cs'.
Proof.
  intros IH BB NB. induction cs as [|c cs IHc]; [exists []; split; [reflexivity|constructor]|]. inversion IH; inversion BB; subst. destruct IHc as [cs' [E F]]; [assumption|assumption|].
  destruct (filter_in_mem (sch c) below NB) as [X1 [X2 X3]]. match goal with X : forall R, built false c -> _ |- _ => destruct (X (filter (mem (sch c)) below)) as [c' [Ec M]]; try assumption end.
  exists (c' :: cs'). cbn [min_list]. rewrite (inter_spec below (sch c)) by (apply built_nodup; assumption). rewrite Ec. rewrite (searchable_ok S' (sch c') (m_nodup _ _ _ M)). fold (min_list below S'). rewrite E. split; [reflexivity|constructor; assumption].
Qed.
Lemma children_mini below cs cs' : Forall2 (fun c c' => mini (filter (mem (sch c)) below) c c') cs cs' -> incl below (flat_map sch cs) -> Forall straight (removelast cs) ->
  Forall2 narrow cs cs' /\ incl below (flat_map sch cs') /\ Forall prefixed (removelast cs') /\ Forall (fun c => incl (sch c) (pipe c)) cs'.
Proof.
  intros F HB HS. split; [clear - F; induction F; constructor; [apply H|assumption]|]. split.
  - intros x Hx. specialize (HB x Hx). apply in_flat_map in HB. destruct HB as [c [Hc Hs]]. clear HS. induction F as [|a a' cs cs' M F IH]; [destruct Hc|]. cbn [flat_map]. apply in_or_app. destruct Hc as [->|Hc]; [left|right; apply IH, Hc].
    apply (m_has _ _ _ M), filter_In. split; [exact Hx|apply mem_in, Hs].
  - split; [|clear - F; induction F; constructor; [apply H|assumption]]. clear HB. induction F as [|a a' cs cs' M F IH]; [constructor|]. destruct F as [|b b' cs cs' M' F]; [constructor|]. cbn [removelast] in *. inversion HS; subst. constructor; [apply (m_straight _ _ _ M); assumption|]. apply IH. assumption.
Qed.

Lemma full_children j S cs : full (OJoin j S cs) -> Forall full cs.
Proof. cbn [full]. induction cs as [|c cs IH]; intros H; constructor; [apply H|apply IH, H]. Qed.
Lemma children_again below S' cs cs' : NoDup below -> Forall2 (fun c c' => mini (filter (mem (sch c)) below) c c') cs cs' -> Forall full cs' -> min_list below S' cs' = Some cs'.
Proof.
  intros NB F HF. induction F as [|c c' cs cs' M F IH]; [reflexivity|]. inversion HF; subst. cbn [min_list]. rewrite (inter_spec below (sch c') (m_nodup _ _ _ M)).
  replace (filter (mem (sch c')) below) with (filter (mem (sch c)) below).
  - rewrite (m_again _ _ _ M) by assumption. rewrite (searchable_ok S' (sch c') (m_nodup _ _ _ M)). fold (min_list below S'). rewrite IH by assumption. reflexivity.
  - apply filter_ext_in. intros x Hx. destruct (mem_spec (sch c) x) as [I|I], (mem_spec (sch c') x) as [I'|I']; try reflexivity; exfalso; [apply I', (m_has _ _ _ M), filter_In; split; [exact Hx|apply mem_in, I]|apply I, (m_sch _ _ _ M), I'].
Qed.
Lemma children_scans below cs cs' : Forall2 (fun c c' => mini (filter (mem (sch c)) below) c c') cs cs' -> forall c' X id, In c' cs' -> In X (scans c') -> In id X -> In id below \/ In id (mentioned c').
Proof.
  induction 1 as [|c0 c0' cs cs' M F IH]; intros c' X id Hc HX Hid; [destruct Hc|]. destruct Hc as [->|Hc]; [|eapply IH; eassumption]. destruct (m_scans _ _ _ M X id HX Hid) as [Y|Y]; [|tauto]. apply filter_In in Y. tauto.
Qed.
Lemma pick_again {A} R S (es : list A) : length es = length S -> pick (mask_of R false (pick (mask_of R false S) S)) (pick (mask_of R false S) es) = pick (mask_of R false S) es.
Proof.
  intros L. apply pick_all; [rewrite mask_length; symmetry; apply pick_length, L|]. intros b Hb. unfold mask_of in Hb at 1. apply in_map_iff in Hb. destruct Hb as [x [<- Hx]]. rewrite pick_mask in Hx. apply filter_In in Hx. apply Hx.
Qed.
Lemma minimize_ok o : forall R, built false o -> NoDup R -> incl R (sch o) -> exists o', minimize R false o = Some o' /\ mini R o o'.
Proof.
  induction o as [T rows S|d f S c IH|j S cs IH|es S c IH|es S|a b S c IH|ks aggs S c IH|aggs S c IH|order S c IH] using op_ind2; intros R B NR HR; pose proof (built_nodup _ B) as NS; cbn [sch] in *.
  - inversion B; subst. cbn [minimize]. rewrite (inter_incl R S NS HR). eexists. split; [reflexivity|]. constructor; cbn [sch pipe based straight]; auto using incl_refl.
    + constructor; assumption.
    + intros _. split; [reflexivity|]. exists []. rewrite app_nil_r. reflexivity.
    + intros _. exists []. cbn [sch pipe]. rewrite app_nil_r. reflexivity.
    + intros _. cbn [minimize]. rewrite (inter_incl R R NR (incl_refl R)). reflexivity.
    + intros X id [<-|[]] Hid. left. exact Hid.
  - inversion B; subst. cbn [minimize]. destruct (cnf_required_spec f [] (NoDup_nil _)) as [F [EF [NF HF]]]. rewrite EF. cbn [app] in *. rewrite (insist_ok R (sch c) NR NS HR). cbn [negb].
    destruct (union_spec F R NR) as [T [EU [NU HU]]]. rewrite EU. match goal with X : forall cl l, In cl f -> _ |- _ => rename X into HRd end.
    assert (HI : incl (R ++ T) (sch c)) by (intros x Hx; apply HU in Hx; destruct Hx as [Hx|Hx]; [auto|]; apply HF in Hx; destruct Hx as [[]|[cl [l [I1 [I2 I3]]]]]; apply (HRd cl l I1 I2), I3).
    destruct (IH (R ++ T)) as [c' [Ec M]]; try assumption. rewrite Ec, (searchable_ok R (sch c') (m_nodup _ _ _ M)). eexists. split; [reflexivity|].
    assert (RC : incl R (sch c')) by (intros x Hx; apply (m_has _ _ _ M), in_or_app; left; exact Hx).
    constructor; cbn [sch pipe based straight]; auto using incl_refl.
    + constructor; [apply M|]. intros cl l I1 I2 x Hx. apply (m_pipe _ _ _ M), (m_has _ _ _ M), HU. right. apply HF. right. exists cl, l. tauto.
    + intros x Hx. apply (m_pipe _ _ _ M), RC, Hx.
    + intros Hb. split; [reflexivity|]. destruct (m_based _ _ _ M Hb) as [_ [t Et]]. exists (T ++ t). rewrite Et, app_assoc. reflexivity.
    + intros Hb. destruct (m_based _ _ _ M Hb) as [_ [t Et]]. exists (T ++ t). cbn [sch pipe]. rewrite Et, app_assoc. reflexivity.
    + intros ->. apply (m_all _ _ _ M). rewrite (incl_nil_eq _ _ NU HI). apply app_nil_r.
    + intros Hf. cbn [minimize full] in *. rewrite EF, (insist_ok R R NR NR (incl_refl R)), EU, (m_again _ _ _ M Hf), (searchable_ok R (sch c') (m_nodup _ _ _ M)). reflexivity.
    + intros X id HX Hid. cbn [mentioned scans used] in *. rewrite in_app_iff. destruct (m_scans _ _ _ M X id HX Hid) as [Y|Y]; [|tauto]. apply HU in Y. destruct Y as [Y|Y]; [tauto|]. right. left. apply HF in Y. destruct Y as [[]|[cl [l [I1 [I2 I3]]]]]. apply in_flat_map. exists l. split; [apply in_concat; exists cl; tauto|exact I3].
  - destruct (built_children text fn_sem un_sem bin_sem truth _ _ _ _ B) as [BB [-> [ND [HST [_ HJ]]]]]. cbn [minimize]. destruct (j_required_spec j) as [F [EF [NF HF]]]. rewrite EF.
    destruct (union_spec F R NR) as [T [EU [NU HU]]]. rewrite EU, (insist_ok R _ NR NS HR). cbn [negb]. fold (min_list (R ++ T) R).
    assert (HI : incl (R ++ T) (flat_map sch cs)) by (intros x Hx; apply HU in Hx; destruct Hx as [Hx|Hx]; [auto|]; apply HJ, HF, Hx).
    destruct (min_children (R ++ T) R cs IH BB NU) as [cs' [Ec M]]. rewrite Ec. destruct (children_mini _ _ _ M HI HST) as [M1 [M2 [M3 M4]]]. eexists. split; [reflexivity|].
    constructor; cbn [sch pipe based straight]; auto using incl_refl.
    + constructor; try assumption; [intros x Hx; apply M2, in_or_app; left; exact Hx|]. intros id Hid. apply M2, HU. right. apply HF, Hid.
    + intros _. split; [reflexivity|]. exists []. rewrite app_nil_r. reflexivity.
    + intros _. exists []. cbn [sch pipe]. rewrite app_nil_r. reflexivity.
    + intros Hf. apply full_children in Hf. cbn [minimize]. rewrite EF, EU, (insist_ok R R NR NR (incl_refl R)). cbn [negb]. fold (min_list (R ++ T) R). rewrite (children_again (R ++ T) R cs cs' NU M Hf). reflexivity.
    + intros X id HX Hid. cbn [mentioned scans] in *. rewrite in_app_iff. apply in_flat_map in HX. destruct HX as [c' [Hc' HX]]. destruct (children_scans _ _ _ M c' X id Hc' HX Hid) as [Y|Y]; [|right; right; apply in_flat_map; exists c'; tauto].
      apply HU in Y. destruct Y as [Y|Y]; [tauto|]. right. left. apply HF in Y. destruct j as [ks|f]; cbn [used]; [destruct Y as [k [Ik Ek]]; apply in_flat_map; exists k; cbn; intuition congruence|]. destruct Y as [cl [l [I1 [I2 I3]]]]. apply in_flat_map. exists l. split; [apply in_concat; exists cl; tauto|exact I3].
  - inversion B; subst. cbn [minimize]. rewrite (keep_columns_spec R false es S (fun _ => NR)) by assumption. set (mask := mask_of R false S). destruct (unions_spec (pick mask es) [] (NoDup_nil _)) as [F [EF [NF HF]]]. cbn [fst snd]. rewrite EF. cbn [app] in *.
    destruct es as [|e0 es]; [congruence|]. remember (e0 :: es) as es' eqn:Ees. match goal with X : forall e, In e es' -> _ |- _ => rename X into HRd end.
    assert (HI : incl F (sch c)) by (intros x Hx; apply HF in Hx; destruct Hx as [[]|[e [I1 I2]]]; apply (HRd e); [eapply pick_in, I1|exact I2]).
    destruct (IH F) as [c' [Ec M]]; try assumption. rewrite Ec, (searchable_ok _ (sch c') (m_nodup _ _ _ M)). eexists. split; [reflexivity|]. constructor; cbn [sch pipe based straight]; auto using incl_refl.
    + constructor; [apply M|]. intros e He x Hx. apply (m_pipe _ _ _ M), (m_has _ _ _ M), HF. right. exists e. tauto.
    + unfold mask. rewrite pick_mask. intros x Hx. apply filter_In. split; [auto|apply mem_in, Hx].
    + apply pick_in.
    + apply pick_nodup, NS.
    + intros [].
    + intros _. exists []. cbn [sch pipe]. rewrite app_nil_r. reflexivity.
    + intros ->. unfold mask. rewrite pick_mask. apply filter_all. intros x Hx. apply mem_in, Hx.
    + intros [Hf1 Hf2]. cbn [minimize]. rewrite (keep_columns_spec R false _ _ (fun _ => NR)) by (apply pick_length; assumption). unfold mask in *. rewrite !pick_again by (assumption || reflexivity). cbn [fst snd]. rewrite EF.
      rewrite (m_again _ _ _ M Hf2), (searchable_ok _ (sch c') (m_nodup _ _ _ M)). destruct (pick (mask_of R false S) es'); [congruence|reflexivity].
    + intros X id HX Hid. cbn [mentioned scans used] in *. rewrite in_app_iff. destruct (m_scans _ _ _ M X id HX Hid) as [Y|Y]; [|tauto]. right. left. apply HF in Y. destruct Y as [[]|[e [I1 I2]]]. apply in_flat_map. exists e. tauto.
  - inversion B; subst. cbn [minimize]. rewrite (keep_columns_spec R false es S (fun _ => NR)) by assumption. set (mask := mask_of R false S). destruct (unions_spec (pick mask es) [] (NoDup_nil _)) as [F [EF [NF HF]]]. cbn [fst snd]. rewrite EF. cbn [app] in *.
    destruct es as [|e0 es]; [congruence|]. eexists. split; [reflexivity|]. constructor; cbn [sch pipe based straight]; auto using incl_refl.
    + constructor.
    + unfold mask. rewrite pick_mask. intros x Hx. apply filter_In. split; [auto|apply mem_in, Hx].
    + apply pick_in.
    + apply pick_nodup, NS.
    + intros [].
    + intros _. exists []. cbn [sch pipe]. rewrite app_nil_r. reflexivity.
    + intros ->. unfold mask. rewrite pick_mask. apply filter_all. intros x Hx. apply mem_in, Hx.
    + intros Hf1. cbn [minimize full] in *. rewrite (keep_columns_spec R false _ _ (fun _ => NR)) by (apply pick_length; assumption). unfold mask in *. rewrite !pick_again by (assumption || reflexivity). cbn [fst snd]. rewrite EF.
      destruct (pick (mask_of R false S) (e0 :: es)); [congruence|reflexivity].
    + intros X id [].
  - inversion B; subst. cbn [minimize]. destruct (IH R) as [c' [Ec M]]; try assumption. rewrite Ec. eexists. split; [reflexivity|]. pose proof M as M'. destruct M. constructor; cbn [sch pipe based straight]; auto; [constructor; assumption|]. intros Hf. cbn [minimize full] in *. rewrite (m_again _ _ _ M' Hf). reflexivity.
  - inversion B; subst. cbn [minimize]. match goal with X : forall e, In e ks -> _ |- _ => rename X into HK end. match goal with X : forall a e, In a aggs -> _ |- _ => rename X into HA end.
    destruct (unions_spec ks [] (NoDup_nil _)) as [F [EF [NF HF]]]. rewrite EF. cbn [app] in *. rewrite (keep_aggs_spec R false aggs _ (fun _ => NR) NS) by (intros x Hx; apply in_or_app; right; exact Hx).
    set (mask := mask_of R false (map agg_id aggs)). destruct (unions_spec (flat_map agg_args (pick mask aggs)) F NF) as [T [EU [NU HU]]]. rewrite EU.
    assert (HI : incl (F ++ T) (sch c)).
    { intros x Hx. apply HU in Hx. destruct Hx as [Hx|[e [I1 I2]]]; [apply HF in Hx; destruct Hx as [[]|[e [I1 I2]]]; apply (HK e); assumption|]. apply in_flat_map in I1. destruct I1 as [a [I0 I1]]. apply (HA a e); [eapply pick_in, I0|exact I1|exact I2]. }
    destruct (IH (F ++ T)) as [c' [Ec M]]; try assumption. rewrite Ec, (searchable_ok _ (sch c') (m_nodup _ _ _ M)). eexists. split; [reflexivity|].
    replace (length ks) with (length N) by congruence. rewrite firstn_app, Nat.sub_diag, firstn_O, app_nil_r, firstn_all. constructor; cbn [sch pipe based straight]; auto using incl_refl.
    + constructor; [apply M|apply (m_straight _ _ _ M); assumption| | |unfold mask; rewrite mask_length, map_length; reflexivity].
      * intros e He x Hx. apply (m_has _ _ _ M), HU. left. apply HF. right. exists e. tauto.
      * intros a e Ia He x Hx. apply (m_has _ _ _ M), HU. right. exists e. split; [apply in_flat_map; exists a; tauto|exact Hx].
    + intros x Hx. apply in_or_app. rewrite <- pick_map. unfold mask. rewrite pick_mask. specialize (HR x Hx). apply in_app_or in HR. destruct HR as [HR|HR]; [left; exact HR|right; apply filter_In; split; [exact HR|apply mem_in, Hx]].
    + intros x Hx. apply in_app_or in Hx. apply in_or_app. destruct Hx as [Hx|Hx]; [left; exact Hx|right]. rewrite <- pick_map in Hx. apply pick_in in Hx. exact Hx.
    + rewrite <- pick_map. clear - NS. revert NS. generalize (map agg_id aggs). induction N as [|x l IH]; intros m NS; cbn in *; [apply pick_nodup, NS|]. inversion NS; subst. constructor; [|apply IH; assumption]. intros X. apply H1. apply in_app_or in X. apply in_or_app. destruct X as [X|X]; [left; exact X|right; apply pick_in in X; exact X].
    + intros [].
    + intros _. exists []. cbn [sch pipe]. rewrite app_nil_r. reflexivity.
    + intros ->. f_equal. rewrite <- pick_map. unfold mask. rewrite pick_mask. apply filter_all. intros x Hx. apply mem_in, in_or_app. right. exact Hx.
    + intros Hf. cbn [minimize full] in *. rewrite EF. rewrite (keep_aggs_spec R false _ _ (fun _ => NR)).
      * unfold mask in *. rewrite <- pick_map, (pick_again R (map agg_id aggs) aggs) by (rewrite map_length; reflexivity). rewrite EU. assert (FN : forall m, firstn (length ks) (N ++ m) = N) by (intros m; replace (length ks) with (length N) by congruence; rewrite firstn_app, Nat.sub_diag, firstn_O, app_nil_r, firstn_all; reflexivity). rewrite !FN.
        rewrite (m_again _ _ _ M Hf), (searchable_ok _ (sch c') (m_nodup _ _ _ M)). rewrite pick_map. reflexivity.
      * rewrite <- pick_map. clear - NS. revert NS. generalize (map agg_id aggs). induction N as [|x l IH]; intros m NS; cbn in *; [apply pick_nodup, NS|]. inversion NS; subst. constructor; [|apply IH; assumption]. intros X. apply H1. apply in_app_or in X. apply in_or_app. destruct X as [X|X]; [left; exact X|right; apply pick_in in X; exact X].
      * intros x Hx. apply in_or_app. right. exact Hx.
    + intros X id HX Hid. cbn [mentioned scans used] in *. rewrite in_app_iff. destruct (m_scans _ _ _ M X id HX Hid) as [Y|Y]; [|tauto]. right. left. apply HU in Y. apply in_flat_map. destruct Y as [Y|[e [I1 I2]]]; [apply HF in Y; destruct Y as [[]|[e [I1 I2]]]|]; exists e; (split; [apply in_or_app; tauto|exact I2]).
  - inversion B; subst. cbn [minimize]. match goal with X : forall a e, In a aggs -> _ |- _ => rename X into HA end. destruct aggs as [|a0 aggs]; [congruence|]. remember (a0 :: aggs) as ags eqn:Eags.
    rewrite (keep_aggs_spec R false ags _ (fun _ => NR) NS) by apply incl_refl. set (mask := mask_of R false (map agg_id ags)). destruct (unions_spec (flat_map agg_args (pick mask ags)) [] (NoDup_nil _)) as [T [EU [NU HU]]]. rewrite EU. cbn [app] in *.
    assert (HI : incl T (sch c)).
    { intros x Hx. apply HU in Hx. destruct Hx as [[]|[e [I1 I2]]]. apply in_flat_map in I1. destruct I1 as [a [I0 I1]]. apply (HA a e); [eapply pick_in, I0|exact I1|exact I2]. }
    destruct (IH T) as [c' [Ec M]]; try assumption. rewrite Ec. eexists. split; [reflexivity|]. constructor; cbn [sch pipe based straight]; auto using incl_refl.
    + constructor; [apply M|apply (m_straight _ _ _ M); assumption| |unfold mask; rewrite mask_length, map_length; reflexivity].
      intros a e Ia He x Hx. apply (m_has _ _ _ M), HU. right. exists e. split; [apply in_flat_map; exists a; tauto|exact Hx].
    + intros x Hx. rewrite <- pick_map. unfold mask. rewrite pick_mask. apply filter_In. split; [auto|apply mem_in, Hx].
    + rewrite <- pick_map. apply pick_in.
    + rewrite <- pick_map. apply pick_nodup, NS.
    + intros [].
    + intros _. exists []. cbn [sch pipe]. rewrite app_nil_r. reflexivity.
    + intros ->. rewrite <- pick_map. unfold mask. rewrite pick_mask. apply filter_all. intros x Hx. apply mem_in, Hx.
    + intros [Hf1 Hf]. cbn [minimize]. rewrite (keep_aggs_spec R false _ _ (fun _ => NR)); [|rewrite <- pick_map; apply pick_nodup, NS|apply incl_refl].
      unfold mask in *. rewrite <- !pick_map, (pick_again R (map agg_id ags) ags), (pick_again R (map agg_id ags) (map agg_id ags)) by (rewrite ?map_length; reflexivity). rewrite EU, (m_again _ _ _ M Hf). destruct (pick (mask_of R false (map agg_id ags)) ags); [congruence|reflexivity].
    + intros X id HX Hid. cbn [mentioned scans used] in *. rewrite in_app_iff. destruct (m_scans _ _ _ M X id HX Hid) as [Y|Y]; [|tauto]. right. left. apply HU in Y. destruct Y as [[]|[e [I1 I2]]]. apply in_flat_map. exists e. tauto.
  - inversion B; subst. cbn [minimize]. destruct (unions_spec (map fst order) [] (NoDup_nil _)) as [F [EF [NF HF]]]. rewrite EF. cbn [app] in *. rewrite (insist_ok R (sch c) NR NS HR). cbn [negb].
    destruct (union_spec F R NR) as [T [EU [NU HU]]]. rewrite EU. match goal with X : forall o, In o order -> _ |- _ => rename X into HRd end.
    assert (HI : incl (R ++ T) (sch c)) by (intros x Hx; apply HU in Hx; destruct Hx as [Hx|Hx]; [auto|]; apply HF in Hx; destruct Hx as [[]|[e [I1 I2]]]; apply in_map_iff in I1; destruct I1 as [o [<- I1]]; apply (HRd o I1), I2).
    destruct (IH (R ++ T)) as [c' [Ec M]]; try assumption. rewrite Ec, (searchable_ok R (sch c') (m_nodup _ _ _ M)). eexists. split; [reflexivity|].
    assert (RC : incl R (sch c')) by (intros x Hx; apply (m_has _ _ _ M), in_or_app; left; exact Hx).
    constructor; cbn [sch pipe based straight]; auto using incl_refl.
    + constructor; [apply M|]. intros o I1 x Hx. apply (m_pipe _ _ _ M), (m_has _ _ _ M), HU. right. apply HF. right. exists (fst o). split; [apply in_map, I1|exact Hx].
    + intros x Hx. apply (m_pipe _ _ _ M), RC, Hx.
    + intros Hb. split; [reflexivity|]. destruct (m_based _ _ _ M Hb) as [_ [t Et]]. exists (T ++ t). rewrite Et, app_assoc. reflexivity.
    + intros Hb. destruct (m_based _ _ _ M Hb) as [_ [t Et]]. exists (T ++ t). cbn [sch pipe]. rewrite Et, app_assoc. reflexivity.
    + intros ->. apply (m_all _ _ _ M). rewrite (incl_nil_eq _ _ NU HI). apply app_nil_r.
    + intros Hf. cbn [minimize full] in *. rewrite EF, (insist_ok R R NR NR (incl_refl R)), EU, (m_again _ _ _ M Hf), (searchable_ok R (sch c') (m_nodup _ _ _ M)). reflexivity.
    + intros X id HX Hid. cbn [mentioned scans used] in *. rewrite in_app_iff. destruct (m_scans _ _ _ M X id HX Hid) as [Y|Y]; [|tauto]. apply HU in Y. destruct Y as [Y|Y]; [tauto|]. right. left. apply HF in Y. destruct Y as [[]|[e [I1 I2]]]. apply in_map_iff in I1. destruct I1 as [k [<- I1]]. apply in_flat_map. exists k. tauto.
Qed.
(** ** the top of the plan *)
Notation good := (good text fn_sem un_sem bin_sem truth).
Lemma good_names o o' : built false o -> narrow o o' -> pipe o' = sch o -> good (map snd) o o'.
Proof.
  intros B HN EP. destruct (narrow_sound text fn_sem un_sem bin_sem truth o o' B HN) as [p' [E [SM SF]]]. exists p'. split; [exact E|]. split; [|exact SF].
  intros l' A. destruct (SM l' A) as [l [A0 ->]]. exists l. split; [exact A0|]. apply map_ext_in. intros r Hr. rewrite EP. rewrite <- (row_names text fn_sem un_sem bin_sem truth o false B l r A0 Hr). apply view_names.
  rewrite (row_names text fn_sem un_sem bin_sem truth o false B l r A0 Hr). apply built_nodup, B.
Qed.
Lemma snd_combine {A B} (l : list A) (m : list B) : length m = length l -> map snd (combine l m) = m.
Proof. revert m. induction l as [|x l IH]; intros [|y m] H; cbn in *; try discriminate; [reflexivity|]. f_equal. apply IH. lia. Qed.
Lemma pick_top {A} R (S : schema) (es : list A) : length es = length S -> pick (mask_of R true S) es = es.
Proof. intros L. apply pick_all; [rewrite mask_length; symmetry; exact L|]. intros b Hb. unfold mask_of in Hb. apply in_map_iff in Hb. destruct Hb as [x [<- _]]. reflexivity. Qed.
Lemma mask_top R S : mask_of R true S = map (fun _ => true) S. Proof. reflexivity. Qed.

Lemma minimize_top o : forall R, built true o -> exists o', minimize R true o = Some o' /\ sch o' = sch o /\ good (map snd) o o' /\ (full o' -> forall R', minimize R' true o' = Some o') /\
  forall X id, In X (scans o') -> In id X -> In id (shown o) \/ In id (mentioned o').
Proof.
  induction o as [T rows S|d f S c IH|j S cs IH|es S c IH|es S|a b S c IH|ks aggs S c IH|aggs S c IH|order S c IH] using op_ind2; intros R B; cbn [sch].
  - inversion B; subst. cbn [minimize]. eexists. split; [reflexivity|]. split; [reflexivity|]. split; [|split; [reflexivity|intros X id [<-|[]] Hid; left; exact Hid]]. apply good_names; [constructor; assumption|constructor; [assumption|apply incl_refl]|reflexivity].
  - inversion B; subst. cbn [minimize]. match goal with X : built false c |- _ => rename X into Bc end. pose proof (built_nodup c Bc) as NS. destruct (minimize_ok c (sch c) Bc NS (incl_refl _)) as [c' [Ec M]]. rewrite Ec, (searchable_ok _ (sch c') (m_nodup _ _ _ M)).
    eexists. split; [reflexivity|]. split; [reflexivity|]. split.
    + apply good_names; [constructor; assumption| |apply (m_all _ _ _ M eq_refl)]. constructor; [apply M|]. intros cl l I1 I2 x Hx. apply (m_pipe _ _ _ M), (m_has _ _ _ M). match goal with X : forall cl l, In cl f -> _ |- _ => apply (X cl l I1 I2), Hx end.
    + split; [intros Hf R'; cbn [minimize full] in *; rewrite (m_again _ _ _ M Hf), (searchable_ok _ (sch c') (m_nodup _ _ _ M)); reflexivity|intros X id HX Hid; cbn [mentioned scans used shown] in *; rewrite in_app_iff; destruct (m_scans _ _ _ M X id HX Hid) as [Y|Y]; [tauto|tauto]].
  - destruct (built_children text fn_sem un_sem bin_sem truth _ _ _ _ B) as [BB [-> [ND [HST [_ HJ]]]]]. cbn [minimize]. destruct (j_required_spec j) as [F [EF [NF HF]]]. rewrite EF. cbn [negb]. fold (min_list (flat_map sch cs) (flat_map sch cs)).
    destruct (min_children (flat_map sch cs) (flat_map sch cs) cs) as [cs' [Ec M]]; [clear; apply Forall_forall; intros o _ R0; apply minimize_ok|assumption|assumption|]. rewrite Ec. destruct (children_mini _ _ _ M (incl_refl _) HST) as [M1 [M2 [M3 M4]]].
    eexists. split; [reflexivity|]. split; [reflexivity|]. split.
    + apply good_names; [inversion B; subst; [apply b_theta|apply b_equi]; assumption| |reflexivity]. constructor; try assumption. intros id Hid. apply M2, HJ, Hid.
    + split; [intros Hf R'; apply full_children in Hf; cbn [minimize]; rewrite EF; cbn [negb]; fold (min_list (flat_map sch cs) (flat_map sch cs)); rewrite (children_again _ _ cs cs' ND M Hf); reflexivity|intros X id HX Hid; cbn [mentioned scans shown] in *; rewrite in_app_iff; apply in_flat_map in HX; destruct HX as [c' [Hc' HX]]; destruct (children_scans _ _ _ M c' X id Hc' HX Hid) as [Y|Y]; [left; exact Y|right; right; apply in_flat_map; exists c'; tauto]].
  - inversion B; subst. cbn [minimize]. rewrite (keep_columns_spec R true es S) by (assumption || discriminate). rewrite !pick_top by (assumption || reflexivity). cbn [fst snd]. match goal with X : built false c |- _ => rename X into Bc end. match goal with X : forall e, In e es -> _ |- _ => rename X into HRd end.
    destruct (unions_spec es [] (NoDup_nil _)) as [F [EF [NF HF]]]. rewrite EF. cbn [app] in *. assert (HI : incl F (sch c)) by (intros x Hx; apply HF in Hx; destruct Hx as [[]|[e [I1 I2]]]; apply (HRd e); assumption).
    destruct (minimize_ok c F Bc NF HI) as [c' [Ec M]]. rewrite Ec, (searchable_ok _ (sch c') (m_nodup _ _ _ M)). destruct es as [|e0 es]; [congruence|]. remember (e0 :: es) as es' eqn:Ees. eexists. split; [reflexivity|]. split; [reflexivity|]. split.
    + destruct (narrow_sound text fn_sem un_sem bin_sem truth c c' Bc (m_narrow _ _ _ M)) as [p [E [SM SF]]]. destruct (pipe_ok text fn_sem un_sem bin_sem truth c c' Bc (m_narrow _ _ _ M)) as [Pi Pn]. unfold MinimizeSound.good. cbn [Minimize.lower MinimizeSpec.by_name]. rewrite E.
      destruct (list_ok fn_sem un_sem bin_sem (Q fn_sem un_sem bin_sem truth c (pipe c')) (emit text fn_sem un_sem bin_sem (pipe c')) es') as [gs [Eg V]].
      { intros e He. apply emit_right; try assumption; [|apply HRd, He]. intros x Hx. apply (m_pipe _ _ _ M), (m_has _ _ _ M), HF. right. exists e. tauto. }
      rewrite Eg. eexists. split; [reflexivity|]. split; [|intros u Hs; inversion Hs; subst; constructor; apply SF; assumption].
      apply (sim_project (view (pipe c'))); [exact SM|]. intros l r A Hr. rewrite snd_combine by (rewrite map_length; assumption).
      assert (Hq : Q fn_sem un_sem bin_sem truth c (pipe c') (view (pipe c') r) r) by (apply q_view; exists l; tauto). clear - V Hq. induction V as [|e g es0 gs0 H V IH]; cbn [map]; [reflexivity|]. rewrite (H _ _ Hq), IH. reflexivity.
    + split; [intros [Hf1 Hf] R'; cbn [minimize]; rewrite (keep_columns_spec R' true es' S) by (assumption || discriminate); rewrite !pick_top by (assumption || reflexivity); cbn [fst snd]; rewrite EF, (m_again _ _ _ M Hf), (searchable_ok _ (sch c') (m_nodup _ _ _ M)); rewrite Ees; reflexivity|intros X id HX Hid; cbn [mentioned scans used shown] in *; rewrite in_app_iff; destruct (m_scans _ _ _ M X id HX Hid) as [Y|Y]; [right; left; apply HF in Y; destruct Y as [[]|[e [I1 I2]]]; apply in_flat_map; exists e; tauto|tauto]].
  - inversion B; subst. cbn [minimize]. rewrite (keep_columns_spec R true es S) by (assumption || discriminate). rewrite !pick_top by (assumption || reflexivity). cbn [fst snd]. match goal with X : forall e, In e es -> _ |- _ => rename X into HRd end.
    destruct (unions_spec es [] (NoDup_nil _)) as [F [EF [NF HF]]]. rewrite EF. destruct es as [|e0 es]; [congruence|]. remember (e0 :: es) as es' eqn:Ees. eexists. split; [reflexivity|]. split; [reflexivity|]. split.
    + unfold MinimizeSound.good. cbn [Minimize.lower MinimizeSpec.by_name].
      destruct (list_ok fn_sem un_sem bin_sem (fun (x : row) (r : nrow) => True /\ exists y, x = view [] r ++ y) (emit text fn_sem un_sem bin_sem []) es') as [gs [Eg V]].
      { intros e He. apply (emit_ok text fn_sem un_sem bin_sem truth [] e (fun _ => True)); [constructor| |intros _ []]. rewrite (HRd e He). intros x []. }
      rewrite Eg. eexists. split; [reflexivity|]. split; [|intros; constructor]. clear Ees. intros l' A. inversion A; subst. eexists. split; [constructor|]. cbn [map]. f_equal. rewrite snd_combine by (rewrite map_length; assumption).
      clear - V. induction V as [|e g es0 gs0 H V IH]; cbn [map]; [reflexivity|]. rewrite (H [] []), IH; [reflexivity|]. split; [exact I|]. exists []. reflexivity.
    + split; [intros Hf R'; cbn [minimize]; rewrite (keep_columns_spec R' true es' S) by (assumption || discriminate); rewrite !pick_top by (assumption || reflexivity); cbn [fst snd]; rewrite EF, Ees; reflexivity|intros X id []].
  - inversion B; subst. cbn [minimize]. match goal with X : built true c |- _ => rename X into Bc end. destruct (IH R Bc) as [c' [Ec [Es [[p [E [SM SF]]] [HA HSc]]]]]. rewrite Ec. eexists. split; [reflexivity|]. split; [exact Es|]. split.
    + unfold MinimizeSound.good. cbn [Minimize.lower MinimizeSpec.by_name]. rewrite E. eexists. split; [reflexivity|]. split; [apply sim_limit, SM|]. intros u Hs. inversion Hs; subst. constructor; [assumption|]. apply SF. assumption.
    + split; [intros Hf R'; cbn [minimize full] in *; rewrite (HA Hf R'); reflexivity|exact HSc].
  - inversion B; subst. cbn [minimize]. match goal with X : forall e, In e ks -> _ |- _ => rename X into HK end. match goal with X : forall a e, In a aggs -> _ |- _ => rename X into HA end. match goal with X : built false c |- _ => rename X into Bc end. match goal with X : NoDup (N ++ _) |- _ => rename X into NS end.
    destruct (unions_spec ks [] (NoDup_nil _)) as [F [EF [NF HF]]]. rewrite EF. cbn [app] in *.
    assert (KA : forall R0, keep_aggs R0 true aggs (N ++ map agg_id aggs) = Some aggs) by (intros R0; rewrite (keep_aggs_spec R0 true aggs) by (discriminate || assumption || (intros x Hx; apply in_or_app; right; exact Hx)); rewrite pick_top by (rewrite map_length; reflexivity); reflexivity). rewrite KA.
    destruct (unions_spec (flat_map agg_args aggs) F NF) as [T [EU [NU HU]]]. rewrite EU.
    assert (HI : incl (F ++ T) (sch c)).
    { intros x Hx. apply HU in Hx. destruct Hx as [Hx|[e [I1 I2]]]; [apply HF in Hx; destruct Hx as [[]|[e [I1 I2]]]; apply (HK e); assumption|]. apply in_flat_map in I1. destruct I1 as [a [I0 I1]]. apply (HA a e); assumption. }
    destruct (minimize_ok c (F ++ T) Bc NU HI) as [c' [Ec M]]. rewrite Ec, (searchable_ok _ (sch c') (m_nodup _ _ _ M)).
    assert (FN : forall m, firstn (length ks) (N ++ m) = N) by (intros m; replace (length ks) with (length N) by congruence; rewrite firstn_app, Nat.sub_diag, firstn_O, app_nil_r, firstn_all; reflexivity). rewrite !FN. eexists. split; [reflexivity|]. split; [reflexivity|]. split.
    + apply good_names; [constructor; assumption| |reflexivity]. pose proof (n_group ks aggs N c c' (mask_of R true (map agg_id aggs))) as G. rewrite (pick_top R (map agg_id aggs) aggs) in G by (rewrite map_length; reflexivity). apply G; [apply M|apply (m_straight _ _ _ M); assumption| | |rewrite mask_length, map_length; reflexivity].
      * intros e He x Hx. apply (m_has _ _ _ M), HU. left. apply HF. right. exists e. tauto.
      * intros a e Ia He x Hx. apply (m_has _ _ _ M), HU. right. exists e. split; [apply in_flat_map; exists a; tauto|exact Hx].
    + split; [intros Hf R'; cbn [minimize full] in *; rewrite EF, KA, EU, (m_again _ _ _ M Hf), (searchable_ok _ (sch c') (m_nodup _ _ _ M)), !FN; reflexivity|intros X id HX Hid; cbn [mentioned scans used shown] in *; rewrite in_app_iff; destruct (m_scans _ _ _ M X id HX Hid) as [Y|Y]; [right; left; apply HU in Y; apply in_flat_map; destruct Y as [Y|[e [I1 I2]]]; [apply HF in Y; destruct Y as [[]|[e [I1 I2]]]|]; exists e; (split; [apply in_or_app; tauto|exact I2])|tauto]].
  - inversion B; subst. cbn [minimize]. match goal with X : forall a e, In a aggs -> _ |- _ => rename X into HA end. match goal with X : built false c |- _ => rename X into Bc end. match goal with X : NoDup (map agg_id aggs) |- _ => rename X into NS end.
    assert (KA : forall R0, keep_aggs R0 true aggs (map agg_id aggs) = Some aggs) by (intros R0; rewrite (keep_aggs_spec R0 true aggs) by (discriminate || assumption || apply incl_refl); rewrite pick_top by (rewrite map_length; reflexivity); reflexivity). rewrite KA.
    destruct (unions_spec (flat_map agg_args aggs) [] (NoDup_nil _)) as [T [EU [NU HU]]]. rewrite EU. cbn [app] in *.
    assert (HI : incl T (sch c)).
    { intros x Hx. apply HU in Hx. destruct Hx as [[]|[e [I1 I2]]]. apply in_flat_map in I1. destruct I1 as [a [I0 I1]]. apply (HA a e); assumption. }
    destruct (minimize_ok c T Bc NU HI) as [c' [Ec M]]. rewrite Ec. destruct aggs as [|a0 aggs]; [congruence|]. remember (a0 :: aggs) as ags eqn:Eags. eexists. split; [reflexivity|]. split; [reflexivity|]. split.
    + apply good_names; [constructor; assumption| |reflexivity]. pose proof (n_aggregate ags c c' (mask_of R true (map agg_id ags))) as G. rewrite (pick_top R (map agg_id ags) ags) in G by (rewrite map_length; reflexivity). apply G; [apply M|apply (m_straight _ _ _ M); assumption| |rewrite mask_length, map_length; reflexivity].
      intros a e Ia He x Hx. apply (m_has _ _ _ M), HU. right. exists e. split; [apply in_flat_map; exists a; tauto|exact Hx].
    + split; [intros [Hf1 Hf] R'; cbn [minimize full] in *; rewrite KA, EU, (m_again _ _ _ M Hf); rewrite Eags; reflexivity|intros X id HX Hid; cbn [mentioned scans used shown] in *; rewrite in_app_iff; destruct (m_scans _ _ _ M X id HX Hid) as [Y|Y]; [right; left; apply HU in Y; destruct Y as [[]|[e [I1 I2]]]; apply in_flat_map; exists e; tauto|tauto]].
  - inversion B; subst. cbn [minimize]. match goal with X : built false c |- _ => rename X into Bc end. pose proof (built_nodup c Bc) as NS. destruct (minimize_ok c (sch c) Bc NS (incl_refl _)) as [c' [Ec M]]. rewrite Ec, (searchable_ok _ (sch c') (m_nodup _ _ _ M)).
    eexists. split; [reflexivity|]. split; [reflexivity|]. split.
    + apply good_names; [constructor; assumption| |apply (m_all _ _ _ M eq_refl)]. constructor; [apply M|]. intros o I1 x Hx. apply (m_pipe _ _ _ M), (m_has _ _ _ M). match goal with X : forall o, In o order -> _ |- _ => apply (X o I1), Hx end.
    + split; [intros Hf R'; cbn [minimize full] in *; rewrite (m_again _ _ _ M Hf), (searchable_ok _ (sch c') (m_nodup _ _ _ M)); reflexivity|intros X id HX Hid; cbn [mentioned scans used shown] in *; rewrite in_app_iff; destruct (m_scans _ _ _ M X id HX Hid) as [Y|Y]; [tauto|tauto]].
Qed.
(** ** without minimization *)
Lemma whole o : forall top, built top o -> pipe o = sch o.
Proof.
  induction o as [T rows S|d f S c IH|j S cs IH|es S c IH|es S|a b S c IH|ks aggs S c IH|aggs S c IH|order S c IH] using op_ind2; intros top B; inversion B; subst; cbn [sch pipe]; try reflexivity; eapply IH; eassumption.
Qed.
Lemma narrow_itself o : built false o -> narrow o o.
Proof.
  induction o as [T rows S|d f S c IH|j S cs IH|es S c IH|es S|a b S c IH|ks aggs S c IH|aggs S c IH|order S c IH] using op_ind2; intros B.
  - inversion B; subst. constructor; [assumption|apply incl_refl].
  - inversion B; subst. constructor; [auto|]. intros cl l I1 I2. rewrite (whole c false) by assumption. match goal with X : forall cl l, In cl f -> _ |- _ => apply (X cl l I1 I2) end.
  - destruct (built_children text fn_sem un_sem bin_sem truth _ _ _ _ B) as [BB [-> [ND [HST [_ HJ]]]]].
    assert (W : Forall (fun c => pipe c = sch c) cs) by (apply Forall_forall; intros c Hc; rewrite Forall_forall in BB; apply (whole c false), BB, Hc).
    constructor; try assumption; [|apply incl_refl| |].
    + clear - IH BB. induction IH as [|c cs H F IHf]; constructor; inversion BB; subst; auto.
    + apply Forall_forall. intros c Hc. exists []. rewrite app_nil_r. rewrite Forall_forall in W. apply W. clear - Hc. induction cs as [|x cs IHc]; [destruct Hc|]. cbn [removelast] in Hc. destruct cs; [destruct Hc|]. destruct Hc as [->|Hc]; [left; reflexivity|right; apply IHc, Hc].
    + apply Forall_forall. intros c Hc. rewrite Forall_forall in W. rewrite (W c Hc). apply incl_refl.
  - inversion B; subst. pose proof (n_project es S c c (mask_of [] true S)) as G. rewrite !pick_top in G by (assumption || reflexivity). apply G; [auto|]. intros e He. rewrite (whole c false) by assumption. match goal with X : forall e, In e es -> _ |- _ => apply (X e He) end.
  - inversion B; subst. pose proof (n_once es S (mask_of [] true S)) as G. rewrite !pick_top in G by (assumption || reflexivity). exact G.
  - inversion B; subst. constructor. auto.
  - inversion B; subst. pose proof (n_group ks aggs N c c (mask_of [] true (map agg_id aggs))) as G. rewrite !(pick_top [] (map agg_id aggs) aggs) in G by (rewrite map_length; reflexivity).
    apply G; [auto|exists []; rewrite app_nil_r; apply (whole c false); assumption| | |rewrite mask_length, map_length; reflexivity]; intros; match goal with X : forall e, In e ks -> _, Y : forall a e, In a aggs -> _ |- _ => (eapply X; eassumption) || (eapply Y; eassumption) end.
  - inversion B; subst. pose proof (n_aggregate aggs c c (mask_of [] true (map agg_id aggs))) as G. rewrite !(pick_top [] (map agg_id aggs) aggs) in G by (rewrite map_length; reflexivity).
    apply G; [auto|exists []; rewrite app_nil_r; apply (whole c false); assumption| |rewrite mask_length, map_length; reflexivity]; intros; match goal with Y : forall a e, In a aggs -> _ |- _ => eapply Y; eassumption end.
  - inversion B; subst. constructor; [auto|]. intros o I1. rewrite (whole c false) by assumption. match goal with X : forall o, In o order -> _ |- _ => apply (X o I1) end.
Qed.
Lemma good_itself o : built true o -> good (map snd) o o.
Proof.
  induction o as [T rows S|d f S c IH|j S cs IH|es S c IH|es S|a b S c IH|ks aggs S c IH|aggs S c IH|order S c IH] using op_ind2; intros B;
    try (assert (B' : built false (OScan T rows S)) by (inversion B; subst; constructor; assumption)); try (assert (B' : built false (OFilter d f S c)) by (inversion B; subst; constructor; assumption));
    try (assert (B' : built false (OJoin j S cs)) by (inversion B; subst; [apply b_theta|apply b_equi]; assumption)); try (assert (B' : built false (OGroup ks aggs S c)) by (inversion B; subst; constructor; assumption));
    try (assert (B' : built false (OAggregate aggs S c)) by (inversion B; subst; constructor; assumption)); try (assert (B' : built false (OSort order S c)) by (inversion B; subst; constructor; assumption));
    try (apply good_names; [exact B'|apply narrow_itself, B'|apply (whole _ false), B']).
  - inversion B; subst. match goal with X : built false c |- _ => rename X into Bc end. match goal with X : forall e, In e es -> _ |- _ => rename X into HRd end.
    destruct (narrow_sound text fn_sem un_sem bin_sem truth c c Bc (narrow_itself c Bc)) as [p [E [SM SF]]]. pose proof (whole c false Bc) as W. unfold MinimizeSound.good. cbn [Minimize.lower MinimizeSpec.by_name]. rewrite E.
    destruct (list_ok fn_sem un_sem bin_sem (Q fn_sem un_sem bin_sem truth c (pipe c)) (emit text fn_sem un_sem bin_sem (pipe c)) es) as [gs [Eg V]].
    { intros e He. apply emit_right; rewrite ?W; [apply built_nodup, Bc|apply incl_refl|apply HRd, He|apply HRd, He]. }
    rewrite Eg. eexists. split; [reflexivity|]. split; [|intros u Hs; inversion Hs; subst; constructor; apply SF; assumption].
    apply (sim_project (view (pipe c))); [exact SM|]. intros l r A Hr. rewrite snd_combine by (rewrite map_length; assumption).
    assert (Hq : Q fn_sem un_sem bin_sem truth c (pipe c) (view (pipe c) r) r) by (apply q_view; exists l; tauto). clear - V Hq. induction V as [|e g es0 gs0 H V IH]; cbn [map]; [reflexivity|]. rewrite (H _ _ Hq), IH. reflexivity.
  - destruct (minimize_top (OOnce es S) [] B) as [o' [E [_ [G _]]]]. replace (OOnce es S) with o' at 2; [exact G|]. inversion B; subst. cbn [minimize] in E. rewrite (keep_columns_spec [] true es S) in E by (assumption || discriminate). rewrite !pick_top in E by (assumption || reflexivity).
    cbn [fst snd] in E. destruct (unions [] es); [|discriminate]. destruct es; [discriminate|]. congruence.
  - inversion B; subst. match goal with X : built true c |- _ => rename X into Bc end. destruct (IH Bc) as [p [E [SM SF]]]. unfold MinimizeSound.good. cbn [Minimize.lower MinimizeSpec.by_name]. rewrite E. eexists. split; [reflexivity|]. split; [apply sim_limit, SM|]. intros u Hs. inversion Hs; subst. constructor; [assumption|]. apply SF. assumption.
Qed.
End Proofs.
