(** * C55: plan tables. *)
From Coq Require Import NArith QArith List Bool Lia Arith Permutation.
From Verif Require Import Word WordProofs Bitset BitsetProofs PlanTable PlanTableSpec PlanTableProofs.
Import ListNotations.
Open Scope N_scope.

Lemma planned_dec {M} (f : @pmap M) S : {planned f S} + {~ planned f S}.
Proof.
  unfold planned. destruct (N.eq_dec (popcount S) 1); [left; left; assumption|].
  destruct (N.eq_dec (p_left (f S)) 0); [right; tauto|left; right; assumption].
Defined.

Section Props.
  Context {M : Type} (est : N -> N -> M -> M -> M) (cf : N -> N -> reader M) (n x : N).
  Notation B := (bound n x).

  Lemma impl_sim T (A : actual M T) t0 : n < 64 -> implementation n x T A t0 ->
    exists Rel, simulates n x A Rel /\ Rel t0 pm_empty.
  Proof.
    intros Hn H. destruct H.
    - exists (dense_rel n x). split; [apply (dense_simulates est), Hn|apply dense_new, Hn].
    - exists (sparse_rel n x). split; [apply sparse_simulates|apply sparse_new].
  Qed.
  Lemma reached_sim T (A : actual M T) t : n < 64 -> cost_within B cf -> reached est cf n x A t ->
    exists Rel f, simulates n x A Rel /\ Rel t f.
  Proof.
    intros Hn HB (t0 & R & p & r & Hi & Hw & E).
    destruct (impl_sim T A t0 Hn Hi) as (Rel & HS & H0).
    pose proof (sim_run est cf n x Hn HB A Rel HS p Hw t0 pm_empty H0) as H.
    rewrite E in H. destruct H as (f & _ & H). exists Rel, f. split; [exact HS|exact H].
  Qed.
  Lemma rel_holds T (A : actual M T) Rel t f : simulates n x A Rel -> Rel t f -> holds n x A t f.
  Proof. intros HS H s Hs. destruct (sim_get n x A Rel HS t f s H Hs) as (t' & E & _). exists t'. exact E. Qed.
  Lemma holds_rel T (A : actual M T) Rel t f g : simulates n x A Rel -> Rel t f -> holds n x A t g -> Rel t g.
  Proof.
    intros HS H Hg. apply (sim_ext n x A Rel HS t f g H). intros s Hs. destruct (Hg s Hs) as (t1 & E1).
    destruct (sim_get n x A Rel HS t f s H Hs) as (t2 & E2 & _). rewrite E1 in E2. inversion E2. congruence.
  Qed.
  Lemma reached_holds T (A : actual M T) t f : n < 64 -> cost_within B cf -> reached est cf n x A t -> holds n x A t f ->
    exists Rel, simulates n x A Rel /\ Rel t f.
  Proof.
    intros Hn HB HR Hf. destruct (reached_sim T A t Hn HB HR) as (Rel & g & HS & Hg). exists Rel. split; [exact HS|].
    exact (holds_rel T A Rel t g f HS Hg Hf).
  Qed.

End Props.

Section Update.
  Context {M : Type} (est : N -> N -> M -> M -> M) (cf : N -> N -> reader M).
  (** [update], characterized on maps. *)
  Lemma update_facts f l r f' : update_map est cf f l r = Some f' ->
    let S := N.lor l r in
    (forall s, s <> S -> f' s = f s) /\ p_model (f' S) = p_model (considered est f l r S) /\ p_model (f' S) <> None /\
    exists c1 c2, offers_of est cf f l r = [(c1, l, r); (c2, r, l)] /\ (planned f' S) /\
    let o := if dlt c2 c1 then (c2, r, l) else (c1, l, r) in
    ((planned f S /\ dlt (fst (fst o)) (p_cost (f S)) = false /\ plan (f' S) = plan (f S)) \/
     ((~ planned f S \/ dlt (fst (fst o)) (p_cost (f S)) = true) /\ plan (f' S) = o)).
  Proof.
    unfold update_map, offers_of, considered. destruct (N.eqb_spec l 0) as [|Hl]; [discriminate|].
    destruct (N.eqb_spec r 0) as [|Hr]; [discriminate|]. cbn [orb]. set (S := N.lor l r).
    intros H. cbv zeta.
    set (om := match p_model (f S) with Some m => Some m | None =>
      match p_model (f l), p_model (f r) with Some ml, Some mr => Some (est l r ml mr) | _, _ => None end end) in H.
    destruct om as [m|] eqn:Eom; [|discriminate]. subst om.
    set (f1 := pm_set S (with_model (Some m) (f S)) f) in H.
    set (g := match p_model (f S), p_model (f l), p_model (f r) with
      | None, Some ml, Some mr => pm_set S (PE (p_left (f S)) (p_right (f S)) (Some (est l r ml mr)) (p_cost (f S))) f
      | _, _, _ => f end).
    assert (Hg : forall s, f1 s = g s).
    { intros s. unfold f1, g. destruct (p_model (f S)) as [m'|] eqn:Em.
      - inversion Eom; subst m'. unfold pm_set. destruct (N.eqb_spec s S) as [->|]; [|reflexivity].
        apply with_model_id. exact Em.
      - destruct (p_model (f l)); [|discriminate]. destruct (p_model (f r)); [|discriminate]. inversion Eom; subst. reflexivity. }
    assert (Hv : forall rd, value rd f1 = value rd g).
    { induction rd as [c|s k IH|]; cbn [value]; [reflexivity| |reflexivity]. rewrite (Hg s). apply IH. }
    rewrite !Hv in H. destruct (value (cf l r) g) as [c1|]; [|discriminate]. destruct (value (cf r l) g) as [c2|]; [|discriminate].
    assert (Hm1 : p_model (g S) = Some m).
    { rewrite <- Hg. unfold f1. rewrite pm_set_same. reflexivity. }
    assert (Hhp : forall hp, pm_has_plan S f = Ok hp -> (hp = true <-> planned f S)).
    { intros hp. unfold pm_has_plan, entry_has_plan, planned, sbs_size, sbs_empty.
      destruct (N.eqb_spec (popcount S) 1) as [E|E]; [intros X; inversion X; tauto|].
      destruct (Bool.eqb _ _); [|discriminate]. intros X; inversion X; subst hp.
      rewrite negb_true_iff, N.eqb_neq. tauto. }
    destruct (dlt c2 c1) eqn:Ed; (destruct (pm_has_plan S f) as [hp| |]; [|discriminate|discriminate]);
      specialize (Hhp hp eq_refl);
      match type of H with Some (if negb hp || dlt ?c _ then _ else _) = _ => set (cc := c) in H end;
      destruct (negb hp || dlt cc (p_cost (f S))) eqn:Ec; inversion H; subst f'; clear H;
      (split; [intros s Hs; unfold f1; rewrite ?pm_set_other by exact Hs; reflexivity|]);
      rewrite Hm1; (split; [unfold f1; rewrite pm_set_same; reflexivity|]);
      (split; [unfold f1; rewrite pm_set_same; discriminate|]);
      exists c1, c2; (split; [reflexivity|]);
      rewrite Ed; cbn [fst].
    1,3: split; [right; rewrite pm_set_same; assumption|]; right; rewrite pm_set_same; (split; [|reflexivity]);
      apply orb_true_iff in Ec; destruct Ec as [Ec|Ec]; [left; rewrite <- Hhp; rewrite negb_true_iff in Ec; congruence|right; exact Ec].
    1,2: apply orb_false_iff in Ec; destruct Ec as [Ec1 Ec2]; rewrite negb_false_iff in Ec1;
      apply Hhp in Ec1; (split; [unfold planned, f1 in *; rewrite pm_set_same; cbn [with_model p_left]; exact Ec1|]);
      left; (split; [exact Ec1|]); (split; [exact Ec2|]); unfold f1; rewrite pm_set_same; reflexivity.
  Qed.

  Lemma update_cheapest f l r f' : update_map est cf f l r = Some f' -> let S := N.lor l r in
    forall os, (forall o, In o os -> fst (fst o) <> NaN) -> no_NaN (offers_of est cf f l r) ->
    (planned f S -> cheapest os (plan (f S))) -> (~ planned f S -> os = []) ->
    cheapest (os ++ offers_of est cf f l r) (plan (f' S)).
  Proof.
    intros H S os Hos Hno Hp Hnp. destruct (update_facts f l r f' H) as (_ & _ & _ & c1 & c2 & Eo & _ & Hc). fold S in Hc.
    cbv zeta in Hc. rewrite Eo in *. set (o1 := (c1, l, r)) in *. set (o2 := (c2, r, l)) in *.
    assert (Hn1 : c1 <> NaN) by (apply (Hno o1); left; reflexivity).
    assert (Hn2 : c2 <> NaN) by (apply (Hno o2); right; left; reflexivity).
    replace (os ++ [o1; o2]) with ((os ++ [o1]) ++ [o2]) by (rewrite <- app_assoc; reflexivity).
    assert (Hos1 : forall y, In y (os ++ [o1]) -> fst (fst y) <> NaN).
    { intros y Hy. apply in_app_or in Hy. destruct Hy as [Hy|[<-|[]]]; [apply Hos, Hy|exact Hn1]. }
    destruct (planned_dec f S) as [Hpl|Hpl].
    - specialize (Hp Hpl). pose proof (cheapest_snoc os _ o1 Hos Hp) as H1. pose proof (cheapest_snoc _ _ o2 Hos1 H1) as H2.
      clear H1. cbn [o1 o2 fst] in H2. change (fst (fst (plan (f S)))) with (p_cost (f S)) in H2.
      assert (HnP : p_cost (f S) <> NaN).
      { destruct Hp as (b & a & Eos & _). apply (Hos (plan (f S))). rewrite Eos. apply in_or_app. right. left. reflexivity. }
      destruct Hc as [(_ & E1 & ->)|([Hx|E1] & ->)]; [| tauto |].
      + destruct (dlt c2 c1) eqn:Ed; unfold o1, o2 in E1; cbn [fst] in E1.
        * destruct (dlt c1 (p_cost (f S))) eqn:E3.
          { exfalso. rewrite (dlt_trans c2 c1 _ Ed E3) in E1. discriminate. }
          change (fst (fst (plan (f S)))) with (p_cost (f S)) in H2. rewrite E1 in H2. exact H2.
        * rewrite E1 in H2. change (fst (fst (plan (f S)))) with (p_cost (f S)) in H2.
          destruct (dlt c2 (p_cost (f S))) eqn:E3; [|exact H2]. exfalso.
          rewrite (dlt_cotrans c2 (p_cost (f S)) c1 E3 Hn1 E1) in Ed. discriminate.
      + destruct (dlt c2 c1) eqn:Ed; unfold o1, o2 in E1; cbn [fst] in E1.
        * destruct (dlt c1 (p_cost (f S))) eqn:E3.
          { unfold o1 in H2; cbn [fst] in H2. rewrite Ed in H2. exact H2. }
          { change (fst (fst (plan (f S)))) with (p_cost (f S)) in H2. rewrite E1 in H2. exact H2. }
        * rewrite E1 in H2. unfold o1 in H2; cbn [fst] in H2. rewrite Ed in H2. exact H2.
    - rewrite (Hnp Hpl) in *. destruct Hc as [(Hx & _)|(_ & ->)]; [tauto|].
      pose proof (cheapest_snoc [o1] o1 o2 Hos1 (cheapest_one o1)) as H1. exact H1.
  Qed.
End Update.

(** ** Both tables are indistinguishable for every client that does not call [at]; with [at], the sparse table may throw. *)
Definition same_outcome {M R} (n x : N) (od : outcome (R * dense M)) (os : outcome (R * sparse M)) : Prop :=
  match od, os with
  | Ok (r1, t1), Ok (r2, t2) => r1 = r2 /\ exists f, holds n x dense_actual t1 f /\ holds n x sparse_actual t2 f
  | Insist, Insist => True
  | _, _ => False
  end.

Lemma dense_at_ok {M} n x (t : dense M) f s : n < 64 -> dense_rel n x t f -> s < bound n x -> d_at s t = Ok (f s).
Proof. intros. apply (dense_at (fun _ _ m _ => m)) with (n := n) (x := x); assumption. Qed.

Lemma dense_no_throw {M R} est cf n x (p : client M R) : n < 64 -> cost_within (bound n x) cf -> within (bound n x) n p ->
  forall t f, dense_rel n x t f -> run est cf dense_actual p t <> Throw.
Proof.
  intros Hn HB. pose proof (@dense_simulates M est n x Hn) as HS.
  induction p as [r| |s k IH|s k IH|k IH|s e k IH|s k IH|l r k IH|k IH]; cbn [within run]; intros Hw t f H; try discriminate.
  - destruct Hw as [Hs Hk]. destruct (sim_get n x _ _ HS t f s H Hs) as (t' & E & H'). rewrite E. cbn [bind].
    apply (IH _ (Hk _ (sim_within n x _ _ HS t f H s Hs)) t' f H').
  - destruct Hw as [Hs Hk]. cbn [a_at dense_actual]. rewrite (dense_at_ok n x t f s Hn H Hs). cbn [bind].
    apply (IH _ (Hk _ (sim_within n x _ _ HS t f H s Hs)) t f H).
  - destruct Hw as [Hs Hk]. unfold b_get_final. rewrite (sim_sources n x _ _ HS t f H), (All_ones n Hn).
    destruct (sim_get n x _ _ HS t f _ H Hs) as (t' & E & H'). rewrite E. cbn [bind].
    apply (IH _ (Hk _ (sim_within n x _ _ HS t f H _ Hs)) t' f H').
  - destruct Hw as [Hs [He Hk]]. destruct (sim_get n x _ _ HS t f s H Hs) as (t' & E & H'). rewrite E. cbn [bind].
    apply (IH Hk _ _ (sim_put n x _ _ HS t' f s e H' Hs He)).
  - destruct Hw as [Hs Hk]. rewrite (sim_has_plan n x _ _ HS t f s H Hs).
    destruct (pm_has_plan s f) as [b| |] eqn:Eh; cbn [bind]; [|discriminate|].
    2:{ exfalso. clear - Eh. unfold pm_has_plan, entry_has_plan in Eh.
        destruct (sbs_size s =? 1); [discriminate|]. destruct (Bool.eqb _ _); discriminate. }
    apply (IH b (Hk b) t f H).
  - destruct Hw as [Hl [Hr [Hlr Hk]]]. pose proof (sim_update est cf n x HB _ _ HS t f l r H Hl Hr Hlr) as U.
    destruct (update_map est cf f l r) as [f'|]; [|rewrite U; discriminate].
    destruct U as (t' & E & H'). rewrite E. cbn [bind]. apply (IH Hk t' f' H').
  - apply (IH Hw _ _ (sim_reset n x _ _ HS t f H)).
Qed.

Theorem C55_same_tables : forall (M R : Type) (est : N -> N -> M -> M -> M) (cf : N -> N -> reader M) (n x : N) (p : client M R),
  n < 64 -> cost_within (bound n x) cf -> within (bound n x) n p ->
  let od := run est cf dense_actual p (d_new n x) in
  let os := run est cf sparse_actual p (s_new n x) in
  (without_at p -> same_outcome n x od os) /\ (os = Throw \/ same_outcome n x od os).
Proof.
  intros M R est cf n x p Hn HB Hw od os.
  pose proof (sim_run est cf n x Hn HB _ _ (dense_simulates est n x Hn) p Hw _ _ (dense_new n x Hn)) as HD. fold od in HD.
  pose proof (sim_run est cf n x Hn HB _ _ (sparse_simulates n x) p Hw _ _ (sparse_new n x)) as HP. fold os in HP.
  pose proof (dense_no_throw est cf n x p Hn HB Hw _ _ (dense_new n x Hn)) as HT. fold od in HT.
  destruct od as [[r1 t1]| |]; cbn [agrees] in HD; [| |congruence].
  - destruct HD as (f & E1 & H1). destruct os as [[r2 t2]| |]; cbn [agrees] in HP.
    + destruct HP as (g & E2 & H2). rewrite E1 in E2. inversion E2; subst r2 g.
      assert (X : same_outcome n x (Ok (r1, t1)) (Ok (r1, t2))).
      { split; [reflexivity|]. exists f. split; [exact (rel_holds n x _ _ _ _ _ (dense_simulates est n x Hn) H1)|].
        exact (rel_holds n x _ _ _ _ _ (sparse_simulates n x) H2). }
      split; [intros _; exact X|right; exact X].
    + rewrite E1 in HP. discriminate.
    + split; [tauto|left; reflexivity].
  - destruct os as [[r2 t2]| |]; cbn [agrees] in HP.
    + destruct HP as (g & E2 & H2). rewrite HD in E2. discriminate.
    + split; [intros _; exact I|right; exact I].
    + split; [tauto|left; reflexivity].
Qed.
Print Assumptions C55_same_tables.

(** ** What the operations do, for every table a client arrives at. *)
Theorem C55_lookup : forall (M T : Type) est cf n x (A : actual M T) t, n < 64 -> cost_within (bound n x) cf ->
  reached est cf n x A t -> exists f, holds n x A t f /\
  (* reading changes no entry *)
  (forall s, s < bound n x -> exists t', a_get A s t = Ok (f s, t') /\ holds n x A t' f) /\
  (* the cost of [s]; the entry of all sources *)
  (forall s, s < bound n x -> exists t', b_c A s t = Ok (p_cost (f s), t')) /\
  (exists t', b_get_final A t = Ok (f (N.ones n), t')) /\
  (* writing changes one entry *)
  (forall s e, s < bound n x -> entry_within (bound n x) e -> exists e0 t', a_get A s t = Ok (e0, t') /\
    holds n x A (a_put A s e t') (fun y => if y =? s then e else f y)) /\
  (* resetting the costs leaves the single sources and all plans alone *)
  holds n x A (a_reset_costs A t) (fun s => if popcount s =? 1 then f s else PE (p_left (f s)) (p_right (f s)) (p_model (f s)) PosInf) /\
  (* a subproblem has a plan if it is a single source or its entry names two subproblems *)
  (forall s, s < bound n x -> (p_left (f s) = 0 <-> p_right (f s) = 0) ->
    a_has_plan A s t = Ok (if planned_dec f s then true else false)).
Proof.
  intros M T est cf n x A t Hn HB HR. destruct (reached_sim est cf n x T A t Hn HB HR) as (Rel & f & HS & H). exists f.
  split; [exact (rel_holds n x T A Rel t f HS H)|]. split; [|split; [|split; [|split; [|split]]]].
  - intros s Hs. destruct (sim_get n x A Rel HS t f s H Hs) as (t' & E & H'). exists t'. split; [exact E|].
    exact (rel_holds n x T A Rel t' f HS H').
  - intros s Hs. destruct (sim_get n x A Rel HS t f s H Hs) as (t' & E & H'). exists t'. unfold b_c. rewrite E. reflexivity.
  - unfold b_get_final. rewrite (sim_sources n x A Rel HS t f H), (All_ones n Hn).
    assert (Hs : N.ones n < bound n x).
    { unfold bound. rewrite N.ones_equiv. pose proof (N.pow_nonzero 2 n). assert (2 ^ n <> 0) by (apply H0; discriminate).
      clear - H1. lia. }
    destruct (sim_get n x A Rel HS t f _ H Hs) as (t' & E & H'). exists t'. exact E.
  - intros s e Hs He. destruct (sim_get n x A Rel HS t f s H Hs) as (t' & E & H'). exists (f s), t'. split; [exact E|].
    exact (rel_holds n x T A Rel _ _ HS (sim_put n x A Rel HS t' f s e H' Hs He)).
  - exact (rel_holds n x T A Rel _ _ HS (sim_reset n x A Rel HS t f H)).
  - intros s Hs Hh. rewrite (sim_has_plan n x A Rel HS t f s H Hs). unfold pm_has_plan, entry_has_plan, sbs_size, sbs_empty.
    destruct (planned_dec f s) as [Hp|Hp]; unfold planned in Hp; destruct (N.eqb_spec (popcount s) 1) as [E|E]; try tauto.
    + destruct Hp as [Hp|Hp]; [congruence|]. destruct (N.eqb_spec (p_left (f s)) 0); [congruence|].
      destruct (N.eqb_spec (p_right (f s)) 0); [tauto|]. reflexivity.
    + destruct (N.eqb_spec (p_left (f s)) 0) as [E0|]; [|tauto].
      destruct (N.eqb_spec (p_right (f s)) 0) as [|]; [reflexivity|tauto].
Qed.
Print Assumptions C55_lookup.

(** [update] changes no other entry, computes the data model once, and keeps the first of the cheapest plans. *)
Theorem C55_update : forall (M T : Type) est cf n x (A : actual M T) t f l r t',
  n < 64 -> cost_within (bound n x) cf -> reached est cf n x A t -> holds n x A t f ->
  l < bound n x -> r < bound n x -> N.lor l r < bound n x -> b_update est cf A l r t = Ok t' ->
  exists f', holds n x A t' f' /\ reached est cf n x A t' /\
  (forall s, s <> N.lor l r -> f' s = f s) /\
  p_model (f' (N.lor l r)) = p_model (considered est f l r (N.lor l r)) /\ p_model (f' (N.lor l r)) <> None /\
  planned f' (N.lor l r) /\
  (planned f (N.lor l r) -> no_NaN (plan (f (N.lor l r)) :: offers_of est cf f l r) ->
     cheapest (plan (f (N.lor l r)) :: offers_of est cf f l r) (plan (f' (N.lor l r)))) /\
  (~ planned f (N.lor l r) -> no_NaN (offers_of est cf f l r) -> cheapest (offers_of est cf f l r) (plan (f' (N.lor l r)))).
Proof.
  intros M T est cf n x A t f l r t' Hn HB HR Hf Hl Hr Hlr E.
  destruct (reached_holds est cf n x T A t f Hn HB HR Hf) as (Rel & HS & H).
  pose proof (sim_update est cf n x HB A Rel HS t f l r H Hl Hr Hlr) as U.
  destruct (update_map est cf f l r) as [f'|] eqn:Eu; [|rewrite U in E; discriminate].
  destruct U as (t1 & E1 & H1). rewrite E in E1. inversion E1; subst t1. exists f'.
  split; [exact (rel_holds n x T A Rel t' f' HS H1)|].
  split; [exact (reached_update est cf n x A t l r t' HR Hl Hr Hlr E)|].
  destruct (update_facts est cf f l r f' Eu) as (F1 & F2 & F3 & c1 & c2 & _ & F4 & _).
  split; [exact F1|]. split; [exact F2|]. split; [exact F3|]. split; [exact F4|]. split.
  - intros Hp Hno. apply (update_cheapest est cf f l r f' Eu [plan (f (N.lor l r))]).
    + intros o [<-|[]]. apply Hno. left. reflexivity.
    + intros o Ho. apply Hno. right. exact Ho.
    + intros _. apply cheapest_one.
    + tauto.
  - intros Hp Hno. apply (update_cheapest est cf f l r f' Eu []); [intros o []|exact Hno|tauto|reflexivity].
Qed.
Print Assumptions C55_update.

(** [update] succeeds unless a side is empty, a data model is missing, the cost function aborts or the entry is corrupt. *)
Theorem C55_update_succeeds : forall (M T : Type) est cf n x (A : actual M T) t f l r,
  n < 64 -> cost_within (bound n x) cf -> reached est cf n x A t -> holds n x A t f ->
  l < bound n x -> r < bound n x -> N.lor l r < bound n x ->
  ((exists t', b_update est cf A l r t = Ok t') <->
   l <> 0 /\ r <> 0 /\ (p_model (f (N.lor l r)) <> None \/ (p_model (f l) <> None /\ p_model (f r) <> None)) /\
   offers_of est cf f l r <> [] /\
   (popcount (N.lor l r) = 1 \/ (p_left (f (N.lor l r)) = 0 <-> p_right (f (N.lor l r)) = 0))).
Proof.
  intros M T est cf n x A t f l r Hn HB HR Hf Hl Hr Hlr.
  destruct (reached_holds est cf n x T A t f Hn HB HR Hf) as (Rel & HS & H).
  pose proof (sim_update est cf n x HB A Rel HS t f l r H Hl Hr Hlr) as U.
  assert (X : (exists t', b_update est cf A l r t = Ok t') <-> update_map est cf f l r <> None).
  { destruct (update_map est cf f l r) as [f'|].
    - destruct U as (t' & E & _). split; [discriminate|]. intros _. exists t'. exact E.
    - rewrite U. split; [intros [t' E]; discriminate|congruence]. }
  rewrite X. clear X U HS H Rel HR Hf. unfold update_map, offers_of, considered. set (S := N.lor l r).
  destruct (N.eqb_spec l 0) as [->|Hl0]; [cbn [orb]; split; [congruence|tauto]|].
  destruct (N.eqb_spec r 0) as [->|Hr0]; [cbn [orb]; split; [congruence|tauto]|]. cbn [orb]. cbv zeta.
  assert (HP : forall m g, (forall s, pm_set S (with_model (Some m) (f S)) f s = g s) ->
    (match value (cf l r) (pm_set S (with_model (Some m) (f S)) f), value (cf r l) (pm_set S (with_model (Some m) (f S)) f) with
     | Some c1, Some c2 => let '(c, a, b) := if dlt c2 c1 then (c2, r, l) else (c1, l, r) in
        match pm_has_plan S f with
        | Ok hp => Some (if negb hp || dlt c (p_cost (f S)) then pm_set S (PE a b (Some m) c) f else pm_set S (with_model (Some m) (f S)) f)
        | _ => None end
     | _, _ => None end <> None <->
     match value (cf l r) g, value (cf r l) g with Some c1, Some c2 => [(c1, l, r); (c2, r, l)] | _, _ => [] end <> [] /\
     (popcount S = 1 \/ (p_left (f S) = 0 <-> p_right (f S) = 0)))).
  { intros m g Hg.
    assert (Hv : forall rd, value rd (pm_set S (with_model (Some m) (f S)) f) = value rd g).
    { induction rd as [c|s k IH|]; cbn [value]; [reflexivity| |reflexivity]. rewrite (Hg s). apply IH. }
    rewrite !Hv. destruct (value (cf l r) g) as [c1|]; [|split; [congruence|tauto]].
    destruct (value (cf r l) g) as [c2|]; [|split; [congruence|tauto]].
    assert (Hh : (exists hp, pm_has_plan S f = Ok hp) <-> (popcount S = 1 \/ (p_left (f S) = 0 <-> p_right (f S) = 0))).
    { unfold pm_has_plan, entry_has_plan, sbs_size, sbs_empty. destruct (N.eqb_spec (popcount S) 1); [split; [tauto|eauto]|].
      destruct (N.eqb_spec (p_left (f S)) 0), (N.eqb_spec (p_right (f S)) 0); cbn [Bool.eqb negb];
        (split; [intros [hp E]; try discriminate; tauto|intros [Hx|Hx]; try tauto; eauto]). }
    destruct (dlt c2 c1); (destruct (pm_has_plan S f) as [hp| |];
      [split; [intros _; split; [discriminate|apply Hh; exists hp; reflexivity]|discriminate]
      |split; [congruence|intros [_ Hx]; apply Hh in Hx; destruct Hx; discriminate]
      |split; [congruence|intros [_ Hx]; apply Hh in Hx; destruct Hx; discriminate]]). }
  destruct (p_model (f S)) as [m|] eqn:Em.
  - rewrite (HP m f); [|intros s; unfold pm_set; destruct (N.eqb_spec s S) as [->|]; [apply with_model_id, Em|reflexivity]].
    split; [intros [H1 H2]; repeat split; try assumption; left; discriminate|tauto].
  - destruct (p_model (f l)) as [ml|]; [|split; [congruence|intros (_ & _ & [Hx|[Hx _]] & _); congruence]].
    destruct (p_model (f r)) as [mr|]; [|split; [congruence|intros (_ & _ & [Hx|[_ Hx]] & _); congruence]].
    rewrite (HP (est l r ml mr) (pm_set S (PE (p_left (f S)) (p_right (f S)) (Some (est l r ml mr)) (p_cost (f S))) f));
      [|reflexivity].
    split; [intros [H1 H2]; split; [assumption|]; split; [assumption|]; split; [right; split; discriminate|]; split; assumption|tauto].
Qed.
Print Assumptions C55_update_succeeds.

(** After any sequence of updates, every subproblem that had no plan before has the first of its cheapest offers. *)
Theorem C55_cheapest : forall (M T : Type) est cf n x (A : actual M T) t us os t', n < 64 -> cost_within (bound n x) cf ->
  reached est cf n x A t -> history est cf n x A t us os t' ->
  Forall (fun lr => fst lr < bound n x /\ snd lr < bound n x /\ N.lor (fst lr) (snd lr) < bound n x) us ->
  forall f f' S, holds n x A t f -> holds n x A t' f' -> S < bound n x -> ~ planned f S -> no_NaN (offers_for S os) ->
  (offers_for S os = [] -> ~ planned f' S) /\
  (offers_for S os <> [] -> planned f' S /\ cheapest (offers_for S os) (plan (f' S))).
Proof.
  intros M T est cf n x A t us os t' Hn HB HR HH HF f f' S Hf Hf' HS Hp Hno.
  (* generalized: some offers have been made before *)
  assert (G : forall t us os t', history est cf n x A t us os t' -> reached est cf n x A t ->
    Forall (fun lr => fst lr < bound n x /\ snd lr < bound n x /\ N.lor (fst lr) (snd lr) < bound n x) us ->
    forall f f' old, holds n x A t f -> holds n x A t' f' -> no_NaN (old ++ offers_for S os) ->
    (old = [] -> ~ planned f S) -> (old <> [] -> planned f S /\ cheapest old (plan (f S))) ->
    (old ++ offers_for S os = [] -> ~ planned f' S) /\
    (old ++ offers_for S os <> [] -> planned f' S /\ cheapest (old ++ offers_for S os) (plan (f' S)))).
  { clear t us os t' HR HH HF f f' Hf Hf' Hp Hno. intros t us os t' HH. induction HH as [t|t g l r t1 us os t2 Hg Eu HH IH]; intros HR HF f f' old Hf Hf' Hno H0 H1.
    - cbn [offers_for filter map] in *. rewrite app_nil_r in *.
      assert (Ef : f' S = f S).
      { destruct (Hf S HS) as [ta Ea]. destruct (Hf' S HS) as [tb Eb]. rewrite Ea in Eb. inversion Eb. congruence. }
      unfold planned in *. rewrite Ef in *. tauto.
    - inversion HF as [|? ? (Hl & Hr & Hlr) HF']; subst. cbn [fst snd] in Hl, Hr, Hlr.
      destruct (C55_update M T est cf n x A t g l r t1 Hn HB HR Hg Hl Hr Hlr Eu) as (g1 & Hg1 & HR1 & F1 & _ & _ & F4 & _).
      destruct (reached_holds est cf n x T A t g Hn HB HR Hg) as (Rel & HSim & HRel).
      pose proof (sim_update est cf n x HB A Rel HSim t g l r HRel Hl Hr Hlr) as U.
      destruct (update_map est cf g l r) as [g2|] eqn:Em; [|rewrite U in Eu; discriminate].
      destruct U as (t1' & E1 & HRel1). rewrite Eu in E1. inversion E1; subst t1'.
      pose proof (rel_holds n x T A Rel t1 g2 HSim HRel1) as Hg2.
      destruct (update_facts est cf g l r g2 Em) as (K1 & _ & _ & c1 & c2 & Eo & K4 & _).
      assert (EgS : g S = f S).
      { destruct (Hf S HS) as [ta Ea]. destruct (Hg S HS) as [tb Eb]. rewrite Ea in Eb. inversion Eb. congruence. }
      set (new := offers_of est cf g l r) in *.
      assert (Eof : offers_for S (map (pair (N.lor l r)) new ++ os) = (if N.lor l r =? S then new else []) ++ offers_for S os).
      { unfold offers_for. rewrite filter_app, map_app. f_equal. clear. induction new as [|o new IH]; cbn [map filter fst].
        - destruct (N.lor l r =? S); reflexivity.
        - rewrite <- IH || idtac. destruct (N.lor l r =? S) eqn:E; cbn [map snd]; [f_equal; exact IH|exact IH]. }
      rewrite Eof in *. rewrite app_assoc in *.
      apply (IH HR1 HF' g2 f' (old ++ (if N.lor l r =? S then new else []))); [exact Hg2|exact Hf'|exact Hno| |].
      + destruct (N.eqb_spec (N.lor l r) S) as [ES|ES].
        * rewrite Eo. destruct old; discriminate.
        * rewrite app_nil_r. intros Eold. unfold planned in *. rewrite (K1 S (not_eq_sym ES)), EgS. exact (H0 Eold).
      + destruct (N.eqb_spec (N.lor l r) S) as [ES|ES].
        * intros _. rewrite <- ES. split; [exact K4|]. unfold new.
          apply (update_cheapest est cf g l r g2 Em old).
          { intros o Ho. apply Hno. apply in_or_app. left. apply in_or_app. left. exact Ho. }
          { intros o Ho. apply Hno. apply in_or_app. left. apply in_or_app. right. exact Ho. }
          { intros Hpl. rewrite ES in *. rewrite EgS in *. apply H1. intros ->. apply (H0 eq_refl).
            unfold planned in *. rewrite <- EgS. exact Hpl. }
          { intros Hpl. destruct old as [|o old]; [reflexivity|]. exfalso. apply Hpl. rewrite ES. unfold planned. rewrite EgS.
            apply H1. discriminate. }
        * rewrite app_nil_r. intros Hold. unfold planned in *. rewrite (K1 S (not_eq_sym ES)), EgS. exact (H1 Hold). }
  exact (G t us os t' HH HR HF f f' [] Hf Hf' Hno (fun _ => Hp) (fun X => False_ind _ (X eq_refl))).
Qed.
Print Assumptions C55_cheapest.

(** ** Equality. *)
Definition equal_entries {M} (a b : pentry M) : Prop :=
  deq (p_cost a) (p_cost b) = true /\ p_left a = p_left b /\ p_right a = p_right b.
Lemma pe_eq_spec {M} (a b : pentry M) : pe_eq a b = true <-> equal_entries a b.
Proof. unfold pe_eq, equal_entries. rewrite !andb_true_iff, !N.eqb_eq. tauto. Qed.
Lemma d_eq_from_spec {M} (l1 l2 : list (pentry M)) : length l1 = length l2 ->
  (d_eq_from l1 l2 = true <-> forall i a b, nth_error l1 i = Some a -> nth_error l2 i = Some b -> equal_entries a b).
Proof.
  revert l2. induction l1 as [|e1 l1 IH]; intros [|e2 l2] Hl; try discriminate Hl.
  - split; [|reflexivity]. intros _ [|i] a b E; discriminate E.
  - cbn [d_eq_from]. destruct (pe_eq e1 e2) eqn:E.
    + rewrite (IH l2 (eq_add_S _ _ Hl)). split.
      * intros H [|i] a b Ea Eb; cbn [nth_error] in *; [inversion Ea; inversion Eb; subst; apply pe_eq_spec, E|]. exact (H i a b Ea Eb).
      * intros H i a b Ea Eb. exact (H (Datatypes.S i) a b Ea Eb).
    + split; [discriminate|]. intros H. specialize (H 0%nat e1 e2 eq_refl eq_refl). apply pe_eq_spec in H. congruence.
Qed.

(** Dense tables of the same size are equal iff all their entries are: IEEE-equal costs and the same plans. *)
Theorem C55_equal_dense : forall (M R Q : Type) est cf n x (p : client M R) (q : client M Q) r t r' u f g,
  n < 64 -> cost_within (bound n x) cf -> within (bound n x) n p -> within (bound n x) n q ->
  run est cf dense_actual p (d_new n x) = Ok (r, t) -> run est cf dense_actual q (d_new n x) = Ok (r', u) ->
  holds n x dense_actual t f -> holds n x dense_actual u g ->
  (d_eq t u = true <-> forall s, s < bound n x -> equal_entries (f s) (g s)).
Proof.
  intros M R Q est cf n x p q r t r' u f g Hn HB Hp Hq Ep Eq Hf Hg.
  pose proof (dense_simulates est n x Hn) as HS.
  pose proof (sim_run est cf n x Hn HB _ _ HS p Hp _ _ (dense_new n x Hn)) as H1. rewrite Ep in H1. destruct H1 as (f0 & _ & H1).
  pose proof (sim_run est cf n x Hn HB _ _ HS q Hq _ _ (dense_new n x Hn)) as H2. rewrite Eq in H2. destruct H2 as (g0 & _ & H2).
  apply (holds_rel n x _ _ _ _ _ _ HS H1) in Hf. apply (holds_rel n x _ _ _ _ _ _ HS H2) in Hg. clear H1 H2 f0 g0.
  unfold d_eq. rewrite (dense_size n x Hn t f Hf), (dense_size n x Hn u g Hg).
  destruct Hf as (A1 & A2 & A3 & A4 & A5). destruct Hg as (B1 & B2 & B3 & B4 & B5). rewrite A1, B1, !N.eqb_refl. cbn [negb].
  rewrite d_eq_from_spec by congruence. split.
  - intros H s Hs. exact (H (N.to_nat s) _ _ (A5 s Hs) (B5 s Hs)).
  - intros H i a b Ea Eb.
    assert (Hi : N.of_nat i < bound n x).
    { assert (Hlt : (i < length (d_table t))%nat) by (apply nth_error_Some; congruence). rewrite A3 in Hlt. clear - Hlt. lia. }
    specialize (H _ Hi). specialize (A5 _ Hi). specialize (B5 _ Hi). rewrite Nat2N.id in *. congruence.
Qed.
Print Assumptions C55_equal_dense.

(** An invariant of the operations is an invariant of all clients. *)
Lemma run_invariant {M T} (est : N -> N -> M -> M -> M) cf (A : actual M T) (Inv : T -> Prop) :
  (forall s t e t', Inv t -> a_get A s t = Ok (e, t') -> Inv t') -> (forall s e t, Inv t -> Inv (a_put A s e t)) ->
  (forall t, Inv t -> Inv (a_reset_costs A t)) ->
  forall R (p : client M R) t r t', Inv t -> run est cf A p t = Ok (r, t') -> Inv t'.
Proof.
  intros Hg Hp Hr.
  assert (Hrd : forall rd t c t', Inv t -> run_reader A rd t = Ok (c, t') -> Inv t').
  { induction rd as [c0|s k IH|]; cbn [run_reader]; intros t c t' H E; [inversion E; subst; exact H| |discriminate].
    destruct (a_get A s t) as [[e t1]| |] eqn:E1; try discriminate. exact (IH e t1 c t' (Hg _ _ _ _ H E1) E). }
  assert (Hu : forall l r t t', Inv t -> b_update est cf A l r t = Ok t' -> Inv t').
  { intros l r t t' H E. unfold b_update in E. destruct (sbs_empty l || sbs_empty r); [discriminate|].
    destruct (b_model est A l r t) as [t1| |] eqn:E1; try discriminate. cbn [bind] in E.
    assert (H1 : Inv t1).
    { clear E. unfold b_model in E1. destruct (a_get A (sbs_union l r) t) as [[e ta]| |] eqn:Ea; try discriminate. cbn [bind] in E1.
      pose proof (Hg _ _ _ _ H Ea) as Ha. destruct (p_model e); [inversion E1; subst; exact Ha|].
      destruct (a_get A l ta) as [[el tb]| |] eqn:Eb; try discriminate. cbn [bind] in E1. pose proof (Hg _ _ _ _ Ha Eb) as Hb.
      destruct (a_get A r tb) as [[er tc]| |] eqn:Ec; try discriminate. cbn [bind] in E1. pose proof (Hg _ _ _ _ Hb Ec) as Hc.
      destruct (p_model el); [|discriminate]. destruct (p_model er); [|discriminate].
      destruct (a_get A (sbs_union l r) tc) as [[e2 td]| |] eqn:Ed; try discriminate. cbn [bind] in E1. inversion E1; subst.
      apply Hp. exact (Hg _ _ _ _ Hc Ed). }
    destruct (run_reader A (cf l r) t1) as [[c1 t2]| |] eqn:E2; try discriminate. cbn [bind] in E. pose proof (Hrd _ _ _ _ H1 E2) as H2.
    destruct (run_reader A (cf r l) t2) as [[c2 t3]| |] eqn:E3; try discriminate. cbn [bind] in E. pose proof (Hrd _ _ _ _ H2 E3) as H3.
    destruct (dlt c2 c1).
    - destruct (a_has_plan A (sbs_union r l) t3) as [hp| |]; try discriminate. cbn [bind] in E.
      destruct (a_get A (sbs_union r l) t3) as [[e t4]| |] eqn:E4; try discriminate. cbn [bind] in E. pose proof (Hg _ _ _ _ H3 E4) as H4.
      destruct (negb hp || dlt c2 (p_cost e)); inversion E; subst; [apply Hp|]; exact H4.
    - destruct (a_has_plan A (sbs_union l r) t3) as [hp| |]; try discriminate. cbn [bind] in E.
      destruct (a_get A (sbs_union l r) t3) as [[e t4]| |] eqn:E4; try discriminate. cbn [bind] in E. pose proof (Hg _ _ _ _ H3 E4) as H4.
      destruct (negb hp || dlt c1 (p_cost e)); inversion E; subst; [apply Hp|]; exact H4. }
  intros R p. induction p as [r| |s k IH|s k IH|k IH|s e k IH|s k IH|l r k IH|k IH]; cbn [run]; intros t r' t' H E.
  - inversion E; subst; exact H.
  - discriminate.
  - destruct (a_get A s t) as [[e t1]| |] eqn:E1; try discriminate. exact (IH e t1 _ _ (Hg _ _ _ _ H E1) E).
  - destruct (a_at A s t) as [e| |] eqn:E1; try discriminate. exact (IH e t _ _ H E).
  - unfold b_get_final in E. destruct (sbs_All (a_num_sources A t)) as [all|]; [|discriminate].
    destruct (a_get A all t) as [[e t1]| |] eqn:E1; try discriminate. exact (IH e t1 _ _ (Hg _ _ _ _ H E1) E).
  - destruct (a_get A s t) as [[e0 t1]| |] eqn:E1; try discriminate. exact (IH _ _ _ (Hp _ _ _ (Hg _ _ _ _ H E1)) E).
  - destruct (a_has_plan A s t) as [b| |]; try discriminate. exact (IH b t _ _ H E).
  - destruct (b_update est cf A l r t) as [t1| |] eqn:E1; try discriminate. exact (IH _ _ _ (Hu _ _ _ _ H E1) E).
  - exact (IH _ _ _ (Hr _ H) E).
Qed.

Lemma s_find_in {M} s (l : list (N * pentry M)) : s_find s l <> None <-> In s (map fst l).
Proof.
  induction l as [|[k e] l IH]; cbn [s_find map fst In]; [tauto|].
  destruct (N.eqb_spec s k) as [->|Hne]; [split; [left; reflexivity|discriminate]|]. rewrite IH. split; [tauto|].
  intros [H|H]; [congruence|exact H].
Qed.
Lemma s_set_keys {M} s e (l : list (N * pentry M)) :
  map fst (s_set s e l) = map fst l \/ (s_find s l = None /\ map fst (s_set s e l) = map fst l ++ [s]).
Proof.
  induction l as [|[k e'] l IH]; cbn [s_set s_find map fst app]; [right; split; reflexivity|].
  destruct (s =? k); [left; reflexivity|]. cbn [map fst]. destruct IH as [->|[E ->]]; [left; reflexivity|right; split; [exact E|reflexivity]].
Qed.
Definition keys_unique {M} (t : sparse M) : Prop := NoDup (map fst (s_table t)).
Lemma sparse_unique {M R} est cf n x (p : client M R) r t : run est cf sparse_actual p (s_new n x) = Ok (r, t) ->
  keys_unique t /\ s_sources t = n.
Proof.
  apply (run_invariant est cf sparse_actual (fun t => keys_unique t /\ s_sources t = n)).
  - intros s u e u' [H Hs] E. cbn [a_get sparse_actual] in E. unfold s_get in E. destruct (s_find s (s_table u)) as [e0|] eqn:Ef; inversion E; subst; [split; [exact H|reflexivity]|].
    split; [|reflexivity]. unfold keys_unique. cbn [s_table map fst]. constructor; [|exact H]. rewrite <- s_find_in. congruence.
  - intros s e u [H Hs]. split; [|exact Hs]. unfold keys_unique. cbn [a_put sparse_actual s_put s_table].
    destruct (s_set_keys s e (s_table u)) as [->|[E ->]]; [exact H|].
    apply (Permutation_NoDup (Permutation_cons_append _ _)). constructor; [|exact H]. rewrite <- s_find_in. congruence.
  - intros u [H Hs]. split; [|exact Hs]. unfold keys_unique. cbn [a_reset_costs sparse_actual s_reset_costs s_table].
    rewrite map_map. exact H.
  - split; [constructor|reflexivity].
Qed.

Lemma s_eq_from_spec {M} (l1 l2 : list (N * pentry M)) : NoDup (map fst l1) ->
  (s_eq_from l1 l2 = true <-> forall s e, s_find s l1 = Some e -> exists e', s_find s l2 = Some e' /\ equal_entries e e').
Proof.
  induction l1 as [|[k e] l1 IH]; cbn [s_eq_from s_find map fst]; intros Hnd.
  - split; [discriminate|reflexivity].
  - inversion Hnd as [|? ? Hk Hnd']; subst. specialize (IH Hnd').
    assert (Hx : (forall s e0, (if s =? k then Some e else s_find s l1) = Some e0 -> exists e', s_find s l2 = Some e' /\ equal_entries e0 e') <->
      (exists e', s_find k l2 = Some e' /\ equal_entries e e') /\
      (forall s e0, s_find s l1 = Some e0 -> exists e', s_find s l2 = Some e' /\ equal_entries e0 e')).
    { split.
      - intros H. split; [apply (H k e); rewrite N.eqb_refl; reflexivity|]. intros s e0 E. apply H.
        destruct (N.eqb_spec s k) as [->|]; [|exact E]. exfalso. apply Hk. apply s_find_in. congruence.
      - intros [H1 H2] s e0 E. destruct (N.eqb_spec s k) as [->|]; [inversion E; subst; exact H1|exact (H2 s e0 E)]. }
    rewrite Hx, <- IH. destruct (s_find k l2) as [e'|].
    + destruct (pe_eq e e') eqn:E.
      * split; [intros H; split; [exists e'; split; [reflexivity|apply pe_eq_spec, E]|exact H]|tauto].
      * split; [discriminate|]. intros [(e2 & E2 & E3) _]. inversion E2; subst. apply pe_eq_spec in E3. congruence.
    + split; [discriminate|]. intros [(e2 & E2 & E3) _]. discriminate.
Qed.

(** Sparse tables are equal iff they have the same subproblems ([at] does not throw) and the entries of these are equal.  The
    order in which the hash tables list their elements does not matter. *)
Theorem C55_equal_sparse : forall (M R Q : Type) est cf n x (p : client M R) (q : client M Q) r t r' u,
  run est cf sparse_actual p (s_new n x) = Ok (r, t) -> run est cf sparse_actual q (s_new n x) = Ok (r', u) ->
  (s_eq t u = true <-> (forall s, s_at s t = Throw <-> s_at s u = Throw) /\
    forall s e e', s_at s t = Ok e -> s_at s u = Ok e' -> equal_entries e e') /\
  (forall lt lu, Permutation lt (s_table t) -> Permutation lu (s_table u) -> s_eq (P n lt) (P n lu) = s_eq t u).
Proof.
  intros M R Q est cf n x p q r t r' u Ep Eq.
  destruct (sparse_unique est cf n x p r t Ep) as [Ht Hst]. destruct (sparse_unique est cf n x q r' u Eq) as [Hu Hsu].
  assert (Hthrow : forall s v, s_at s v = Throw <-> s_find s (@s_table M v) = None).
  { intros s v. unfold s_at. destruct (s_find s (s_table v)); split; try discriminate; reflexivity. }
  assert (Hok : forall s v e, s_at s v = Ok e <-> s_find s (@s_table M v) = Some e).
  { intros s v e. unfold s_at. destruct (s_find s (s_table v)); split; intros H; try discriminate; inversion H; reflexivity. }
  assert (Hgen : forall t u : sparse M, keys_unique t -> keys_unique u -> s_sources t = n -> s_sources u = n ->
    (s_eq t u = true <-> (forall s, s_at s t = Throw <-> s_at s u = Throw) /\
      forall s e e', s_at s t = Ok e -> s_at s u = Ok e' -> equal_entries e e')).
  { clear t u Ep Eq Ht Hst Hu Hsu. intros t u Ht Hu Hst Hsu. unfold s_eq. rewrite Hst, Hsu, N.eqb_refl. cbn [negb].
    destruct (Nat.eqb_spec (length (s_table t)) (length (s_table u))) as [El|El]; cbn [negb].
    - rewrite (s_eq_from_spec _ _ Ht). split.
      + intros H. split.
        * assert (Hincl : incl (map fst (s_table t)) (map fst (s_table u))).
          { intros s Hs. apply s_find_in in Hs. apply s_find_in. destruct (s_find s (s_table t)) as [e|] eqn:E; [|congruence].
            destruct (H s e E) as (e' & E' & _). congruence. }
          assert (Hincl2 : incl (map fst (s_table u)) (map fst (s_table t))).
          { apply (NoDup_length_incl Ht); [|exact Hincl]. rewrite !map_length, El. apply Nat.le_refl. }
          intros s. rewrite !Hthrow. pose proof (s_find_in s (s_table t)) as X1. pose proof (s_find_in s (s_table u)) as X2.
          specialize (Hincl s). specialize (Hincl2 s).
          destruct (s_find s (s_table t)), (s_find s (s_table u)); split; intros Z; try discriminate Z; try reflexivity; exfalso.
          { assert (In s (map fst (s_table u))) by (apply Hincl, X1; discriminate). apply X2 in H0. congruence. }
          { assert (In s (map fst (s_table t))) by (apply Hincl2, X2; discriminate). apply X1 in H0. congruence. }
        * intros s e e' E E'. apply Hok in E, E'. destruct (H s e E) as (e2 & E2 & X). congruence.
      + intros [H1 H2] s e E. assert (E1 : s_at s t = Ok e) by (apply Hok; exact E).
        destruct (s_find s (s_table u)) as [e'|] eqn:E'.
        * exists e'. split; [reflexivity|]. apply (H2 s e e' E1). apply Hok. exact E'.
        * exfalso. apply Hthrow in E'. apply H1 in E'. congruence.
    - split; [discriminate|]. intros [H1 _]. exfalso. apply El. rewrite <- (map_length fst (s_table t)), <- (map_length fst (s_table u)).
      apply Permutation_length. apply NoDup_Permutation; [exact Ht|exact Hu|]. intros s. rewrite <- !s_find_in.
      specialize (H1 s). rewrite !Hthrow in H1. destruct (s_find s (s_table t)), (s_find s (s_table u)); split; try congruence; intros X; exfalso;
        [destruct H1 as [_ H1]; specialize (H1 eq_refl); discriminate|destruct H1 as [H1 _]; specialize (H1 eq_refl); discriminate]. }
  split; [exact (Hgen t u Ht Hu Hst Hsu)|]. intros lt lu Pt Pu.
  assert (Hperm : forall l1 l2 : list (N * pentry M), Permutation l1 l2 -> NoDup (map fst l1) -> forall s, s_find s l1 = s_find s l2).
  { clear. intros l1 l2 HP. induction HP as [|[k e] l1 l2 HP IH|[k e] [k' e'] l|l1 l2 l3 HP1 IH1 HP2 IH2]; intros Hnd s; cbn [s_find].
    - reflexivity.
    - cbn [map fst] in Hnd. inversion Hnd; subst. rewrite IH by assumption. reflexivity.
    - cbn [map fst] in Hnd. inversion Hnd as [|? ? Hk Hnd']; subst. destruct (N.eqb_spec s k) as [->|], (N.eqb_spec k k') as [->|]; try reflexivity.
      all: try (exfalso; apply Hk; left; reflexivity).
    - rewrite (IH1 Hnd). apply IH2. exact (Permutation_NoDup (Permutation_map fst HP1) Hnd). }
  assert (Hlt : NoDup (map fst lt)) by (exact (Permutation_NoDup (Permutation_sym (Permutation_map fst Pt)) Ht)).
  assert (Hlu : NoDup (map fst lu)) by (exact (Permutation_NoDup (Permutation_sym (Permutation_map fst Pu)) Hu)).
  assert (Eiff : s_eq (P n lt) (P n lu) = true <-> s_eq t u = true).
  { rewrite (Hgen (P n lt) (P n lu) Hlt Hlu eq_refl eq_refl), (Hgen t u Ht Hu Hst Hsu).
    assert (Hat : forall s, s_at s (P n lt) = s_at s t).
    { intros s. unfold s_at. cbn [s_table]. rewrite (Hperm lt (s_table t) Pt Hlt). reflexivity. }
    assert (Hau : forall s, s_at s (P n lu) = s_at s u).
    { intros s. unfold s_at. cbn [s_table]. rewrite (Hperm lu (s_table u) Pu Hlu). reflexivity. }
    split; intros [H1 H2]; (split; [intros s; specialize (H1 s); rewrite ?Hat, ?Hau in *; exact H1|
      intros s e e' X Y; apply (H2 s); rewrite ?Hat, ?Hau in *; assumption]). }
  destruct (s_eq (P n lt) (P n lu)), (s_eq t u); try reflexivity; destruct Eiff as [E1 E2];
    [specialize (E1 eq_refl); discriminate|specialize (E2 eq_refl); discriminate].
Qed.
Print Assumptions C55_equal_sparse.

(** ** The comparisons are those of IEEE 754 on numbers, infinities and NaN; the entries' [get_subproblems]. *)
Theorem C55_comparisons : forall a b : dbl,
  (dlt a b = true <-> (a = NegInf /\ (b = PosInf \/ exists q, b = Fin q)) \/ (exists p, a = Fin p /\ (b = PosInf \/ exists q, b = Fin q /\ (p < q)%Q))) /\
  (deq a b = true <-> (a = NegInf /\ b = NegInf) \/ (a = PosInf /\ b = PosInf) \/ (exists p q, a = Fin p /\ b = Fin q /\ (p == q)%Q)).
Proof.
  intros a b. split.
  - destruct a as [| |p|], b as [| |q|]; cbn [dlt]; try (split; [discriminate|]; intros [[H1 [H2|[? H2]]]|(? & H1 & [H2|(? & H2 & _)])]; discriminate).
    + split; [|reflexivity]. intros _. left. split; [reflexivity|]. right. exists q. reflexivity.
    + split; [|reflexivity]. intros _. left. split; [reflexivity|]. left. reflexivity.
    + rewrite negb_true_iff. assert (Hq : Qle_bool q p = false <-> (p < q)%Q).
      { split.
        - intros H. apply Qnot_le_lt. intros X. apply Qle_bool_iff in X. congruence.
        - intros H. destruct (Qle_bool q p) eqn:E; [|reflexivity]. apply Qle_bool_iff in E. exfalso. exact (Qlt_not_le _ _ H E). }
      rewrite Hq. split.
      * intros H. right. exists p. split; [reflexivity|]. right. exists q. split; [reflexivity|exact H].
      * intros [[H _]|(p' & H1 & [H|(q' & H2 & H)])]; try discriminate. inversion H1; inversion H2; subst. exact H.
    + split; [|reflexivity]. intros _. right. exists p. split; [reflexivity|]. left. reflexivity.
  - destruct a as [| |p|], b as [| |q|]; cbn [deq];
      try (split; [discriminate|]; intros [[H1 H2]|[[H1 H2]|(? & ? & H1 & H2 & _)]]; discriminate); try tauto.
    rewrite Qeq_bool_iff. split.
    + intros H. right. right. exists p, q. tauto.
    + intros [[H _]|[[H _]|(p' & q' & H1 & H2 & H)]]; try discriminate. inversion H1; inversion H2; subst. exact H.
Qed.
Print Assumptions C55_comparisons.

Theorem C55_get_subproblems : forall (M : Type) (e : pentry M), get_subproblems e = filter (fun s => negb (s =? 0)) [p_left e; p_right e].
Proof.
  intros M e. unfold get_subproblems, sbs_empty. cbn [filter]. destruct (p_left e =? 0), (p_right e =? 0); reflexivity.
Qed.
Print Assumptions C55_get_subproblems.

(** Printing a dense table lists all nonempty sets of sources in order, with the entries of those that have a plan. *)
Lemma d_entries_app {M} (l1 l2 : list (pentry M)) i : d_entries i (l1 ++ l2) = d_entries i l1 ++ d_entries (i + N.of_nat (length l1)) l2.
Proof.
  revert i. induction l1 as [|e l1 IH]; intros i; cbn [app d_entries length].
  - rewrite N.add_0_r. reflexivity.
  - rewrite IH. cbn [app]. do 3 f_equal. lia.
Qed.
Lemma d_entries_filter {M} (P : N -> bool) (g : N -> pentry M) : forall (l : list (pentry M)) i,
  (forall j, (j < length l)%nat -> nth_error l j = Some (g (i + N.of_nat j))) ->
  filter (fun ke => P (fst ke)) (d_entries i l) = map (fun s => (s, g s)) (filter P (map (fun j => i + N.of_nat j) (seq 0 (length l)))).
Proof.
  induction l as [|e l IH]; intros i H; [reflexivity|]. cbn [d_entries length seq map filter fst].
  assert (E0 : e = g (i + N.of_nat 0)). { specialize (H O). cbn [length nth_error] in H. assert (X : (0 < S (length l))%nat) by lia. specialize (H X). congruence. }
  rewrite (IH (i + 1)).
  2:{ intros j Hj. specialize (H (S j)). cbn [length nth_error] in H. rewrite H by lia. do 2 f_equal. lia. }
  assert (Em : map (fun j => i + 1 + N.of_nat j) (seq 0 (length l)) = map (fun j => i + N.of_nat j) (seq 1 (length l))).
  { rewrite <- seq_shift, map_map. apply map_ext. intros j. lia. }
  rewrite Em, <- E0 || rewrite Em. replace (i + N.of_nat 0) with i in * by lia.
  destruct (P i); cbn [map]; rewrite ?E0; reflexivity.
Qed.
Lemma filter_range (n len : nat) : (1 <= n <= len)%nat ->
  filter (fun s => (1 <=? s) && (s <? N.of_nat n)) (map (fun j => 0 + N.of_nat j) (seq 0 len)) = map N.of_nat (seq 1 (n - 1)).
Proof.
  intros Hn. replace len with (1 + ((n - 1) + (len - n)))%nat by lia. rewrite seq_app. cbn [seq app plus]. rewrite seq_app.
  cbn [map filter]. change (1 <=? 0 + N.of_nat 0) with false. cbn [andb].
  rewrite map_app, filter_app.
  assert (E1 : forall a k, (a + k <= n)%nat -> (1 <= a)%nat ->
    filter (fun s => (1 <=? s) && (s <? N.of_nat n)) (map (fun j => 0 + N.of_nat j) (seq a k)) = map N.of_nat (seq a k)).
  { intros a k. revert a. induction k as [|k IH]; intros a Ha H1; [reflexivity|]. cbn [seq map filter].
    replace (1 <=? 0 + N.of_nat a) with true by (symmetry; apply N.leb_le; lia).
    replace (0 + N.of_nat a <? N.of_nat n) with true by (symmetry; apply N.ltb_lt; lia). cbn [andb]. rewrite IH by lia. reflexivity. }
  assert (E2 : forall a k, (n <= a)%nat -> filter (fun s => (1 <=? s) && (s <? N.of_nat n)) (map (fun j => 0 + N.of_nat j) (seq a k)) = []).
  { intros a k. revert a. induction k as [|k IH]; intros a Ha; [reflexivity|]. cbn [seq map filter].
    replace (0 + N.of_nat a <? N.of_nat n) with false by (symmetry; apply N.ltb_ge; lia). rewrite andb_false_r. apply IH. lia. }
  rewrite E1, E2 by lia. apply app_nil_r.
Qed.
Lemma filter_range_N (n : N) (len : nat) : 1 <= n -> (N.to_nat n <= len)%nat ->
  filter (fun s => (1 <=? s) && (s <? n)) (map (fun j => 0 + N.of_nat j) (seq 0 len)) = map N.of_nat (seq 1 (N.to_nat n - 1)).
Proof.
  intros H1 H2. pose proof (filter_range (N.to_nat n) len) as H. rewrite N2Nat.id in H. apply H. lia.
Qed.
Theorem C55_print_dense : forall (M R : Type) est cf n x (p : client M R) r t f, n < 64 -> cost_within (bound n x) cf ->
  within (bound n x) n p -> run est cf dense_actual p (d_new n x) = Ok (r, t) -> holds n x dense_actual t f ->
  (forall s, s < 2 ^ n -> p_left (f s) = 0 <-> p_right (f s) = 0) ->
  d_print t = Ok (map (fun s => (s, if planned_dec f s then Some (f s) else None)) (map N.of_nat (seq 1 (N.to_nat (2 ^ n) - 1)))).
Proof.
  intros M R est cf n x p r t f Hn HB Hw E Hf Hb.
  pose proof (sim_run est cf n x Hn HB _ _ (dense_simulates est n x Hn) p Hw _ _ (dense_new n x Hn)) as HR. rewrite E in HR.
  cbn [agrees] in HR. destruct HR as (f' & _ & HRel'). pose proof (holds_rel n x _ _ _ _ _ _ (dense_simulates est n x Hn) HRel' Hf) as HRel.
  clear HRel' f' E. pose proof HRel as (Es & Ex & Hl & Hwi & Hnth).
  assert (Hones : N.ones n < bound n x).
  { unfold bound. rewrite N.ones_equiv. pose proof (N.pow_nonzero 2 n). assert (2 ^ n <> 0) by (apply H; discriminate). clear - H0. lia. }
  unfold d_print, b_get_final. cbn [a_num_sources dense_actual a_get]. rewrite Es, (All_ones n Hn). unfold d_get.
  rewrite (dense_at_ok n x t f _ Hn HRel Hones). cbn [bind]. rewrite Es, (shl64_pow n Hn).
  assert (HL : length (d_table t) = N.to_nat (bound n x)) by lia.
  rewrite (d_entries_filter (fun s => (1 <=? s) && (s <? 2 ^ n)) f (d_table t) 0).
  2:{ intros j Hj. rewrite N.add_0_l. rewrite HL in Hj. specialize (Hnth (N.of_nat j) ltac:(lia)). rewrite Nat2N.id in Hnth. exact Hnth. }
  rewrite HL. 
  assert (Hpos : 1 <= 2 ^ n). { pose proof (N.pow_nonzero 2 n). assert (2 ^ n <> 0) by (apply H; discriminate). clear - H0. lia. }
  rewrite filter_range_N; [|exact Hpos|unfold bound; lia].
  assert (Hall : forall s, In s (map N.of_nat (seq 1 (N.to_nat (2 ^ n) - 1))) -> s < 2 ^ n).
  { intros s Hs. apply in_map_iff in Hs. destruct Hs as (j & <- & Hj). apply in_seq in Hj. lia. }
  induction (map N.of_nat (seq 1 (N.to_nat (2 ^ n) - 1))) as [|s l IH]; [reflexivity|]. cbn [map rows].
  assert (Hs : s < 2 ^ n) by (apply Hall; left; reflexivity).
  assert (HsB : s < bound n x) by (unfold bound; lia).
  unfold row at 1. rewrite (sim_has_plan n x _ _ (dense_simulates est n x Hn) t f s HRel HsB).
  assert (Ehp : pm_has_plan s f = Ok (if planned_dec f s then true else false)).
  { specialize (Hb s Hs). unfold pm_has_plan, entry_has_plan, sbs_size, sbs_empty. destruct (planned_dec f s) as [Hp|Hp]; unfold planned in Hp.
    - destruct (N.eqb_spec (popcount s) 1); [reflexivity|]. destruct Hp as [|Hp]; [contradiction|].
      destruct (N.eqb_spec (p_left (f s)) 0), (N.eqb_spec (p_right (f s)) 0); cbn [Bool.eqb negb]; try reflexivity; tauto.
    - destruct (N.eqb_spec (popcount s) 1); [tauto|].
      destruct (N.eqb_spec (p_left (f s)) 0), (N.eqb_spec (p_right (f s)) 0); cbn [Bool.eqb negb]; try reflexivity; tauto. }
  rewrite Ehp. cbn [bind]. rewrite IH by (intros y Hy; apply Hall; right; exact Hy). cbn [bind]. destruct (planned_dec f s); reflexivity.
Qed.
Print Assumptions C55_print_dense.

(** ** A concrete cost function: [CostFunctionCout], CostFunctionCout.hpp:23-30; data models are cardinalities, additions are
    exact. *)
Definition dadd (a b : dbl) : dbl :=
  match a, b with
  | NaN, _ | _, NaN => NaN
  | NegInf, PosInf | PosInf, NegInf => NaN
  | NegInf, _ | _, NegInf => NegInf
  | PosInf, _ | _, PosInf => PosInf
  | Fin p, Fin q => Fin (Qred (p + q))
  end.
Definition card_reader {M} (card : M -> dbl) (l r : N) : reader M :=
  RGet (N.lor l r) (fun e => match p_model e with
    | None => RAbort
    | Some m => RGet l (fun el => RGet r (fun er => RRet (dadd (dadd (card m) (p_cost el)) (p_cost er))))
    end).
Lemma card_reader_within {M} (card : M -> dbl) B : cost_within B (card_reader card).
Proof.
  intros l r Hl Hr Hlr. split; [exact Hlr|]. intros e _. destruct (p_model e); [|exact I]. split; [exact Hl|]. intros el _.
  split; [exact Hr|]. intros er _. exact I.
Qed.

(** Three relations of 10, 20 and 30 tuples; every join has as many tuples as its larger input. *)
Definition ex_cf : N -> N -> reader Q := card_reader Fin.
Definition ex_est (l r : N) (a b : Q) : Q := if Qle_bool a b then b else a.
Definition ex_client : client Q (list (pentry Q)) :=
  Write 1 (PE 0 0 (Some 10%Q) (Fin 0)) (Write 2 (PE 0 0 (Some 20%Q) (Fin 0)) (Write 4 (PE 0 0 (Some 30%Q) (Fin 0))
    (Update 1 2 (Update 2 4 (Update 3 4 (Update 1 6
      (HasPlan 5 (fun b => if b then Abort else Lookup 3 (fun e3 => Final (fun e => Return [e3; e])))))))))).
(** Both tables choose ((0 ⋈ 1) ⋈ 2) at cost 20 + 30. *)
Example C55_nonvacuous : cost_within (bound 3 0) ex_cf /\ within (bound 3 0) 3 ex_client /\ without_at ex_client /\
  (exists t, run ex_est ex_cf dense_actual ex_client (d_new 3 0) =
     Ok ([PE 1 2 (Some 20%Q) (Fin 20); PE 3 4 (Some 30%Q) (Fin 50)], t)) /\
  (exists t, run ex_est ex_cf sparse_actual ex_client (s_new 3 0) =
     Ok ([PE 1 2 (Some 20%Q) (Fin 20); PE 3 4 (Some 30%Q) (Fin 50)], t)).
Proof.
  split; [apply card_reader_within|]. split.
  { cbn. repeat (split; [reflexivity|]). repeat split; try reflexivity. intros [|]; [exact I|]. split; [reflexivity|]. intros e He.
    split; [reflexivity|]. intros e2 He2. exact I. }
  split; [cbn; intros [|]; [exact I|]; intros e e2; exact I|].
  split; eexists; vm_compute; reflexivity.
Qed.
Print Assumptions C55_nonvacuous.
(** An instance of the hypotheses of [C55_cheapest]: two offers for the three relations. *)
Example C55_history_nonvacuous : exists t0 t', reached ex_est ex_cf 3 0 sparse_actual t0 /\
  history ex_est ex_cf 3 0 sparse_actual t0 [(1, 2); (3, 4)]
    [(3, (Fin 20, 1, 2)); (3, (Fin 20, 2, 1)); (7, (Fin 50, 3, 4)); (7, (Fin 50, 4, 3))] t'.
Proof.
  set (init := Write 1 (PE 0 0 (Some 10%Q) (Fin 0)) (Write 2 (PE 0 0 (Some 20%Q) (Fin 0)) (Write 4 (PE 0 0 (Some 30%Q) (Fin 0))
     (Return tt))) : client Q unit).
  assert (Hi : within (bound 3 0) 3 init) by (cbn; repeat split; reflexivity).
  pose (t0 := match run ex_est ex_cf sparse_actual init (s_new 3 0) with Ok (_, t) => t | _ => s_new 3 0 end).
  assert (HR : reached ex_est ex_cf 3 0 sparse_actual t0).
  { exists (s_new 3 0), unit, init, tt. split; [constructor|]. split; [exact Hi|]. vm_compute. reflexivity. }
  pose (t1 := match b_update ex_est ex_cf sparse_actual 1 2 t0 with Ok t => t | _ => t0 end).
  pose (t2 := match b_update ex_est ex_cf sparse_actual 3 4 t1 with Ok t => t | _ => t0 end).
  exists t0, t2. split; [exact HR|].
  assert (Hh : forall t : sparse Q, holds 3 0 sparse_actual t (fun s => sparse_obs (s_table t) s)).
  { intros t s _. cbn [a_get sparse_actual]. unfold s_get, sparse_obs. destruct (s_find s (s_table t)); eexists; reflexivity. }
  refine (h_cons _ _ _ _ _ t0 _ 1 2 t1 [(3, 4)] [(7, (Fin 50, 3, 4)); (7, (Fin 50, 4, 3))] t2 (Hh t0) _ _); [vm_compute; reflexivity|].
  refine (h_cons _ _ _ _ _ t1 _ 3 4 t2 [] [] t2 (Hh t1) _ _); [vm_compute; reflexivity|]. apply h_nil.
Qed.

(** ** Findings. *)
(** Reading an entry of a sparse table (even of a [const] table) creates it: two sparse tables that hold the same entries
    compare unequal, while dense tables compare equal. *)
Theorem C55_refuted_equality : exists (p q : client Q unit) tp tq dp dq,
  run ex_est ex_cf sparse_actual p (s_new 3 0) = Ok (tt, tp) /\ run ex_est ex_cf sparse_actual q (s_new 3 0) = Ok (tt, tq) /\
  run ex_est ex_cf dense_actual p (d_new 3 0) = Ok (tt, dp) /\ run ex_est ex_cf dense_actual q (d_new 3 0) = Ok (tt, dq) /\
  (forall s, exists e t t', a_get sparse_actual s tp = Ok (e, t) /\ a_get sparse_actual s tq = Ok (e, t')) /\
  s_eq tp tq = false /\ d_eq dp dq = true.
Proof.
  exists (Write 1 (PE 0 0 (Some 10%Q) (Fin 0)) (Return tt)),
    (Write 1 (PE 0 0 (Some 10%Q) (Fin 0)) (Lookup 3 (fun _ => Return tt))).
  do 4 eexists. split; [vm_compute; reflexivity|]. split; [vm_compute; reflexivity|]. split; [vm_compute; reflexivity|].
  split; [vm_compute; reflexivity|]. split; [|split; vm_compute; reflexivity].
  intros s. cbn [a_get sparse_actual]. unfold s_get. cbn [s_table s_find].
  destruct (N.eqb_spec s 3) as [->|H3]; [do 3 eexists; split; reflexivity|].
  destruct (s =? 1); do 3 eexists; split; reflexivity.
Qed.
Print Assumptions C55_refuted_equality.

(** If the first cost computed for a subproblem is NaN, no later offer replaces it. *)
Theorem C55_refuted_nan : exists (t t' : dense Q) us os,
  reached ex_est (card_reader (fun q => if Qeq_bool q 20 then NaN else Fin q)) 3 0 dense_actual t /\
  history ex_est (card_reader (fun q => if Qeq_bool q 20 then NaN else Fin q)) 3 0 dense_actual t us os t' /\
  (exists f', holds 3 0 dense_actual t' f' /\ p_cost (f' 7) = NaN) /\
  exists o, In o (offers_for 7 os) /\ fst (fst o) = Fin 30.
Proof.
  set (cf := card_reader (fun q => if Qeq_bool q 20 then NaN else Fin q)).
  set (init := Write 1 (PE 0 0 (Some 10%Q) (Fin 0)) (Write 2 (PE 0 0 (Some 20%Q) (Fin 0)) (Write 4 (PE 0 0 (Some 30%Q) (Fin 0))
     (Write 6 (PE 2 4 (Some 30%Q) (Fin 0)) (Return tt)))) : client Q unit).
  pose (t0 := match run ex_est cf dense_actual init (d_new 3 0) with Ok (_, t) => t | _ => d_new 3 0 end).
  pose (t1 := match b_update ex_est cf dense_actual 1 2 t0 with Ok t => t | _ => t0 end).
  pose (t2 := match b_update ex_est cf dense_actual 3 4 t1 with Ok t => t | _ => t0 end).
  pose (t3 := match b_update ex_est cf dense_actual 1 6 t2 with Ok t => t | _ => t0 end).
  pose (obs := fun (t : dense Q) s => nth (N.to_nat s) (d_table t) pe_default).
  assert (Hh : forall t : dense Q, length (d_table t) = 8%nat -> d_size t = 8 -> holds 3 0 dense_actual t (obs t)).
  { intros t Hl Hs s Hlt. exists t. cbn [a_get dense_actual]. unfold d_get, d_at. rewrite Hs. change (bound 3 0) with 8 in Hlt.
    destruct (N.ltb_spec s 8); [|lia]. rewrite (nth_error_nth' (d_table t) pe_default) by (rewrite Hl; lia). reflexivity. }
  exists t0, t3, [(1, 2); (3, 4); (1, 6)].
  eexists. split; [|split].
  - exists (d_new 3 0), unit, init, tt. split; [constructor|]. split; [cbn; repeat split; reflexivity|]. vm_compute. reflexivity.
  - refine (h_cons ex_est cf 3 0 dense_actual t0 _ 1 2 t1 _ _ t3 (Hh t0 eq_refl eq_refl) _ _); [vm_compute; reflexivity|].
    refine (h_cons ex_est cf 3 0 dense_actual t1 _ 3 4 t2 _ _ t3 (Hh t1 eq_refl eq_refl) _ _); [vm_compute; reflexivity|].
    refine (h_cons ex_est cf 3 0 dense_actual t2 _ 1 6 t3 _ _ t3 (Hh t2 eq_refl eq_refl) _ _); [vm_compute; reflexivity|]. apply h_nil.
  - split; [exists (obs t3); split; [apply Hh; reflexivity|vm_compute; reflexivity]|].
    eexists. split; [vm_compute; right; right; left; reflexivity|reflexivity].
Qed.
Print Assumptions C55_refuted_nan.

(** A table with a NaN cost is not equal to itself. *)
Theorem C55_refuted_reflexive : exists (p : client Q unit) t, run ex_est ex_cf dense_actual p (d_new 3 0) = Ok (tt, t) /\ d_eq t t = false.
Proof. exists (Write 1 (PE 0 0 (Some 10%Q) NaN) (Return tt)). eexists. split; vm_compute; reflexivity. Qed.
Print Assumptions C55_refuted_reflexive.

(** Printing a sparse table shows the first additional entry ([> n] instead of [>= n]) as if it were a set of sources, and
    creates the entry of the final plan. *)
Theorem C55_refuted_print : exists (p : client Q unit) t out t',
  run ex_est ex_cf sparse_actual p (s_new 2 1) = Ok (tt, t) /\ s_print t = Ok (out, t') /\
  In 4 (map fst out) /\ s_eq t t' = false.
Proof.
  exists (Write 4 (PE 1 2 (Some 10%Q) (Fin 1)) (Return tt)). do 3 eexists.
  split; [vm_compute; reflexivity|]. split; [vm_compute; reflexivity|]. split; [right; left; reflexivity|vm_compute; reflexivity].
Qed.
Print Assumptions C55_refuted_print.
