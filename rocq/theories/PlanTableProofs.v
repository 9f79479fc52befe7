(** * The plan tables behave like maps (proofs for C55). *)
From Coq Require Import NArith QArith List Bool Lia Arith.
From Verif Require Import Word WordProofs Bitset BitsetProofs PlanTable PlanTableSpec.
Import ListNotations.
Open Scope N_scope.

Section Order.
  Lemma dlt_trans a b c : dlt a b = true -> dlt b c = true -> dlt a c = true.
  Proof.
    destruct a as [| |p|], b as [| |q|], c as [| |r|]; cbn [dlt]; try reflexivity; try discriminate.
    rewrite !negb_true_iff. intros H1 H2. apply not_true_iff_false. intros H. apply not_true_iff_false in H1, H2.
    rewrite Qle_bool_iff in *. apply Qnot_le_lt in H1, H2. apply Qle_not_lt in H. apply H. eapply Qlt_trans; eassumption.
  Qed.
  Lemma dlt_cotrans x c y : dlt x c = true -> y <> NaN -> dlt y c = false -> dlt x y = true.
  Proof.
    destruct x as [| |p|], c as [| |q|], y as [| |r|]; cbn [dlt]; try reflexivity; try discriminate; try congruence.
    rewrite negb_true_iff, negb_false_iff. intros H1 _ H2. rewrite negb_true_iff. apply not_true_iff_false. intros H.
    apply not_true_iff_false in H1. apply H1. rewrite Qle_bool_iff in *. eapply Qle_trans; eassumption.
  Qed.
  Lemma dlt_irrefl a : dlt a a = false.
  Proof. destruct a; cbn [dlt]; try reflexivity. rewrite negb_false_iff. apply Qle_bool_iff, Qle_refl. Qed.
End Order.

Section Cheapest.
  Lemma cheapest_one (o : offer) : cheapest [o] o.
  Proof. exists [], []. split; [reflexivity|]. split; intros x []. Qed.
  Lemma cheapest_snoc os o x : (forall y, In y os -> fst (fst y) <> NaN) -> cheapest os o ->
    cheapest (os ++ [x]) (if dlt (fst (fst x)) (fst (fst o)) then x else o).
  Proof.
    intros Hn (b & a & -> & Hb & Ha). destruct (dlt (fst (fst x)) (fst (fst o))) eqn:E.
    - exists (b ++ o :: a), []. split; [reflexivity|]. split; [|intros y []]. intros y Hy.
      apply in_app_or in Hy. destruct Hy as [Hy|[<-|Hy]].
      + eapply dlt_trans; [exact E|apply Hb, Hy].
      + exact E.
      + eapply dlt_cotrans; [exact E| |apply Ha, Hy]. apply Hn, in_or_app. right. right. exact Hy.
    - exists b, (a ++ [x]). split; [rewrite <- app_assoc; reflexivity|]. split; [exact Hb|].
      intros y Hy. apply in_app_or in Hy. destruct Hy as [Hy|[<-|[]]]; [apply Ha, Hy|exact E].
  Qed.
End Cheapest.

Section Bind.
  Context {M : Type} (est : N -> N -> M -> M -> M) (cf : N -> N -> reader M).
  Lemma run_cbind {T R Q} (A : actual M T) (p : client M R) (k : R -> client M Q) t :
    run est cf A (cbind p k) t = (do (r, t') <- run est cf A p t; run est cf A (k r) t').
  Proof.
    revert t. induction p as [r| |s h IH|s h IH|h IH|s e h IH|s h IH|l r h IH|h IH]; intros t; cbn [cbind run].
    - reflexivity.
    - reflexivity.
    - destruct (a_get A s t) as [[e t1]| |]; cbn [bind]; [apply IH|reflexivity|reflexivity].
    - destruct (a_at A s t) as [e| |]; cbn [bind]; [apply IH|reflexivity|reflexivity].
    - destruct (b_get_final A t) as [[e t1]| |]; cbn [bind]; [apply IH|reflexivity|reflexivity].
    - destruct (a_get A s t) as [[e0 t1]| |]; cbn [bind]; [apply IH|reflexivity|reflexivity].
    - destruct (a_has_plan A s t) as [e| |]; cbn [bind]; [apply IH|reflexivity|reflexivity].
    - destruct (b_update est cf A l r t) as [t1| |]; cbn [bind]; [apply IH|reflexivity|reflexivity].
    - apply IH.
  Qed.
  Lemma within_cbind {R Q} B n (p : client M R) (k : R -> client M Q) :
    within B n p -> (forall r, within B n (k r)) -> within B n (cbind p k).
  Proof.
    intros Hp Hk. induction p as [r| |s h IH|s h IH|h IH|s e h IH|s h IH|l r h IH|h IH]; cbn [cbind within] in *.
    - apply Hk.
    - exact I.
    - destruct Hp as [H1 H2]. split; [exact H1|]. intros e He. apply IH, H2, He.
    - destruct Hp as [H1 H2]. split; [exact H1|]. intros e He. apply IH, H2, He.
    - destruct Hp as [H1 H2]. split; [exact H1|]. intros e He. apply IH, H2, He.
    - destruct Hp as [H1 [H2 H3]]. split; [exact H1|]. split; [exact H2|]. apply IH, H3.
    - destruct Hp as [H1 H2]. split; [exact H1|]. intros b. apply IH, H2.
    - destruct Hp as [H1 [H2 [H3 H4]]]. split; [exact H1|]. split; [exact H2|]. split; [exact H3|]. apply IH, H4.
    - apply IH, Hp.
  Qed.
  Lemma reached_update {T} n x (A : actual M T) t l r t' : reached est cf n x A t -> l < bound n x -> r < bound n x ->
    N.lor l r < bound n x -> b_update est cf A l r t = Ok t' -> reached est cf n x A t'.
  Proof.
    intros (t0 & R & p & r0 & Hi & Hw & E) Hl Hr Hlr Eu.
    exists t0, unit, (cbind p (fun _ => Update l r (Return tt))), tt. split; [exact Hi|].
    split; [apply within_cbind; [exact Hw|intros _; cbn [within]; tauto]|].
    rewrite run_cbind, E. cbn [bind run]. rewrite Eu. reflexivity.
  Qed.
End Bind.

(** [popcount] and the size of the table. *)
Lemma shl64_pow n : n < 64 -> shl64 1 n = 2 ^ n.
Proof.
  intros H. unfold shl64, wrap. rewrite N.shiftl_mul_pow2, N.mul_1_l.
  assert (2 ^ n < 2 ^ 64) by (apply N.pow_lt_mono_r; lia). rewrite ?N.land_ones. apply N.mod_small. exact H0.
Qed.

Section Sim.
  Context {M : Type}.
  Notation pentry := (pentry M). Notation pmap := (@pmap M).
  Variable (est : N -> N -> M -> M -> M) (cf : N -> N -> reader M) (n x : N).
  Hypothesis Hn : n < 64.
  Notation B := (bound n x).
  Hypothesis HB : cost_within B cf.

  (** The map as an implementation. *)
  Definition pm_reset (f : pmap) : pmap :=
    fun s => if sbs_is_singleton s then f s else PE (p_left (f s)) (p_right (f s)) (p_model (f s)) PosInf.
  Definition pm_has_plan (s : N) (f : pmap) : outcome bool :=
    if sbs_size s =? 1 then Ok true else entry_has_plan (f s).
  Definition map_actual : actual M pmap :=
    {| a_num_sources := fun _ => n; a_at := fun s f => Ok (f s); a_get := fun s f => Ok (f s, f);
       a_put := pm_set; a_has_plan := pm_has_plan; a_reset_costs := pm_reset |}.

  Definition map_within (f : pmap) : Prop := forall s, s < B -> entry_within B (f s).
  Lemma B_pos : 0 < B.
  Proof. unfold bound. apply N.add_pos_l, N.neq_0_lt_0, N.pow_nonzero. discriminate. Qed.

  (** A simulation between an implementation and the map. *)
  Record simulates {T} (A : actual M T) (Rel : T -> pmap -> Prop) : Prop := {
    sim_within : forall t f, Rel t f -> map_within f;
    sim_sources : forall t f, Rel t f -> a_num_sources A t = n;
    sim_get : forall t f s, Rel t f -> s < B -> exists t', a_get A s t = Ok (f s, t') /\ Rel t' f;
    sim_put : forall t f s e, Rel t f -> s < B -> entry_within B e -> Rel (a_put A s e t) (pm_set s e f);
    sim_has_plan : forall t f s, Rel t f -> s < B -> a_has_plan A s t = pm_has_plan s f;
    sim_reset : forall t f, Rel t f -> Rel (a_reset_costs A t) (pm_reset f);
    sim_at : forall t f s, Rel t f -> s < B -> a_at A s t = Throw \/ a_at A s t = Ok (f s);
    sim_ext : forall t f g, Rel t f -> (forall s, s < B -> f s = g s) -> Rel t g }.

  (** ** Update on maps. *)
  Definition update_map (f : pmap) (l r : N) : option pmap :=
    if (l =? 0) || (r =? 0) then None else
    let S := N.lor l r in
    match (match p_model (f S) with Some m => Some m | None =>
             match p_model (f l), p_model (f r) with Some ml, Some mr => Some (est l r ml mr) | _, _ => None end end) with
    | None => None
    | Some m =>
        let f1 := pm_set S (with_model (Some m) (f S)) f in
        match value (cf l r) f1, value (cf r l) f1 with
        | Some c1, Some c2 =>
            let '(c, a, b) := if dlt c2 c1 then (c2, r, l) else (c1, l, r) in
            match pm_has_plan S f with
            | Ok hp => Some (if negb hp || dlt c (p_cost (f S)) then pm_set S (PE a b (Some m) c) f else f1)
            | _ => None
            end
        | _, _ => None
        end
    end.

  Section Impl.
    Context {T : Type} (A : actual M T) (Rel : T -> pmap -> Prop) (HS : simulates A Rel).

    Lemma sim_reader r : reader_within B r -> forall t f, Rel t f ->
      match value r f with Some c => exists t', run_reader A r t = Ok (c, t') /\ Rel t' f | None => run_reader A r t = Insist end.
    Proof.
      induction r as [c|s k IH|]; cbn [reader_within value run_reader].
      - intros _ t f H. exists t. split; [reflexivity|exact H].
      - intros [Hs Hk] t f H. destruct (sim_get A Rel HS t f s H Hs) as (t' & E & H'). rewrite E. cbn [bind].
        apply IH; [apply Hk; exact (sim_within A Rel HS t f H s Hs)|exact H'].
      - intros _ t f H. reflexivity.
    Qed.

    Lemma pm_set_same (f : pmap) s e : pm_set s e f s = e.
    Proof. unfold pm_set. rewrite N.eqb_refl. reflexivity. Qed.
    Lemma pm_set_other (f : pmap) s e y : y <> s -> pm_set s e f y = f y.
    Proof. unfold pm_set. intros H. apply N.eqb_neq in H. rewrite H. reflexivity. Qed.

    Lemma with_model_id (e : pentry) m : p_model e = Some m -> with_model (Some m) e = e.
    Proof. destruct e. cbn. intros ->. reflexivity. Qed.

    Lemma sim_update t f l r : Rel t f -> l < B -> r < B -> N.lor l r < B ->
      match update_map f l r with
      | Some f' => exists t', b_update est cf A l r t = Ok t' /\ Rel t' f'
      | None => b_update est cf A l r t = Insist
      end.
    Proof.
      intros H Hl Hr HSB. unfold update_map, b_update, sbs_empty.
      destruct ((l =? 0) || (r =? 0)) eqn:Ez; [reflexivity|].
      set (S := N.lor l r) in *. clear Ez.
      assert (Hm : match (match p_model (f S) with Some m => Some m | None =>
             match p_model (f l), p_model (f r) with Some ml, Some mr => Some (est l r ml mr) | _, _ => None end end) with
         | None => b_model est A l r t = Insist
         | Some m => exists t1, b_model est A l r t = Ok t1 /\ Rel t1 (pm_set S (with_model (Some m) (f S)) f) end).
      { unfold b_model, sbs_union. fold S.
        destruct (sim_get A Rel HS t f S H HSB) as (t1 & E1 & H1). rewrite E1. cbn [bind].
        destruct (p_model (f S)) as [m|] eqn:Em.
        - exists t1. split; [reflexivity|]. apply (sim_ext A Rel HS _ _ _ H1). intros s _. unfold pm_set.
          destruct (N.eqb_spec s S) as [->|]; [|reflexivity]. rewrite (with_model_id _ _ Em). reflexivity.
        - destruct (sim_get A Rel HS t1 f l H1 Hl) as (t2 & E2 & H2). rewrite E2. cbn [bind].
          destruct (sim_get A Rel HS t2 f r H2 Hr) as (t3 & E3 & H3). rewrite E3. cbn [bind].
          destruct (p_model (f l)) as [ml|]; [|reflexivity]. destruct (p_model (f r)) as [mr|]; [|reflexivity].
          destruct (sim_get A Rel HS t3 f S H3 HSB) as (t4 & E4 & H4). rewrite E4. cbn [bind].
          eexists. split; [reflexivity|]. apply (sim_put A Rel HS _ _ _ _ H4 HSB).
          exact (sim_within A Rel HS t f H S HSB). }
      destruct (match p_model (f S) with Some m => Some m | None =>
             match p_model (f l), p_model (f r) with Some ml, Some mr => Some (est l r ml mr) | _, _ => None end end) as [m|];
        [|rewrite Hm; reflexivity].
      destruct Hm as (t1 & E1 & H1). rewrite E1. cbn [bind].
      set (f1 := pm_set S (with_model (Some m) (f S)) f) in *.
      assert (HSB' : N.lor r l < B) by (rewrite N.lor_comm; exact HSB).
      pose proof (sim_reader (cf l r) (HB l r Hl Hr HSB) t1 f1 H1) as R1.
      destruct (value (cf l r) f1) as [c1|]; [|rewrite R1; reflexivity].
      destruct R1 as (t2 & E2 & H2). rewrite E2. cbn [bind].
      pose proof (sim_reader (cf r l) (HB r l Hr Hl HSB') t2 f1 H2) as R2.
      destruct (value (cf r l) f1) as [c2|]; [|rewrite R2; reflexivity].
      destruct R2 as (t3 & E3 & H3). rewrite E3. cbn [bind]. clear E1 E2 E3 H1 H2.
      assert (Hgo : forall c a b, N.lor a b = S -> a < B -> b < B ->
        match (match pm_has_plan S f with
            | Ok hp => Some (if negb hp || dlt c (p_cost (f S)) then pm_set S (PE a b (Some m) c) f else f1)
            | _ => None end) with
        | Some f' => exists t', (do hp <- a_has_plan A (sbs_union a b) t3; do (entry, t) <- a_get A (sbs_union a b) t3;
            if negb hp || dlt c (p_cost entry) then Ok (a_put A (sbs_union a b) (PE a b (p_model entry) c) t) else Ok t) = Ok t'
            /\ Rel t' f'
        | None => (do hp <- a_has_plan A (sbs_union a b) t3; do (entry, t) <- a_get A (sbs_union a b) t3;
            if negb hp || dlt c (p_cost entry) then Ok (a_put A (sbs_union a b) (PE a b (p_model entry) c) t) else Ok t) = Insist
        end).
      { intros c a b Eab Ha Hb. unfold sbs_union. rewrite Eab.
        rewrite (sim_has_plan A Rel HS t3 f1 S H3 HSB).
        assert (Ehp : pm_has_plan S f1 = pm_has_plan S f).
        { unfold pm_has_plan, entry_has_plan, f1. rewrite pm_set_same. reflexivity. }
        rewrite Ehp. destruct (pm_has_plan S f) as [hp| |] eqn:Eh; cbn [bind]; [|reflexivity|].
        2:{ exfalso. clear - Eh. unfold pm_has_plan, entry_has_plan in Eh.
            destruct (sbs_size S =? 1); [discriminate|]. destruct (Bool.eqb _ _); discriminate. }
        destruct (sim_get A Rel HS t3 f1 S H3 HSB) as (t4 & E4 & H4). rewrite E4. cbn [bind].
        assert (Ef1 : f1 S = with_model (Some m) (f S)) by (unfold f1; apply pm_set_same). rewrite Ef1.
        cbn [with_model p_cost p_model].
        destruct (negb hp || dlt c (p_cost (f S))); eexists; (split; [reflexivity|]); [|exact H4].
        pose proof (sim_put A Rel HS _ _ S (PE a b (Some m) c) H4 HSB (conj Ha Hb)) as H5.
        apply (sim_ext A Rel HS _ _ _ H5). intros s _. unfold f1, pm_set. destruct (s =? S); reflexivity. }
      destruct (dlt c2 c1).
      - apply Hgo; [rewrite N.lor_comm; reflexivity|assumption|assumption].
      - apply Hgo; [reflexivity|assumption|assumption].
    Qed.

    (** A client on a map. *)
    Fixpoint mrun {R : Type} (p : client M R) (f : pmap) : option (R * pmap) :=
      match p with
      | Return r => Some (r, f)
      | Abort => None
      | Lookup s k => mrun (k (f s)) f
      | At s k => mrun (k (f s)) f
      | Final k => mrun (k (f (N.ones n))) f
      | Write s e k => mrun k (pm_set s e f)
      | HasPlan s k => match pm_has_plan s f with Ok b => mrun (k b) f | _ => None end
      | Update l r k => match update_map f l r with Some f' => mrun k f' | None => None end
      | ResetCosts k => mrun k (pm_reset f)
      end.

    Definition agrees {R} (p : client M R) (o : outcome (R * T)) (m : option (R * pmap)) : Prop :=
      match o with
      | Ok (r, t) => exists f, m = Some (r, f) /\ Rel t f
      | Insist => m = None
      | Throw => ~ without_at p
      end.

    Lemma sim_run {R} (p : client M R) : within B n p -> forall t f, Rel t f -> agrees p (run est cf A p t) (mrun p f).
    Proof.
      induction p as [r| |s k IH|s k IH|k IH|s e k IH|s k IH|l r k IH|k IH]; cbn [within run mrun]; intros Hw t f H.
      - exists f. split; [reflexivity|exact H].
      - reflexivity.
      - destruct Hw as [Hs Hk]. destruct (sim_get A Rel HS t f s H Hs) as (t' & E & H'). rewrite E. cbn [bind].
        specialize (IH (f s) (Hk _ (sim_within A Rel HS t f H s Hs)) t' f H').
        destruct (run est cf A (k (f s)) t') as [[r t'']| |]; cbn [agrees] in *; [exact IH|exact IH|].
        cbn [without_at]. intros Hx. apply IH, Hx.
      - destruct Hw as [Hs Hk]. destruct (sim_at A Rel HS t f s H Hs) as [E|E]; rewrite E; cbn [bind].
        + cbn [agrees without_at]. tauto.
        + specialize (IH (f s) (Hk _ (sim_within A Rel HS t f H s Hs)) t f H).
          destruct (run est cf A (k (f s)) t) as [[r t'']| |]; cbn [agrees] in *; [exact IH|exact IH|].
          cbn [without_at]. tauto.
      - destruct Hw as [Hs Hk]. unfold b_get_final. rewrite (sim_sources A Rel HS t f H), (All_ones n Hn).
        destruct (sim_get A Rel HS t f _ H Hs) as (t' & E & H'). rewrite E. cbn [bind].
        specialize (IH (f (N.ones n)) (Hk _ (sim_within A Rel HS t f H _ Hs)) t' f H').
        destruct (run est cf A (k (f (N.ones n))) t') as [[r t'']| |]; cbn [agrees] in *; [exact IH|exact IH|].
        cbn [without_at]. intros Hx. apply IH, Hx.
      - destruct Hw as [Hs [He Hk]]. destruct (sim_get A Rel HS t f s H Hs) as (t' & E & H'). rewrite E. cbn [bind].
        specialize (IH Hk _ _ (sim_put A Rel HS t' f s e H' Hs He)).
        destruct (run est cf A k (a_put A s e t')) as [[r t'']| |]; cbn [agrees] in *; [exact IH|exact IH|].
        cbn [without_at]. exact IH.
      - destruct Hw as [Hs Hk]. rewrite (sim_has_plan A Rel HS t f s H Hs).
        destruct (pm_has_plan s f) as [b| |] eqn:Eh; cbn [bind]; [|reflexivity|].
        2:{ exfalso. clear - Eh. unfold pm_has_plan, entry_has_plan in Eh.
            destruct (sbs_size s =? 1); [discriminate|]. destruct (Bool.eqb _ _); discriminate. }
        specialize (IH b (Hk b) t f H).
        destruct (run est cf A (k b) t) as [[r t'']| |]; cbn [agrees] in *; [exact IH|exact IH|].
        cbn [without_at]. intros Hx. apply IH, Hx.
      - destruct Hw as [Hl [Hr [Hlr Hk]]]. pose proof (sim_update t f l r H Hl Hr Hlr) as U.
        destruct (update_map f l r) as [f'|]; [|rewrite U; reflexivity].
        destruct U as (t' & E & H'). rewrite E. cbn [bind]. specialize (IH Hk t' f' H').
        destruct (run est cf A k t') as [[r' t'']| |]; cbn [agrees] in *; [exact IH|exact IH|].
        cbn [without_at]. exact IH.
      - specialize (IH Hw _ _ (sim_reset A Rel HS t f H)).
        destruct (run est cf A k (a_reset_costs A t)) as [[r' t'']| |]; cbn [agrees] in *; [exact IH|exact IH|].
        cbn [without_at]. exact IH.
    Qed.
  End Impl.

  (** ** The dense table. *)
  Definition dense_rel (t : dense M) (f : pmap) : Prop :=
    d_sources t = n /\ d_extra t = x /\ length (d_table t) = N.to_nat B /\ map_within f /\
    forall s, s < B -> nth_error (d_table t) (N.to_nat s) = Some (f s).
  Lemma list_set_length i (e : pentry) l : length (list_set i e l) = length l.
  Proof. revert i. induction l as [|y l IH]; intros [|i]; cbn; try reflexivity. rewrite IH. reflexivity. Qed.
  Lemma list_set_same i (e : pentry) l : (i < length l)%nat -> nth_error (list_set i e l) i = Some e.
  Proof. revert i. induction l as [|y l IH]; intros [|i]; cbn; intros H; try lia; try reflexivity. apply IH. lia. Qed.
  Lemma list_set_other i j (e : pentry) l : i <> j -> nth_error (list_set i e l) j = nth_error l j.
  Proof.
    revert i j. induction l as [|y l IH]; intros [|i] [|j]; cbn; intros H; try lia; try reflexivity. apply IH. lia.
  Qed.
  Lemma d_reset_length i (l : list pentry) : length (d_reset_from i l) = length l.
  Proof. revert i. induction l as [|y l IH]; intros i; cbn; [reflexivity|]. rewrite IH. reflexivity. Qed.
  Lemma d_reset_nth (l : list pentry) i j : nth_error (d_reset_from i l) j =
    option_map (fun e => if sbs_is_singleton (i + N.of_nat j) then e else PE (p_left e) (p_right e) (p_model e) PosInf) (nth_error l j).
  Proof.
    revert i j. induction l as [|y l IH]; intros i [|j]; cbn [d_reset_from nth_error option_map]; try reflexivity.
    - rewrite N.add_0_r. reflexivity.
    - rewrite IH. replace (i + 1 + N.of_nat j) with (i + N.of_nat (Datatypes.S j)) by lia. reflexivity.
  Qed.
  Lemma dense_size t f : dense_rel t f -> d_size t = B.
  Proof. intros (E1 & E2 & _). unfold d_size, bound. rewrite E1, E2, (shl64_pow n Hn). reflexivity. Qed.
  Lemma dense_at t f s : dense_rel t f -> s < B -> d_at s t = Ok (f s).
  Proof.
    intros H Hs. unfold d_at. rewrite (dense_size t f H). destruct H as (_ & _ & _ & _ & H).
    destruct (N.ltb_spec s B); [|lia]. rewrite (H s Hs). reflexivity.
  Qed.
  Lemma within_set f s e : map_within f -> entry_within B e -> map_within (pm_set s e f).
  Proof. intros H He y Hy. unfold pm_set. destruct (y =? s); [exact He|apply H, Hy]. Qed.
  Lemma within_reset f : map_within f -> map_within (pm_reset f).
  Proof. intros H y Hy. unfold pm_reset. destruct (sbs_is_singleton y); exact (H y Hy). Qed.
  Lemma within_ext (f g : pmap) : map_within f -> (forall s, s < B -> f s = g s) -> map_within g.
  Proof. intros H E y Hy. rewrite <- (E y Hy). apply H, Hy. Qed.

  Lemma dense_simulates : simulates dense_actual dense_rel.
  Proof.
    constructor.
    - intros t f (_ & _ & _ & H & _). exact H.
    - intros t f (H & _). exact H.
    - intros t f s H Hs. exists t. cbn [a_get dense_actual]. unfold d_get. rewrite (dense_at t f s H Hs). split; [reflexivity|exact H].
    - intros t f s e (H1 & H2 & H3 & H4 & H5) Hs He. repeat split; cbn [d_sources d_extra d_table a_put dense_actual d_put].
      + exact H1.
      + exact H2.
      + rewrite list_set_length. exact H3.
      + apply (within_set f s e H4 He); assumption.
      + apply (within_set f s e H4 He); assumption.
      + intros y Hy. unfold pm_set. destruct (N.eqb_spec y s) as [->|Hne].
        * apply list_set_same. rewrite H3. apply Nat.compare_lt_iff. rewrite <- N2Nat.inj_compare. exact Hs.
        * rewrite list_set_other by (intros E; apply N2Nat.inj in E; congruence). apply H5, Hy.
    - intros t f s H Hs. cbn [a_has_plan dense_actual]. unfold d_has_plan, pm_has_plan.
      destruct (sbs_size s =? 1); [reflexivity|]. unfold d_get. rewrite (dense_at t f s H Hs). reflexivity.
    - intros t f (H1 & H2 & H3 & H4 & H5). repeat split; cbn [d_sources d_extra d_table a_reset_costs dense_actual d_reset_costs].
      + exact H1.
      + exact H2.
      + rewrite d_reset_length. exact H3.
      + apply (within_reset f H4); assumption.
      + apply (within_reset f H4); assumption.
      + intros y Hy. rewrite d_reset_nth, (H5 y Hy). cbn [option_map]. rewrite N.add_0_l, N2Nat.id. reflexivity.
    - intros t f s H Hs. right. exact (dense_at t f s H Hs).
    - intros t f g (H1 & H2 & H3 & H4 & H5) E. split; [exact H1|]. split; [exact H2|]. split; [exact H3|].
      split; [exact (within_ext f g H4 E)|]. intros s Hs. rewrite (H5 s Hs), (E s Hs). reflexivity.
  Qed.
  Lemma within_empty : map_within pm_empty.
  Proof. intros s _. split; cbn; apply B_pos. Qed.
  Lemma dense_new : dense_rel (d_new n x) pm_empty.
  Proof.
    unfold d_new. rewrite (shl64_pow n Hn). fold B. split; [reflexivity|]. split; [reflexivity|]. cbn [d_table].
    split; [apply repeat_length|]. split; [exact within_empty|]. intros s Hs. unfold pm_empty. clear est cf HB.
    assert (Hlt : (N.to_nat s < N.to_nat B)%nat) by (apply Nat.compare_lt_iff; rewrite <- N2Nat.inj_compare; exact Hs).
    revert Hlt. generalize (N.to_nat s), (N.to_nat B). clear. intros i b. revert i.
    induction b as [|b IH]; intros [|i] H; cbn; try lia; [reflexivity|]. apply IH. lia.
  Qed.

  (** ** The sparse table. *)
  Definition sparse_obs (l : list (N * pentry)) (s : N) : pentry := match s_find s l with Some e => e | None => pe_default end.
  Definition sparse_rel (t : sparse M) (f : pmap) : Prop :=
    s_sources t = n /\ map_within f /\ forall s, s < B -> sparse_obs (s_table t) s = f s.
  Lemma s_find_set s e (l : list (N * pentry)) y : s_find y (s_set s e l) = if y =? s then Some e else s_find y l.
  Proof.
    induction l as [|[k e'] l IH]; cbn [s_set s_find].
    - destruct (y =? s); reflexivity.
    - destruct (N.eqb_spec s k) as [->|Hne]; cbn [s_find].
      + destruct (y =? k); reflexivity.
      + rewrite IH. destruct (N.eqb_spec y k) as [->|Hyk]; [|reflexivity]. destruct (N.eqb_spec k s); [congruence|reflexivity].
  Qed.
  Lemma s_find_map (g : N -> pentry -> pentry) (l : list (N * pentry)) y :
    s_find y (map (fun ke => (fst ke, g (fst ke) (snd ke))) l) = option_map (g y) (s_find y l).
  Proof.
    induction l as [|[k e'] l IH]; cbn [map s_find fst snd option_map]; [reflexivity|].
    destruct (N.eqb_spec y k) as [->|]; [reflexivity|exact IH].
  Qed.

  Lemma sparse_simulates : simulates sparse_actual sparse_rel.
  Proof.
    constructor.
    - intros t f (_ & H & _). exact H.
    - intros t f (H & _). exact H.
    - intros t f s (H1 & H2 & H3) Hs. cbn [a_get sparse_actual]. unfold s_get. pose proof (H3 s Hs) as E. unfold sparse_obs in E.
      destruct (s_find s (s_table t)) as [e|] eqn:Ef.
      + exists t. rewrite E. split; [reflexivity|]. repeat split; auto; apply H2; assumption.
      + rewrite E. eexists. split; [reflexivity|]. split; [exact H1|]. split; [exact H2|].
        intros y Hy. unfold sparse_obs. cbn [s_table s_find]. destruct (N.eqb_spec y s) as [->|]; [reflexivity|]. exact (H3 y Hy).
    - intros t f s e (H1 & H2 & H3) Hs He. split; [exact H1|]. split; [exact (within_set f s e H2 He)|].
      intros y Hy. unfold sparse_obs. cbn [a_put sparse_actual s_put s_table]. rewrite s_find_set. unfold pm_set.
      destruct (y =? s); [reflexivity|]. exact (H3 y Hy).
    - intros t f s (H1 & H2 & H3) Hs. cbn [a_has_plan sparse_actual]. unfold s_has_plan, pm_has_plan.
      destruct (sbs_size s =? 1); [reflexivity|]. rewrite <- (H3 s Hs). unfold sparse_obs.
      destruct (s_find s (s_table t)); reflexivity.
    - intros t f (H1 & H2 & H3). split; [exact H1|]. split; [exact (within_reset f H2)|].
      intros y Hy. unfold sparse_obs. cbn [a_reset_costs sparse_actual s_reset_costs s_table].
      rewrite (s_find_map (fun k e => if sbs_is_singleton k then e else PE (p_left e) (p_right e) (p_model e) PosInf)).
      unfold pm_reset. rewrite <- (H3 y Hy). unfold sparse_obs.
      destruct (s_find y (s_table t)) as [e|]; cbn [option_map].
      + destruct (sbs_is_singleton y); reflexivity.
      + destruct (sbs_is_singleton y); reflexivity.
    - intros t f s (H1 & H2 & H3) Hs. cbn [a_at sparse_actual]. unfold s_at. pose proof (H3 s Hs) as E. unfold sparse_obs in E.
      destruct (s_find s (s_table t)); [right; rewrite E; reflexivity|left; reflexivity].
    - intros t f g (H1 & H2 & H3) E. split; [exact H1|]. split; [exact (within_ext f g H2 E)|].
      intros s Hs. rewrite (H3 s Hs), (E s Hs). reflexivity.
  Qed.
  Lemma sparse_new : sparse_rel (s_new n x) pm_empty.
  Proof. split; [reflexivity|]. split; [exact within_empty|]. intros s Hs. reflexivity. Qed.
End Sim.
