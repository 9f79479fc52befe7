(** * The enumerators do on the plan tables what they do on the tables of PlanEnum.v (proofs for C55). *)
From Coq Require Import NArith QArith List Bool Lia Arith.
From Verif Require Import Word WordProofs Bitset BitsetProofs GraphSpec Graph GraphProofs ClosureProofs CSGProofs PlanSpec PlanEnum PlanProofs PlanInst
  PlanTable PlanTableSpec PlanTableProofs PlanTableEnum.
Import ListNotations.
Open Scope N_scope.
Arguments N.pow : simpl never.
Arguments N.testbit : simpl never.

Lemma range_in a b x : In x (range a b) -> x < b.
Proof. unfold range. rewrite in_map_iff. intros (y & <- & Hy). apply in_seq in Hy. lia. Qed.

Section Rel.
  Context {M C : Type}.
  Variables (est : N -> N -> M -> M -> M) (cf : N -> N -> reader M) (n : N).
  Variables (lt : C -> C -> bool) (jc : N -> N -> C -> C -> C) (inf : C) (leaf : N -> C).
  Variables (inj : C -> dbl) (mdl : N -> M).
  Hypothesis Hn : n < 64.
  Notation B := (bound n 0).
  Hypothesis Hlt : forall a b, dlt (inj a) (inj b) = lt a b.
  Hypothesis Hinf : inj inf = PosInf.
  Hypothesis Hest : forall l r, l < 2 ^ n -> r < 2 ^ n -> est l r (mdl l) (mdl r) = mdl (N.lor l r).
  Hypothesis Hcf : forall l r (f : pmap) a b, l < 2 ^ n -> r < 2 ^ n -> p_model (f (N.lor l r)) = Some (mdl (N.lor l r)) ->
    p_cost (f l) = inj a -> p_cost (f r) = inj b -> value (cf l r) f = Some (inj (jc l r a b)).

  Lemma B_eq : B = 2 ^ n. Proof. unfold bound. apply N.add_0_r. Qed.

  Definition related (f : pmap) (PT : table C) : Prop := forall s, s < 2 ^ n ->
    p_left (f s) = e_left (PT s) /\ p_right (f s) = e_right (PT s) /\ p_cost (f s) = inj (e_cost (PT s)) /\
    p_model (f s) = (if has_plan PT s then Some (mdl s) else None) /\ (e_left (PT s) = 0 <-> e_right (PT s) = 0).

  Lemma lor_bound l r : l < 2 ^ n -> r < 2 ^ n -> N.lor l r < 2 ^ n.
  Proof.
    intros Hl Hr. apply Sub_ones. apply (union_Sub l r); apply Sub_ones; assumption.
  Qed.
  Lemma related_has_plan f PT s : related f PT -> s < 2 ^ n -> pm_has_plan s f = Ok (has_plan PT s).
  Proof.
    intros H Hs. destruct (H s Hs) as (E1 & E2 & _ & _ & E5). unfold pm_has_plan, has_plan, entry_has_plan.
    destruct (sbs_size s =? 1); [reflexivity|]. rewrite E1, E2. unfold sbs_empty.
    destruct (N.eqb_spec (e_left (PT s)) 0), (N.eqb_spec (e_right (PT s)) 0); cbn [Bool.eqb negb]; try reflexivity; tauto.
  Qed.

  Lemma related_update f PT l r : related f PT -> l < 2 ^ n -> r < 2 ^ n ->
    match pt_update lt jc PT l r with
    | Some PT' => exists f', update_map est cf f l r = Some f' /\ related f' PT'
    | None => update_map est cf f l r = None
    end.
  Proof.
    intros H Hl Hr. pose proof (lor_bound l r Hl Hr) as HS. unfold pt_update, update_map, sbs_empty, sbs_union.
    destruct (N.eqb_spec l 0) as [|Hl0]; [reflexivity|]. destruct (N.eqb_spec r 0) as [|Hr0]; [reflexivity|]. cbn [orb].
    set (S := N.lor l r) in *. destruct (H S HS) as (S1 & S2 & S3 & S4 & S5).
    destruct (H l Hl) as (_ & _ & L3 & L4 & _). destruct (H r Hr) as (_ & _ & R3 & R4 & _).
    assert (Hm : (match p_model (f S) with Some m => Some m | None =>
        match p_model (f l), p_model (f r) with Some ml, Some mr => Some (est l r ml mr) | _, _ => None end end) =
        if negb (has_plan PT S) && negb (has_plan PT l && has_plan PT r) then None else Some (mdl S)).
    { rewrite S4, L4, R4. destruct (has_plan PT S); [reflexivity|]. destruct (has_plan PT l), (has_plan PT r); cbn [negb andb]; try reflexivity.
      rewrite (Hest l r Hl Hr). reflexivity. }
    rewrite Hm. clear Hm. destruct (negb (has_plan PT S) && negb (has_plan PT l && has_plan PT r)); [reflexivity|].
    set (f1 := pm_set S (with_model (Some (mdl S)) (f S)) f).
    assert (Hf1 : forall y, p_cost (f1 y) = p_cost (f y)).
    { intros y. unfold f1, pm_set. destruct (N.eqb_spec y S) as [->|]; reflexivity. }
    assert (HfS : p_model (f1 S) = Some (mdl S)) by (unfold f1; rewrite pm_set_same; reflexivity).
    assert (HS' : N.lor r l = S) by (unfold S; apply N.lor_comm).
    rewrite (Hcf l r f1 _ _ Hl Hr HfS (eq_trans (Hf1 l) L3) (eq_trans (Hf1 r) R3)).
    assert (HfS' : p_model (f1 (N.lor r l)) = Some (mdl (N.lor r l))) by (rewrite HS'; exact HfS).
    rewrite (Hcf r l f1 _ _ Hr Hl HfS' (eq_trans (Hf1 r) R3) (eq_trans (Hf1 l) L3)).
    rewrite Hlt, (related_has_plan f PT S H HS).
    set (c1 := jc l r (e_cost (PT l)) (e_cost (PT r))). set (c2 := jc r l (e_cost (PT r)) (e_cost (PT l))).
    assert (Hgo : forall c a b, a <> 0 -> b <> 0 ->
      match (if negb (has_plan PT S) || lt c (e_cost (PT S))
             then Some (fun s => if s =? S then {| e_left := a; e_right := b; e_cost := c |} else PT s) else Some PT) with
      | Some PT' => exists f', Some (if negb (has_plan PT S) || dlt (inj c) (p_cost (f S)) then pm_set S (PE a b (Some (mdl S)) (inj c)) f else f1) = Some f' /\ related f' PT'
      | None => Some (if negb (has_plan PT S) || dlt (inj c) (p_cost (f S)) then pm_set S (PE a b (Some (mdl S)) (inj c)) f else f1) = None
      end).
    { intros c a b Ha Hb. rewrite S3, Hlt. destruct (negb (has_plan PT S) || lt c (e_cost (PT S))) eqn:E.
      - eexists. split; [reflexivity|]. intros s Hs. unfold pm_set, has_plan. destruct (N.eqb_spec s S) as [->|Hne].
        + cbn [p_left p_right p_cost p_model e_left e_right e_cost]. split; [reflexivity|]. split; [reflexivity|]. split; [reflexivity|].
          split; [|tauto]. destruct (sbs_size S =? 1); [reflexivity|]. unfold sbs_empty. destruct (N.eqb_spec a 0); [tauto|reflexivity].
        + exact (H s Hs).
      - apply orb_false_iff in E. destruct E as [E _]. apply negb_false_iff in E. exists f1. split; [reflexivity|].
        intros s Hs. unfold f1, pm_set. destruct (N.eqb_spec s S) as [->|]; [|exact (H s Hs)].
        cbn [with_model p_left p_right p_cost p_model]. rewrite E. tauto. }
    destruct (lt c2 c1); apply Hgo; assumption.
  Qed.

  (** A client implements a function on the tables of PlanEnum.v. *)
  Definition implements (c : client M unit) (F : table C -> option (table C)) : Prop :=
    (within B n c /\ without_at c) /\ forall f PT, related f PT ->
    match F PT with
    | Some PT' => exists f', mrun est cf n c f = Some (tt, f') /\ related f' PT'
    | None => mrun est cf n c f = None
    end.

  Lemma mrun_cbind {R Q} (p : client M R) (k : R -> client M Q) f :
    mrun est cf n (cbind p k) f = match mrun est cf n p f with Some (r, f') => mrun est cf n (k r) f' | None => None end.
  Proof.
    revert f. induction p as [r| |s h IH|s h IH|h IH|s e h IH|s h IH|l r h IH|h IH]; intros f; cbn [cbind mrun]; try reflexivity; try apply IH.
    - destruct (pm_has_plan s f); [apply IH|reflexivity|reflexivity].
    - destruct (update_map est cf f l r); [apply IH|reflexivity].
  Qed.

  Lemma without_at_cbind {R Q} (p : client M R) (k : R -> client M Q) :
    without_at p -> (forall r, without_at (k r)) -> without_at (cbind p k).
  Proof.
    intros Hp Hk. induction p as [r| |s h IH|s h IH|h IH|s e h IH|s h IH|l r h IH|h IH]; cbn [cbind without_at] in *; auto.
  Qed.

  Lemma im_ext c F G : (forall PT, F PT = G PT) -> implements c F -> implements c G.
  Proof. intros E [H1 H2]. split; [exact H1|]. intros f PT H. rewrite <- E. apply H2, H. Qed.
  Lemma im_skip : implements skip Some.
  Proof. split; [split; exact I|]. intros f PT H. exists f. split; [reflexivity|exact H]. Qed.
  Lemma im_abort : implements Abort (fun _ => None).
  Proof. split; [split; exact I|]. intros f PT H. reflexivity. Qed.
  Lemma im_update l r : l < 2 ^ n -> r < 2 ^ n -> implements (update l r) (fun PT => pt_update lt jc PT l r).
  Proof.
    intros Hl Hr. split.
    - unfold update, skip. cbn [within without_at]. rewrite B_eq. split; [|exact I]. split; [exact Hl|]. split; [exact Hr|]. split; [apply lor_bound; assumption|exact I].
    - intros f PT H. pose proof (related_update f PT l r H Hl Hr) as U. unfold update, skip. cbn [mrun].
      destruct (pt_update lt jc PT l r) as [PT'|].
      + destruct U as (f' & -> & H'). exists f'. split; [reflexivity|exact H'].
      + rewrite U. reflexivity.
  Qed.
  Lemma im_seq c d F G : implements c F -> implements d G ->
    implements (andthen c d) (fun PT => match F PT with Some PT' => G PT' | None => None end).
  Proof.
    intros [[C1 C1'] C2] [[D1 D1'] D2].
    split; [split; [apply within_cbind; [exact C1|intros _; exact D1]|apply without_at_cbind; [exact C1'|intros _; exact D1']]|]. intros f PT H.
    unfold andthen. rewrite mrun_cbind. specialize (C2 f PT H). destruct (F PT) as [PT'|].
    - destruct C2 as (f' & -> & H'). exact (D2 f' PT' H').
    - rewrite C2. reflexivity.
  Qed.
  Lemma im_has_plan s (k : bool -> client M unit) (F : bool -> table C -> option (table C)) : s < 2 ^ n ->
    (forall b, implements (k b) (F b)) -> implements (HasPlan s k) (fun PT => F (has_plan PT s) PT).
  Proof.
    intros Hs Hk. split.
    - cbn [within without_at]. rewrite B_eq. split; [|intros b; apply Hk]. split; [exact Hs|]. intros b. rewrite <- B_eq. apply Hk.
    - intros f PT H. cbn [mrun]. rewrite (related_has_plan f PT s H Hs). apply (proj2 (Hk (has_plan PT s))), H.
  Qed.
  Lemma im_if (b : bool) c d F G : (b = true -> implements c F) -> (b = false -> implements d G) ->
    implements (if b then c else d) (fun PT => if b then F PT else G PT).
  Proof. destruct b; auto. Qed.
  Lemma im_insist s c F : s < 2 ^ n -> implements c F -> implements (insist_plan s c) (fun PT => if has_plan PT s then F PT else None).
  Proof.
    intros Hs H. apply (im_has_plan s (fun b => if b then c else Abort) (fun b PT => if b then F PT else None) Hs).
    intros [|]; [exact H|apply im_abort].
  Qed.
  Lemma im_unless s c F : s < 2 ^ n -> implements c F ->
    implements (continue_unless_plan s c) (fun PT => if has_plan PT s then F PT else Some PT).
  Proof.
    intros Hs H. apply (im_has_plan s (fun b => if b then c else skip) (fun b PT => if b then F PT else Some PT) Hs).
    intros [|]; [exact H|apply im_skip].
  Qed.
  Lemma im_foreach {A} (l : list A) body (F : table C -> A -> option (table C)) :
    (forall a, In a l -> implements (body a) (fun PT => F PT a)) -> implements (foreach l body) (foldM F l).
  Proof.
    induction l as [|a l IH]; intros H; cbn [foreach foldM].
    - apply im_skip.
    - apply (im_ext _ (fun PT => match F PT a with Some PT' => foldM F l PT' | None => None end)); [reflexivity|].
      apply (im_seq (body a) (foreach l body) (fun PT => F PT a) (foldM F l)); [apply H; left; reflexivity|].
      apply IH. intros b Hb. apply H. right. exact Hb.
  Qed.
  Lemma im_for {A} (o : option (list A)) body (F : table C -> A -> option (table C)) :
    (forall l a, o = Some l -> In a l -> implements (body a) (fun PT => F PT a)) -> implements (for_loop o body) (for_list o F).
  Proof.
    destruct o as [l|]; intros H; unfold for_loop, for_list; [|apply im_abort].
    apply im_foreach. intros a Ha. apply (H l a eq_refl Ha).
  Qed.

  (** ** The subproblems are below [2 ^ n]. *)
  Lemma sub_lt a s : Sub a s -> s < 2 ^ n -> a < 2 ^ n.
  Proof. intros H1 H2. apply Sub_ones. apply Sub_ones in H2. exact (Sub_trans _ _ _ H1 H2). Qed.
  Lemma land_lt_l a b : a < 2 ^ n -> N.land a b < 2 ^ n.
  Proof. intros H. apply (sub_lt _ a); [|exact H]. intros j Hj. unfold mem in *. rewrite N.land_spec in Hj. apply andb_true_iff in Hj. tauto. Qed.
  Lemma diff_lt S O : S < 2 ^ n -> sbs_diff S O < 2 ^ n.
  Proof. apply land_lt_l. Qed.
  Lemma subset_loop_lt f : forall cur S stop l a, S < 2 ^ n -> cur < 2 ^ n -> subset_loop f cur S stop = Some l -> In a l -> a < 2 ^ n.
  Proof.
    induction f as [|f IH]; intros cur S stop l a HS Hc E Ha; cbn [subset_loop] in E; [discriminate|].
    destruct (cur =? stop); [inversion E; subst; destruct Ha|].
    destruct (subset_loop f (next_subset cur S) S stop) as [l'|] eqn:E'; [|discriminate]. cbn [option_map] in E. inversion E; subst.
    destruct Ha as [<-|Ha]; [exact Hc|]. apply (IH (next_subset cur S) S stop l' a HS); [|exact E'|exact Ha].
    unfold next_subset. rewrite N.land_comm. apply land_lt_l, HS.
  Qed.
  Lemma least_lt S : S < 2 ^ n -> least_subset S < 2 ^ n.
  Proof. apply land_lt_l. Qed.
  Lemma gh_loop_lt nx f : forall g l a, gh_limit g = 2 ^ n -> gh_loop nx f g = Some l -> In a l -> a < 2 ^ n.
  Proof.
    induction f as [|f IH]; intros g l a Hg E Ha; cbn [gh_loop] in E; [discriminate|].
    destruct (N.ltb_spec (gh_set g) (gh_limit g)) as [Hlt'|]; [|inversion E; subst; destruct Ha].
    destruct (gh_loop nx f _) as [l'|] eqn:E'; [|discriminate]. cbn [option_map] in E. inversion E; subst.
    destruct Ha as [<-|Ha]; [rewrite <- Hg; exact Hlt'|]. exact (IH _ l' a (Hg : gh_limit {| gh_set := _; gh_limit := gh_limit g |} = _) E' Ha).
  Qed.
  Lemma k_subsets_lt nx f k l a : k_subsets nx f k n = Some l -> In a l -> a < 2 ^ n.
  Proof.
    unfold k_subsets, gh_enumerate_all. destruct ((k <=? n) && (n <? 64)); [|discriminate]. destruct (sbs_All k); [|discriminate].
    intros E. eapply gh_loop_lt; [|exact E]. cbn [gh_limit]. apply W64_shl1, Hn.
  Qed.
  Lemma k_subsets_after_lt nx f s l a : k_subsets_after nx f s n = Some l -> In a l -> a < 2 ^ n.
  Proof.
    unfold k_subsets_after. destruct (gh_enumerate_from s n) as [g|] eqn:Eg; [|discriminate].
    intros E. eapply gh_loop_lt; [|exact E]. cbn [gh_limit]. unfold gh_enumerate_from in Eg.
    destruct (n <? 64); [|discriminate]. destruct (s <=? shl64 1 n); [|discriminate]. inversion Eg. cbn [gh_limit]. apply W64_shl1, Hn.
  Qed.
  Lemma range_lt S : In S (range 1 (shl64 1 n)) -> S < 2 ^ n.
  Proof. intros H. apply range_in in H. rewrite W64_shl1 in H by exact Hn. exact H. Qed.

  (** ** The enumerators. *)
  Lemma im_pe_all fuel : implements (c_pe_all fuel n) (pe_all lt jc fuel n).
  Proof.
    unfold c_pe_all, pe_all. apply im_foreach. intros S HS. apply range_lt in HS. unfold pe_all_step.
    apply im_if; intros _; [apply im_skip|]. destruct (sbs_hi S) as [limit|]; [|apply im_abort].
    apply im_for. intros l S1 El H1. assert (L1 : S1 < 2 ^ n) by (exact (subset_loop_lt _ _ _ _ _ _ HS (least_lt S HS) El H1)).
    assert (L2 : sbs_diff S S1 < 2 ^ n) by (apply diff_lt, HS). cbv zeta.
    apply (im_ext _ (fun PT => if has_plan PT S1 then (if has_plan PT (sbs_diff S S1) then pt_update lt jc PT S1 (sbs_diff S S1) else None) else None)).
    - intros PT. destruct (has_plan PT S1), (has_plan PT (sbs_diff S S1)); reflexivity.
    - apply (im_insist S1 _ (fun PT => if has_plan PT (sbs_diff S S1) then pt_update lt jc PT S1 (sbs_diff S S1) else None) L1).
      apply (im_insist _ _ (fun PT => pt_update lt jc PT S1 (sbs_diff S S1)) L2). apply im_update; assumption.
  Qed.

  Variable (m : matrix).
  Variable (nx : N -> sbs).
  Lemma im_pair S1 S2 : S1 < 2 ^ n -> S2 < 2 ^ n -> implements (c_pair m S1 S2) (fun PT => dpsize_pair lt jc m PT S1 S2).
  Proof.
    intros H1 H2. unfold c_pair, dpsize_pair.
    apply (im_ext _ (fun PT => if has_plan PT S2 then
      (if negb (sbs_empty (sbs_inter S1 S2)) then Some PT else if negb (is_connected2 m S1 S2) then Some PT else pt_update lt jc PT S1 S2) else Some PT)).
    - intros PT. destruct (has_plan PT S2); reflexivity.
    - apply (im_unless S2 _ (fun PT => if negb (sbs_empty (sbs_inter S1 S2)) then Some PT else if negb (is_connected2 m S1 S2) then Some PT else pt_update lt jc PT S1 S2) H2).
      apply im_if; intros _; [apply im_skip|]. apply im_if; intros _; [apply im_skip|]. apply im_update; assumption.
  Qed.
  Lemma im_two (o : option (list N)) (o' : N -> option (list N)) :
    (forall l a, o = Some l -> In a l -> a < 2 ^ n) -> (forall s l a, o' s = Some l -> In a l -> a < 2 ^ n) ->
    implements (for_loop o (fun S1 => continue_unless_plan S1 (for_loop (o' S1) (fun S2 => c_pair m S1 S2))))
      (for_list o (fun PT S1 => if negb (has_plan PT S1) then Some PT else for_list (o' S1) (fun PT S2 => dpsize_pair lt jc m PT S1 S2) PT)).
  Proof.
    intros Ho Ho'. apply im_for. intros l S1 El H1. pose proof (Ho l S1 El H1) as L1.
    apply (im_ext _ (fun PT => if has_plan PT S1 then for_list (o' S1) (fun PT S2 => dpsize_pair lt jc m PT S1 S2) PT else Some PT)).
    - intros PT. destruct (has_plan PT S1); reflexivity.
    - apply (im_unless S1 _ _ L1). apply im_for. intros l' S2 El' H2. apply im_pair; [exact L1|]. exact (Ho' S1 l' S2 El' H2).
  Qed.
  Lemma im_dpsize fuel : implements (c_dpsize nx m fuel n) (dpsize lt jc nx m fuel n).
  Proof.
    unfold c_dpsize, dpsize. apply im_foreach. intros s _. apply im_foreach. intros s1 _. unfold c_dpsize_inner, dpsize_inner.
    apply (im_two (k_subsets nx fuel s1 n) (fun _ => k_subsets nx fuel (s - s1) n)); intros; eapply k_subsets_lt; eassumption.
  Qed.
  Lemma im_dpsizeopt fuel : implements (c_dpsizeopt nx m fuel n) (dpsizeopt lt jc nx m fuel n).
  Proof.
    unfold c_dpsizeopt, dpsizeopt. apply im_foreach. intros s _. apply im_foreach. intros s1 _. unfold c_dpsizeopt_inner, dpsizeopt_inner.
    cbv zeta. destruct (s1 =? s - s1).
    - apply (im_two (k_subsets nx fuel s1 n) (fun S1 => k_subsets_after nx fuel S1 n)); intros; [eapply k_subsets_lt|eapply k_subsets_after_lt]; eassumption.
    - apply (im_two (k_subsets nx fuel s1 n) (fun _ => k_subsets nx fuel (s - s1) n)); intros; eapply k_subsets_lt; eassumption.
  Qed.
  Lemma im_split S O : S < 2 ^ n -> O < 2 ^ n -> implements (c_split m S O) (fun PT => split_step lt jc m PT S O).
  Proof.
    intros HS HO. unfold c_split, split_step. cbv zeta. pose proof (diff_lt S O HS) as HC.
    apply im_if; intros _; [apply im_abort|].
    apply (im_ext _ (fun PT => if has_plan PT O then (if has_plan PT (sbs_diff S O) then pt_update lt jc PT O (sbs_diff S O) else Some PT) else Some PT)).
    - intros PT. destruct (has_plan PT O), (has_plan PT (sbs_diff S O)); reflexivity.
    - apply (im_unless O _ (fun PT => if has_plan PT (sbs_diff S O) then pt_update lt jc PT O (sbs_diff S O) else Some PT) HO).
      apply (im_unless _ _ (fun PT => pt_update lt jc PT O (sbs_diff S O)) HC). apply im_update; assumption.
  Qed.
  Lemma im_splits fuel S stop : S < 2 ^ n ->
    implements (for_loop (subset_loop fuel (least_subset S) S stop) (fun O => c_split m S O))
      (for_list (subset_loop fuel (least_subset S) S stop) (fun PT O => split_step lt jc m PT S O)).
  Proof.
    intros HS. apply im_for. intros l O El HO. apply im_split; [exact HS|].
    exact (subset_loop_lt _ _ _ _ _ _ HS (least_lt S HS) El HO).
  Qed.
  Lemma im_split_all fuel S : S < 2 ^ n -> implements (c_split_all m fuel S) (fun PT => split_all lt jc m fuel PT S).
  Proof.
    intros HS. unfold c_split_all, split_all. destruct (is_connected m S) as [[|]|]; [apply im_splits, HS|apply im_skip|apply im_abort].
  Qed.
  Lemma im_dpsizesub fuel : implements (c_dpsizesub nx m fuel n) (dpsizesub lt jc nx m fuel n).
  Proof.
    unfold c_dpsizesub, dpsizesub. apply im_foreach. intros s _. apply im_for. intros l S El HS. apply im_split_all.
    eapply k_subsets_lt; eassumption.
  Qed.
  Lemma im_dpsub fuel : implements (c_dpsub m fuel n) (dpsub lt jc m fuel n).
  Proof.
    unfold c_dpsub, dpsub. apply im_foreach. intros S HS. apply range_lt in HS. apply im_if; intros _; [apply im_skip|].
    apply im_split_all, HS.
  Qed.
  Lemma im_dpsubopt fuel : implements (c_dpsubopt m fuel n) (dpsubopt lt jc m fuel n).
  Proof.
    unfold c_dpsubopt, dpsubopt. apply im_foreach. intros S HS. apply range_lt in HS. apply im_if; intros _; [apply im_skip|].
    unfold c_split_half, split_half. destruct (is_connected m S) as [[|]|]; [|apply im_skip|apply im_abort].
    destruct (sbs_hi S) as [limit|]; [apply im_splits, HS|apply im_abort].
  Qed.
  Lemma im_dpccp fuel : graph n m -> symmetric m -> chunk_fuel <= N.of_nat fuel -> implements (c_dpccp m fuel n) (dpccp lt jc m fuel n).
  Proof.
    intros HG Hs Hf. unfold c_dpccp, dpccp. rewrite (All_ones n Hn). apply im_for. intros l [a b] El Hab.
    assert (HW : W64 (N.ones n)).
    { unfold W64. rewrite N.ones_equiv. assert (2 ^ n < 2 ^ 64) by (apply N.pow_lt_mono_r; lia). clear - H. lia. }
    destruct (for_each_CSG_pair_spec n m (N.ones n) fuel HG Hs HW Hf) as (out & E & _ & Hout). rewrite El in E. inversion E; subst out.
    apply Hout in Hab. destruct Hab as (Ha & Hb & _). cbn [fst snd]. apply im_update; apply Sub_ones; assumption.
  Qed.
  Lemma im_plan_gen fuel : forall S, S < 2 ^ n -> implements (c_plan_gen m fuel S) (fun PT => plan_gen lt jc m fuel PT S).
  Proof.
    induction fuel as [|f IH]; intros S HS; cbn [c_plan_gen plan_gen]; [apply im_abort|].
    apply (im_has_plan S (fun b => if b then skip else _) (fun b PT => if b then Some PT else _) HS). intros [|]; [apply im_skip|].
    apply im_for. intros l sub El Hsub. assert (L1 : sub < 2 ^ n) by (exact (subset_loop_lt _ _ _ _ _ _ HS (least_lt S HS) El Hsub)).
    pose proof (diff_lt S sub HS) as L2. cbv zeta. apply im_if; intros _; [|apply im_skip].
    destruct (is_connected m sub) as [[|]|], (is_connected m (sbs_diff S sub)) as [[|]|]; try apply im_skip; try apply im_abort.
    apply (im_seq _ _ (fun PT => plan_gen lt jc m f PT sub) (fun PT => match plan_gen lt jc m f PT (sbs_diff S sub) with
      None => None | Some PT2 => pt_update lt jc PT2 sub (sbs_diff S sub) end)); [apply IH, L1|].
    apply (im_ext _ (fun PT => match plan_gen lt jc m f PT (sbs_diff S sub) with
      Some PT2 => pt_update lt jc PT2 sub (sbs_diff S sub) | None => None end)); [reflexivity|].
    apply (im_seq _ _ (fun PT => plan_gen lt jc m f PT (sbs_diff S sub)) (fun PT => pt_update lt jc PT sub (sbs_diff S sub))); [apply IH, L2|].
    apply im_update; assumption.
  Qed.
  Lemma im_tdbasic fuel : implements (c_tdbasic m fuel n) (tdbasic lt jc m fuel n).
  Proof.
    unfold c_tdbasic, tdbasic. rewrite (All_ones n Hn). apply im_plan_gen. apply Sub_ones. intros j Hj. exact Hj.
  Qed.

  Lemma mc_children_lt steps : forall Cs T X bits S c x t, Sub Cs S -> Sub bits S -> In (c, x, t) (mc_children steps Cs T X bits) -> Sub c S.
  Proof.
    induction steps as [|st IH]; intros Cs T X bits S c x t HC Hb; cbn [mc_children]; [intros []|].
    destruct (bits =? 0); [intros []|]. cbv zeta. intros [E|Hin].
    - inversion E; subst. apply union_Sub; [exact HC|]. intros j Hj. apply Hb. unfold it_as_set, mem in *.
      rewrite N.land_spec in Hj. apply andb_true_iff in Hj. tauto.
    - apply (IH Cs T (sbs_union X (it_as_set bits)) (it_next bits) S c x t HC); [|exact Hin]. intros j Hj. apply Hb. unfold it_next, mem in *.
      rewrite N.land_spec in Hj. apply andb_true_iff in Hj. tauto.
  Qed.
  Lemma mc_while_lt S f : forall W out a b, (forall c x t, In (c, x, t) W -> Sub c S) -> mc_while m S f W = Some out -> In (a, b) out ->
    Sub a S /\ b = sbs_diff S a.
  Proof.
    induction f as [|f IH]; intros W out a b HW E Hab; cbn [mc_while] in E; [discriminate|].
    destruct W as [|[[c x] t] W]; [inversion E; subst; destruct Hab|].
    destruct (mc_connected m S c t) as [conn|]; [|discriminate]. cbv zeta in E.
    match type of E with match mc_while m S f ?W' with _ => _ end = _ => destruct (mc_while m S f W') as [out'|] eqn:E' end; [|discriminate].
    assert (HC : Sub c S) by (apply (HW c x t); left; reflexivity).
    assert (HIH : In (a, b) out' -> Sub a S /\ b = sbs_diff S a).
    { intros Hin. refine (IH _ out' a b _ E' Hin). intros c' x' t' Hin'. apply in_app_or in Hin'. destruct Hin' as [Hin'|Hin'].
      - destruct (sbs_size S <=? sbs_size c + 1); [destruct Hin'|]. apply in_rev in Hin'.
        refine (mc_children_lt _ _ _ _ _ S _ _ _ HC _ Hin'). intros j Hj. unfold sbs_diff, sbs_inter, mem in *.
        rewrite N.land_spec in Hj. apply andb_true_iff in Hj. destruct Hj as [Hj _]. rewrite N.land_spec in Hj. apply andb_true_iff in Hj. tauto.
      - apply (HW c' x' t'). right. exact Hin'. }
    destruct conn; inversion E; subst out; [destruct Hab as [Hab|Hab]; [inversion Hab; subst; split; [exact HC|reflexivity]|]|]; apply HIH; assumption.
  Qed.
  Lemma mc_partition_lt S f l a b : S < 2 ^ n -> mc_partition m f S = Some l -> In (a, b) l -> a < 2 ^ n /\ b < 2 ^ n.
  Proof.
    intros HS E Hab. unfold mc_partition in E. destruct (sbs_empty S || sbs_is_singleton S); [discriminate|]. cbv zeta in E.
    destruct (fun H => mc_while_lt S f _ l a b H E Hab) as [H1 ->].
    - intros c x t [Ec|[]]. inversion Ec; subst. intros j Hj. unfold it_as_set, mem in *. rewrite N.land_spec in Hj. apply andb_true_iff in Hj. tauto.
    - split; [exact (sub_lt a S H1 HS)|apply diff_lt, HS].
  Qed.
  Lemma im_mc_solve fuel : forall S, S < 2 ^ n -> implements (c_mc_solve m fuel S) (fun PT => mc_solve lt jc m fuel PT S).
  Proof.
    induction fuel as [|f IH]; intros S HS; cbn [c_mc_solve mc_solve]; [apply im_abort|].
    apply im_for. intros l [a b] El Hab. destruct (mc_partition_lt S f l a b HS El Hab) as [La Lb]. cbn [fst snd].
    assert (Hsolve : forall s, s < 2 ^ n -> implements (HasPlan s (fun b => if b then skip else c_mc_solve m f s))
      (fun PT => if has_plan PT s then Some PT else mc_solve lt jc m f PT s)).
    { intros s Hs. apply (im_has_plan s (fun b => if b then skip else c_mc_solve m f s) (fun b PT => if b then Some PT else mc_solve lt jc m f PT s) Hs).
      intros [|]; [apply im_skip|apply IH, Hs]. }
    set (G2 := fun PT => if has_plan PT b then pt_update lt jc PT a b else None).
    set (G1 := fun PT => match (if has_plan PT b then Some PT else mc_solve lt jc m f PT b) with Some PT2 => G2 PT2 | None => None end).
    apply (im_ext _ (fun PT => match (if has_plan PT a then Some PT else mc_solve lt jc m f PT a) with
      Some PT1 => (if has_plan PT1 a then G1 PT1 else None) | None => None end)).
    - intros PT. destruct (if has_plan PT a then Some PT else mc_solve lt jc m f PT a) as [PT1|]; [|reflexivity].
      destruct (has_plan PT1 a); cbn [negb]; [|reflexivity]. unfold G1, G2.
      destruct (if has_plan PT1 b then Some PT1 else mc_solve lt jc m f PT1 b) as [PT2|]; [|reflexivity].
      destruct (has_plan PT2 b); reflexivity.
    - apply (im_seq _ _ (fun PT => if has_plan PT a then Some PT else mc_solve lt jc m f PT a) (fun PT1 => if has_plan PT1 a then G1 PT1 else None)); [apply Hsolve, La|].
      apply (im_insist a _ G1 La).
      apply (im_seq _ _ (fun PT => if has_plan PT b then Some PT else mc_solve lt jc m f PT b) G2); [apply Hsolve, Lb|].
      apply (im_insist b _ (fun PT => pt_update lt jc PT a b) Lb). apply im_update; assumption.
  Qed.
  Lemma im_tdmincut fuel : implements (c_tdmincut m fuel n) (tdmincut lt jc m fuel n).
  Proof.
    unfold c_tdmincut, tdmincut. apply im_if; intros _; [|apply im_skip]. rewrite (All_ones n Hn). apply im_mc_solve.
    apply Sub_ones. intros j Hj. exact Hj.
  Qed.
End Rel.
