(** * C35, C36: the exhaustive join enumerators. *)
From Coq Require Import NArith List Bool Lia Arith.
From Verif Require Import Word WordProofs Bitset BitsetProofs GraphSpec Graph GraphProofs ClosureProofs CSGProofs GraphProps
  PlanSpec PlanEnum PlanProofs PlanInst PlanAlgos PlanTD PlanMinCut PlanTDInst.
Import ListNotations.
Open Scope N_scope.

(** An enumerator, as a function of the cost model, the join graph, the loop bound, the number of sources and the initial
    plan table. *)
Definition enumerator := forall (C : Type) (lt : C -> C -> bool) (jc : N -> N -> C -> C -> C),
  matrix -> nat -> N -> table C -> option (table C).
(** The enumerators that fill the table bottom-up. *)
Definition bottom_up : list enumerator :=
  [ (fun C lt jc => dpsize lt jc gh_next_bmi2); (fun C lt jc => dpsizeopt lt jc gh_next_bmi2);
    (fun C lt jc => dpsizesub lt jc gh_next_bmi2); (fun C lt jc => dpsub lt jc); (fun C lt jc => dpsubopt lt jc) ].
Definition top_down : list enumerator :=
  [ (fun C lt jc => tdbasic lt jc); (fun C lt jc => tdmincut lt jc) ].

(** With a large enough loop bound (the loops terminate) and started on the initial table, no assertion of the enumerator
    fails and the final table describes for the sources [S] a tree that is valid, cheapest and has the stored cost. *)
Definition finds_optimal (E : enumerator) {C : Type} (lt : C -> C -> bool) (jc : N -> N -> C -> C -> C) (inf : C)
    (leaf : N -> C) (m : matrix) (n S : N) : Prop :=
  exists K, forall f, (K <= f)%nat -> exists PT t, E C lt jc m f n (pt_init inf leaf) = Some PT /\
    describes PT S t /\ optimal lt leaf jc (adjacent m) S t /\ jcost leaf jc t = e_cost (PT S).

(** Bottom-up enumerators: optimal for every connected subproblem. *)
Theorem C35_subproblems : forall E, In E bottom_up -> forall (C : Type) (lt : C -> C -> bool) jc inf leaf, cost_model lt jc ->
  forall n m S, n < 64 -> graph n m -> symmetric m -> S <> 0 -> S < 2 ^ n -> connected m S ->
  finds_optimal E lt jc inf leaf m n S.
Proof.
  intros E HE C lt jc inf leaf HCM n m S Hn HG Hs Hz HS Hc.
  assert (HW : W64 S).
  { assert (2 ^ n < 2 ^ 64) by (apply N.pow_lt_mono_r; lia). unfold W64. lia. }
  assert (HSub : Sub S (N.ones n)).
  { intros j Hj. unfold mem in *. destruct (N.lt_ge_cases j n) as [H|H]; [apply N.ones_spec_low; exact H|].
    rewrite (testbit_high S n j HS H) in Hj. discriminate. }
  assert (Hok : ok (adjacent m) S) by (apply (ok_connected m Hs S HW); tauto).
  assert (Hgo : forall f, enough f -> exists PT, E C lt jc m f n (pt_init inf leaf) = Some PT /\
    table_optimal lt jc leaf (adjacent m) (N.ones n) PT).
  { intros f Hf. unfold bottom_up in HE. cbn [In] in HE.
    destruct HE as [<-|[<-|[<-|[<-|[<-|[]]]]]].
    - apply dpsize_optimal; assumption.
    - apply dpsizeopt_optimal; assumption.
    - apply dpsizesub_optimal; assumption.
    - apply dpsub_optimal; assumption.
    - apply dpsubopt_optimal; assumption. }
  exists K0. intros f Hf. destruct (Hgo f Hf) as [PT [E1 E2]]. destruct (E2 S Hok HSub) as [t Ht]. exists PT, t. tauto.
Qed.
Print Assumptions C35_subproblems.

(** All of them: optimal for the whole query. *)
Theorem C35_optimal : forall E, In E (bottom_up ++ top_down) ->
  forall (C : Type) (lt : C -> C -> bool) jc inf leaf, cost_model lt jc ->
  forall n m, 0 < n < 64 -> graph n m -> symmetric m -> connected m (N.ones n) ->
  finds_optimal E lt jc inf leaf m n (N.ones n).
Proof.
  intros E HE C lt jc inf leaf HCM n m Hn HG Hs Hc.
  assert (Hz : N.ones n <> 0).
  { rewrite N.ones_equiv. assert (2 ^ 1 <= 2 ^ n) by (apply N.pow_le_mono_r; lia). change (2 ^ 1) with 2 in H. lia. }
  apply in_app_or in HE. destruct HE as [HE|HE].
  - apply C35_subproblems; try assumption; [lia|]. rewrite N.ones_equiv. pose proof (N.pow_nonzero 2 n). lia.
  - exists (64 + K0)%nat. intros f Hf.
    assert (Ef : exists f', enough f' /\ f = (64 + f')%nat).
    { exists (f - 64)%nat. unfold enough. split; [apply Nat.le_add_le_sub_l; exact Hf|].
      symmetry. rewrite Nat.add_comm. apply Nat.sub_add. eapply Nat.le_trans; [apply Nat.le_add_r|exact Hf]. }
    destruct Ef as [f' [Hf' ->]]. destruct Hn as [_ Hn].
    unfold top_down in HE. cbn [In] in HE. destruct HE as [<-|[<-|[]]].
    + destruct (tdbasic_optimal lt jc inf leaf HCM n m f' HG Hs Hn Hf' Hc Hz) as [PT [E1 [t Ht]]]. exists PT, t. tauto.
    + destruct (tdmincut_optimal lt jc inf leaf HCM n m f' HG Hs Hn Hf' Hc Hz) as [PT [E1 [t Ht]]]. exists PT, t. tauto.
Qed.
Print Assumptions C35_optimal.

(** [PEall] admits cross products: optimal among all trees, for every set of sources, whatever the graph. *)
Theorem C35_pe_all : forall (C : Type) (lt : C -> C -> bool) jc inf leaf, cost_model lt jc ->
  forall n S, n < 64 -> S <> 0 -> S < 2 ^ n ->
  exists K, forall f, (K <= f)%nat -> exists PT t, pe_all lt jc f n (pt_init inf leaf) = Some PT /\
    describes PT S t /\ optimal lt leaf jc (fun _ _ => True) S t /\ jcost leaf jc t = e_cost (PT S).
Proof.
  intros C lt jc inf leaf HCM n S Hn Hz HS. exists K0. intros f Hf.
  destruct (pe_all_optimal lt jc inf leaf HCM n f Hn Hf) as [PT [E1 E2]].
  assert (HW : W64 S).
  { assert (2 ^ n < 2 ^ 64) by (apply N.pow_lt_mono_r; lia). unfold W64. lia. }
  assert (HSub : Sub S (N.ones n)).
  { intros j Hj. unfold mem in *. destruct (N.lt_ge_cases j n) as [H|H]; [apply N.ones_spec_low; exact H|].
    rewrite (testbit_high S n j HS H) in Hj. discriminate. }
  destruct (E2 S) as [t Ht]; [|exact HSub|exists PT, t; tauto].
  apply (ok_all leaf n f Hn S HW). exact Hz.
Qed.
Print Assumptions C35_pe_all.

(** The trees delivered are proper join trees over the sources: exactly the sources of [S], each once (a valid tree's
    subtrees are disjoint). *)
Fixpoint jleaves (t : jtree) : list N := match t with JLeaf i => [i] | JNode l r => jleaves l ++ jleaves r end.
Theorem C35_valid_tree : forall J t, jvalid J t -> NoDup (jleaves t) /\ forall i, In i (jleaves t) <-> mem i (jset t).
Proof.
  intros J. induction t as [i|l IHl r IHr]; cbn [jvalid jleaves jset].
  - intros _. split; [constructor; [easy|constructor]|]. intros j. cbn [In]. rewrite mem_pow2. split; [intros [->|[]]; reflexivity|intros ->; left; reflexivity].
  - intros [Hl [Hr [Hd _]]]. destruct (IHl Hl) as [L1 L2]. destruct (IHr Hr) as [R1 R2]. split.
    + clear IHl IHr. revert L2. generalize (jset l) Hd. intros sl Hd' L2.
      assert (HX : forall x, In x (jleaves l) -> ~ In x (jleaves r)).
      { intros x H1 H2. apply L2 in H1. apply R2 in H2. exact (Hd' x H1 H2). }
      clear - L1 R1 HX. induction (jleaves l) as [|x L IH]; [exact R1|]. cbn [app]. inversion L1; subst. constructor.
      * rewrite in_app_iff. intros [H|H]; [contradiction|]. exact (HX x (or_introl eq_refl) H).
      * apply IH; [assumption|]. intros y Hy. apply HX. right. exact Hy.
    + intros i. rewrite in_app_iff, L2, R2. unfold mem. rewrite N.lor_spec, orb_true_iff. tauto.
Qed.
Print Assumptions C35_valid_tree.

(** ** C_out over natural-number cardinalities satisfies the requirements on cost models. *)
Definition cout (card : N -> N) (l r a b : N) : N := card (N.lor l r) + a + b.
Lemma cout_cost_model card : cost_model N.ltb (cout card).
Proof.
  unfold cost_model, cle, cout. repeat split; intros.
  - apply N.ltb_irrefl.
  - apply N.ltb_ge in H, H0. apply N.ltb_ge. lia.
  - destruct (N.ltb_spec b a), (N.ltb_spec a b); try lia; auto.
  - apply N.ltb_ge in H, H0. apply N.ltb_ge. lia.
Qed.

Definition card5 (s : N) : N := match s with 33 | 35 | 39 | 47 | 63 => 1 | 55 => 500 | _ => 1000 end.
Example C35_nonvacuous : cost_model N.ltb (cout card5) /\ graph 6 cycle5 /\ symmetric cycle5 /\ connected cycle5 (N.ones 6) /\
  (forall E, In E (bottom_up ++ top_down) ->
     option_map (fun PT => e_cost (PT 63)) (E N N.ltb (cout card5) cycle5 200%nat 6 (pt_init 1000000 (fun _ => 0))) = Some 5).
Proof.
  split; [apply cout_cost_model|]. split; [apply cycle5_graph|]. split; [apply cycle5_graph|]. split.
  - destruct (C09_is_connected 6 cycle5 63) as [b [E1 E2]]; [apply cycle5_graph|apply cycle5_graph|vm_compute; reflexivity|].
    apply E2. vm_compute in E1. congruence.
  - intros E HE. cbn [In app bottom_up top_down] in HE.
    repeat (destruct HE as [<-|HE]; [vm_compute; reflexivity|]). destruct HE.
Qed.

(** ** Finding: DPccp is not optimal on cyclic graphs.  Because [for_each_CSG_pair_undirected] does not visit sub-pairs
    first (C12_order_refuted), the plan for {0,1,2,3,5} is improved after it has been used: the entry for all six sources
    keeps the stale cost and its children have been replaced.  The stored cost is 504, the optimum is 5. *)
Theorem C35_dpccp_refuted : exists fuel PT,
  dpccp N.ltb (cout card5) cycle5 fuel 6 (pt_init 1000000 (fun _ => 0)) = Some PT /\ e_cost (PT 63) = 504 /\
  exists t, jvalid (adjacent cycle5) t /\ jset t = 63 /\ jcost (fun _ => 0) (cout card5) t = 5.
Proof.
  destruct (dpccp N.ltb (cout card5) cycle5 200 6 (pt_init 1000000 (fun _ => 0))) as [PT|] eqn:E.
  - exists 200%nat, PT. split; [exact E|]. split.
    + assert (X : option_map (fun PT => e_cost (PT 63)) (dpccp N.ltb (cout card5) cycle5 200 6 (pt_init 1000000 (fun _ => 0))) = Some 504)
        by (vm_compute; reflexivity).
      rewrite E in X. cbn [option_map] in X. congruence.
    + exists (JNode (JNode (JNode (JNode (JNode (JLeaf 0) (JLeaf 5)) (JLeaf 1)) (JLeaf 2)) (JLeaf 3)) (JLeaf 4)).
      split; [|split; vm_compute; reflexivity]. cbn [jvalid jset].
      assert (Hd : forall a b, N.land a b = 0 -> disjoint a b).
      { intros a b H i Ha Hb. unfold mem in *. assert (X : N.testbit (N.land a b) i = true) by (rewrite N.land_spec, Ha, Hb; reflexivity).
        rewrite H, N.bits_0 in X. discriminate. }
      repeat match goal with |- _ /\ _ => split end; try (vm_compute; reflexivity); try (apply Hd; vm_compute; reflexivity).
      * exists 0, 5. repeat split; vm_compute; reflexivity.
      * exists 0, 1. repeat split; vm_compute; reflexivity.
      * exists 1, 2. repeat split; vm_compute; reflexivity.
      * exists 2, 3. repeat split; vm_compute; reflexivity.
      * exists 0, 4. repeat split; vm_compute; reflexivity.
  - exfalso. assert (X : option_map (fun PT => e_cost (PT 63)) (dpccp N.ltb (cout card5) cycle5 200 6 (pt_init 1000000 (fun _ => 0))) = Some 504)
      by (vm_compute; reflexivity). rewrite E in X. discriminate.
Qed.
Print Assumptions C35_dpccp_refuted.

(** ** C36: all of them store the same final cost. *)
Theorem C36_agree : forall E1 E2, In E1 (bottom_up ++ top_down) -> In E2 (bottom_up ++ top_down) ->
  forall (C : Type) (lt : C -> C -> bool) jc inf1 inf2 leaf, cost_model lt jc ->
  (forall a b, cle lt a b -> cle lt b a -> a = b) ->
  forall n m, 0 < n < 64 -> graph n m -> symmetric m -> connected m (N.ones n) ->
  exists K, forall f1 f2, (K <= f1)%nat -> (K <= f2)%nat -> exists PT1 PT2,
    E1 C lt jc m f1 n (pt_init inf1 leaf) = Some PT1 /\ E2 C lt jc m f2 n (pt_init inf2 leaf) = Some PT2 /\
    e_cost (PT1 (N.ones n)) = e_cost (PT2 (N.ones n)).
Proof.
  intros E1 E2 H1 H2 C lt jc inf1 inf2 leaf HCM Hanti n m Hn HG Hs Hc.
  destruct (C35_optimal E1 H1 C lt jc inf1 leaf HCM n m Hn HG Hs Hc) as [K1 X1].
  destruct (C35_optimal E2 H2 C lt jc inf2 leaf HCM n m Hn HG Hs Hc) as [K2 X2].
  exists (Nat.max K1 K2). intros f1 f2 Hf1 Hf2.
  destruct (X1 f1) as [PT1 [t1 [A1 [A2 [A3 A4]]]]]; [eapply Nat.le_trans; [apply Nat.le_max_l|exact Hf1]|].
  destruct (X2 f2) as [PT2 [t2 [B1 [B2 [B3 B4]]]]]; [eapply Nat.le_trans; [apply Nat.le_max_r|exact Hf2]|].
  exists PT1, PT2. split; [exact A1|]. split; [exact B1|]. rewrite <- A4, <- B4.
  destruct A3 as [V1 [S1 O1]]. destruct B3 as [V2 [S2 O2]]. apply Hanti; [apply O1|apply O2]; assumption.
Qed.
Print Assumptions C36_agree.

(** The same counterexample contradicts agreement for DPccp: DPsub stores 5, DPccp 504. *)
Theorem C36_dpccp_refuted : exists fuel,
  option_map (fun PT => e_cost (PT 63)) (dpsub N.ltb (cout card5) cycle5 fuel 6 (pt_init 1000000 (fun _ => 0))) = Some 5 /\
  option_map (fun PT => e_cost (PT 63)) (dpccp N.ltb (cout card5) cycle5 fuel 6 (pt_init 1000000 (fun _ => 0))) = Some 504.
Proof. exists 200%nat. split; vm_compute; reflexivity. Qed.
Print Assumptions C36_dpccp_refuted.
Example C36_nonvacuous : forall a b, cle N.ltb a b -> cle N.ltb b a -> a = b.
Proof. unfold cle. intros a b H1 H2. apply N.ltb_ge in H1, H2. lia. Qed.
