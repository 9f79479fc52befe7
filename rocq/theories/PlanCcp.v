(** * C35, C36: DPccp on graphs whose connected subsets preserve distances, e.g. without cycles. *)
From Coq Require Import NArith List Bool Lia Arith.
From Verif Require Import Word WordProofs Bitset BitsetProofs GraphSpec Graph GraphProofs ClosureProofs CSGProofs GraphProps
  PlanSpec PlanEnum PlanProofs PlanInst PlanAlgos PlanTD PlanMinCut PlanTDInst PlanProps MsfProps CSGOrder.
Import ListNotations.
Open Scope N_scope.

Section Ccp.
  Context {C : Type}.
  Variables (lt : C -> C -> bool) (jc : N -> N -> C -> C -> C) (inf : C) (leaf : N -> C).
  Hypothesis HCM : cost_model lt jc.
  Variables (n : N) (m : matrix).
  Hypothesis (HG : graph n m) (Hsym : symmetric m) (Hn : n < 64) (Hdh : distance_hereditary m (N.ones n)).
  Notation J := (adjacent m).
  Notation U := (N.ones n).

  Lemma dpccp_optimal : exists K, forall f, (K <= f)%nat -> exists PT, dpccp lt jc m f n (pt_init inf leaf) = Some PT /\ table_optimal lt jc leaf J U PT.
  Proof.
    assert (HU : W64 U) by (unfold W64; rewrite N.ones_equiv; assert (2 ^ n < 2 ^ 64) by (apply N.pow_lt_mono_r; lia); lia).
    assert (HJs : forall a b, J a b -> J b a) by (intros a b (x & y & Hx & Hy & He); exists y, x; split; [exact Hy|split; [exact Hx|apply Hsym; exact He]]).
    destruct (C12_pairs n m U HG Hsym HU) as (K1 & H1). destruct (C12_order n m U HG Hsym HU Hdh) as (K2 & H2).
    exists (Nat.max K1 K2). intros f Hf. destruct (H1 f ltac:(lia)) as (tr & E & Hnd & Hin & Hall). pose proof (H2 f ltac:(lia) tr E) as Hord. clear H1 H2.
    assert (Hcall : Forall (call_ok J U) tr).
    { apply Forall_forall. intros [a b] Hab. destruct (Hin a b Hab) as (A1 & A2 & A3 & A4 & A5 & A6 & A7 & A8).
      unfold call_ok. cbn [fst snd]. split; [apply (ok_connected m Hsym a (Sub_W64 a U A1 HU)); tauto|].
      split; [apply (ok_connected m Hsym b (Sub_W64 b U A2 HU)); tauto|]. tauto. }
    destruct (trace_optimal lt jc inf leaf HCM J HJs U tr Hcall) as (PT & P1 & _ & P2).
    - intros a b Ha Hb Hd HJ HS. destruct (ok_W64 J a Ha) as [Wa Za], (ok_W64 J b Hb) as [Wb Zb].
      apply (ok_connected m Hsym a Wa) in Ha. apply (ok_connected m Hsym b Wb) in Hb.
      apply Hall; try tauto; [exact (Sub_union_l a b U HS)|exact (Sub_union_r a b U HS)].
    - intros P p Q Etr q Hq. assert (Hp : In p tr) by (rewrite Etr; apply in_app_iff; right; left; reflexivity).
      assert (Hqt : In q tr) by (rewrite Etr; apply in_app_iff; right; exact Hq).
      rewrite Forall_forall in Hcall. pose proof (call_facts lt jc leaf HCM J HJs U p (Hcall p Hp)) as Hpf.
      assert (X : ~ (un q = fst p \/ un q = snd p)); [|tauto]. intros X. destruct Hq as [<-|Hq]; [tauto|].
      destruct p as [c d], q as [a b]. cbn [fst snd] in X. apply (before_asym tr (a, b) (c, d) Hnd); [apply Hord; assumption|].
      rewrite Etr. apply before_app_r. apply (before_cross [(c, d)] Q); [left; reflexivity|exact Hq].
    - exists PT. split; [|exact P2]. unfold dpccp. rewrite All_ones by exact Hn. unfold for_list. rewrite E. exact P1.
  Qed.
End Ccp.


(** DPccp finds an optimal plan for every connected subproblem if distances are the same in all connected subgraphs ... *)
Theorem C35_dpccp : forall (C : Type) (lt : C -> C -> bool) jc inf leaf, cost_model lt jc ->
  forall n m S, n < 64 -> graph n m -> symmetric m -> distance_hereditary m (N.ones n) -> S <> 0 -> S < 2 ^ n -> connected m S ->
  finds_optimal (fun C lt jc => dpccp lt jc) lt jc inf leaf m n S.
Proof.
  intros C lt jc inf leaf HCM n m S Hn HG Hs Hdh Hz HS Hc.
  assert (HSub : Sub S (N.ones n)) by (apply Sub_ones; exact HS).
  assert (HW : W64 S). { unfold W64. apply N.lt_trans with (2 ^ n); [exact HS|]. apply N.pow_lt_mono_r; lia. }
  destruct (dpccp_optimal lt jc inf leaf HCM n m HG Hs Hn Hdh) as (K & H). exists K. intros f Hf. destruct (H f Hf) as (PT & E1 & E2).
  assert (Hok : ok (adjacent m) S) by (apply (ok_connected m Hs S HW); tauto).
  destruct (E2 S Hok HSub) as (t & Ht). exists PT, t. tauto.
Qed.
Print Assumptions C35_dpccp.
(** ... in particular for acyclic join graphs: chains, stars, snowflakes. *)
Theorem C35_dpccp_acyclic : forall (C : Type) (lt : C -> C -> bool) jc inf leaf, cost_model lt jc ->
  forall n m S, n < 64 -> graph n m -> symmetric m -> acyclic m -> S <> 0 -> S < 2 ^ n -> connected m S ->
  finds_optimal (fun C lt jc => dpccp lt jc) lt jc inf leaf m n S.
Proof. intros. apply C35_dpccp; try assumption. apply acyclic_distance_hereditary; assumption. Qed.
Print Assumptions C35_dpccp_acyclic.

(** On these graphs DPccp stores the same final cost as all other enumerators. *)
Theorem C36_dpccp_agree : forall E, In E (bottom_up ++ top_down) ->
  forall (C : Type) (lt : C -> C -> bool) jc inf1 inf2 leaf, cost_model lt jc ->
  (forall a b, cle lt a b -> cle lt b a -> a = b) ->
  forall n m, 0 < n < 64 -> graph n m -> symmetric m -> connected m (N.ones n) -> acyclic m \/ distance_hereditary m (N.ones n) ->
  exists K, forall f1 f2, (K <= f1)%nat -> (K <= f2)%nat -> exists PT1 PT2,
    E C lt jc m f1 n (pt_init inf1 leaf) = Some PT1 /\ dpccp lt jc m f2 n (pt_init inf2 leaf) = Some PT2 /\
    e_cost (PT1 (N.ones n)) = e_cost (PT2 (N.ones n)).
Proof.
  intros E HE C lt jc inf1 inf2 leaf HCM Hanti n m Hn HG Hs Hc Hd.
  assert (Hdh : distance_hereditary m (N.ones n)) by (destruct Hd; [apply acyclic_distance_hereditary; assumption|assumption]).
  destruct (C35_optimal E HE C lt jc inf1 leaf HCM n m Hn HG Hs Hc) as [K1 X1].
  assert (Hz : N.ones n <> 0).
  { rewrite N.ones_equiv. assert (2 ^ 1 <= 2 ^ n) by (apply N.pow_le_mono_r; lia). change (2 ^ 1) with 2 in H. lia. }
  destruct (C35_dpccp C lt jc inf2 leaf HCM n m (N.ones n) (proj2 Hn) HG Hs Hdh Hz) as [K2 X2]; [|exact Hc|].
  { rewrite N.ones_equiv. pose proof (N.pow_nonzero 2 n). lia. }
  exists (Nat.max K1 K2). intros f1 f2 Hf1 Hf2.
  destruct (X1 f1) as [PT1 [t1 [A1 [A2 [A3 A4]]]]]; [eapply Nat.le_trans; [apply Nat.le_max_l|exact Hf1]|].
  destruct (X2 f2) as [PT2 [t2 [B1 [B2 [B3 B4]]]]]; [eapply Nat.le_trans; [apply Nat.le_max_r|exact Hf2]|].
  exists PT1, PT2. split; [exact A1|]. split; [exact B1|]. rewrite <- A4, <- B4.
  destruct A3 as [V1 [S1 O1]]. destruct B3 as [V2 [S2 O2]]. apply Hanti; [apply O1|apply O2]; assumption.
Qed.
Print Assumptions C36_dpccp_agree.

(** Non-vacuity: a chain of five tables. *)
Example C35_dpccp_example : graph 5 (chain 5) /\ symmetric (chain 5) /\ acyclic (chain 5) /\ connected (chain 5) (N.ones 5) /\
  option_map (fun PT => e_cost (PT 31)) (dpccp N.ltb (cout (fun s => s)) (chain 5) 100 5 (pt_init 1000000 (fun _ => 0))) =
  option_map (fun PT => e_cost (PT 31)) (dpsub N.ltb (cout (fun s => s)) (chain 5) 100 5 (pt_init 1000000 (fun _ => 0))).
Proof.
  destruct (chain_acyclic 5 ltac:(lia)) as (A & B & D). split; [exact A|]. split; [exact B|]. split; [exact D|]. split; [|vm_compute; reflexivity].
  destruct (C09_is_connected 5 (chain 5) 31) as [b [E1 E2]]; [exact A|exact B|vm_compute; reflexivity|].
  apply E2. vm_compute in E1. congruence.
Qed.
