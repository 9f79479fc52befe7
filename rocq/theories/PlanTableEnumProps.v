(** * C55: the exhaustive join enumerators find optimal plans on both plan tables. *)
From Coq Require Import NArith ZArith QArith Qreduction List Bool Lia Arith.
From Verif Require Import Word WordProofs Bitset BitsetProofs GraphSpec Graph GraphProofs ClosureProofs CSGProofs GraphProps PlanSpec PlanEnum PlanProofs
  PlanInst PlanProps MsfProps CSGOrder PlanCcp PlanTable PlanTableSpec PlanTableProofs PlanTableProps PlanTableEnum PlanTableEnumProofs.
Import ListNotations.
Open Scope N_scope.
Arguments N.pow : simpl never.
Arguments N.testbit : simpl never.

(** ** Specification. *)
(** The join tree a plan table shows for the sources [S]: an entry names the two subproblems that are joined. *)
Inductive shows {M} (f : @pmap M) : N -> jtree -> Prop :=
| sh_leaf i : i < 64 -> p_left (f (2 ^ i)) = 0 -> p_right (f (2 ^ i)) = 0 -> shows f (2 ^ i) (JLeaf i)
| sh_node S tl tr : popcount S <> 1 -> shows f (p_left (f S)) tl -> shows f (p_right (f S)) tr ->
    S = N.lor (p_left (f S)) (p_right (f S)) -> shows f S (JNode tl tr).

(** The estimator and the cost function of the program compute, from the entries of a plan table, the costs of a cost model:
    [mdl s] is the data model of the sources [s], [inj c] is the double that represents the cost [c]. *)
Definition computes {M C} (n : N) (est : N -> N -> M -> M -> M) (cf : N -> N -> reader M)
    (lt : C -> C -> bool) (jc : N -> N -> C -> C -> C) (inf : C) (inj : C -> dbl) (mdl : N -> M) : Prop :=
  inj inf = PosInf /\ (forall a b, dlt (inj a) (inj b) = lt a b) /\
  (forall l r, l < 2 ^ n -> r < 2 ^ n -> est l r (mdl l) (mdl r) = mdl (N.lor l r)) /\
  (forall l r f a b, l < 2 ^ n -> r < 2 ^ n -> p_model (f (N.lor l r)) = Some (mdl (N.lor l r)) ->
    p_cost (f l) = inj a -> p_cost (f r) = inj b -> value (cf l r) f = Some (inj (jc l r a b))).

(** On every implementation of plan tables, for every large enough loop bound: after the optimizer wrote the entries of the
    sources, the enumerator runs without failing and the table shows for [S] a cheapest tree, with its cost. *)
Definition solves {M C} (E : nat -> N -> client M unit) (J : N -> N -> Prop) (n S : N) est cf
    (lt : C -> C -> bool) (jc : N -> N -> C -> C -> C) (leaf : N -> C) (inj : C -> dbl) (mdl : N -> M) : Prop :=
  forall T (A : actual M T) t0, implementation n 0 T A t0 ->
  exists K, forall fuel, (K <= fuel)%nat -> exists t f tree,
    run est cf A (andthen (c_sources n mdl (fun i => inj (leaf i))) (E fuel n)) t0 = Ok (tt, t) /\
    holds n 0 A t f /\ shows f S tree /\ optimal lt leaf jc J S tree /\ p_cost (f S) = inj (jcost leaf jc tree).

Definition bottom_up_clients {M} : list (matrix -> nat -> N -> client M unit) :=
  [ c_dpsize gh_next_bmi2; c_dpsizeopt gh_next_bmi2; c_dpsizesub gh_next_bmi2; c_dpsub; c_dpsubopt ].
Definition top_down_clients {M} : list (matrix -> nat -> N -> client M unit) := [ c_tdbasic; c_tdmincut ].

(** ** Proofs. *)
Section Sources.
  Context {M C : Type}.
  Variables (est : N -> N -> M -> M -> M) (cf : N -> N -> reader M) (n : N).
  Variables (inf : C) (leaf : N -> C) (inj : C -> dbl) (mdl : N -> M).
  Hypothesis Hn : n < 64.
  Hypothesis Hinf : inj inf = PosInf.

  Definition src_entry (i : N) : pentry M := PE 0 0 (Some (mdl (2 ^ i))) (inj (leaf i)).
  Lemma sources_within : forall l, (forall i, In i l -> i < n) ->
    let c := foreach l (fun i => Write (shl64 1 i) (PE 0 0 (Some (mdl (shl64 1 i))) (inj (leaf i))) skip) in
    within (bound n 0) n c /\ without_at c /\ forall f, exists f', mrun est cf n c f = Some (tt, f') /\
    forall s, f' s = if existsb (fun i => s =? 2 ^ i) l then src_entry (ctz s) else f s.
  Proof.
    induction l as [|i l IH]; intros Hl; cbn [foreach].
    - split; [exact I|]. split; [exact I|]. intros f. exists f. split; [reflexivity|]. reflexivity.
    - destruct IH as (W & A & R); [intros j Hj; apply Hl; right; exact Hj|].
      assert (Hi : i < n) by (apply Hl; left; reflexivity).
      assert (Es : shl64 1 i = 2 ^ i) by (apply shl64_pow; lia).
      unfold andthen, skip. cbn [cbind within without_at mrun]. rewrite Es.
      assert (HB : 2 ^ i < bound n 0).
      { unfold bound. rewrite N.add_0_r. apply N.pow_lt_mono_r; [reflexivity|exact Hi]. }
      split; [|split; [exact A|]].
      + split; [exact HB|]. split; [|exact W]. split; cbn [p_left p_right]; lia.
      + intros f. destruct (R (pm_set (2 ^ i) (PE 0 0 (Some (mdl (2 ^ i))) (inj (leaf i))) f)) as (f' & E & H').
        exists f'. split; [exact E|]. intros s. rewrite H'. cbn [existsb]. unfold pm_set.
        destruct (N.eqb_spec s (2 ^ i)) as [->|]; cbn [orb]; [|reflexivity].
        rewrite ctz_pow2. unfold src_entry. destruct (existsb _ l); reflexivity.
  Qed.
  Lemma sources_related : let c := c_sources n mdl (fun i => inj (leaf i)) in
    within (bound n 0) n c /\ without_at c /\
    exists f, mrun est cf n c pm_empty = Some (tt, f) /\ related n inj mdl f (pt_init inf leaf).
  Proof.
    intros c. destruct (sources_within (range 0 n)) as (W & A & R); [intros i Hi; apply range_in in Hi; exact Hi|].
    split; [exact W|]. split; [exact A|]. destruct (R pm_empty) as (f & E & H). exists f. split; [exact E|].
    intros s Hs. rewrite (H s). unfold pt_init, has_plan, sbs_is_singleton. cbn [e_left e_right e_cost].
    assert (Hiff : existsb (fun i => s =? 2 ^ i) (range 0 n) = (sbs_size s =? 1)).
    { apply Bool.eq_iff_eq_true. rewrite existsb_exists.
      assert (HW : W64 s). { unfold W64. apply N.lt_trans with (2 ^ n); [exact Hs|]. apply N.pow_lt_mono_r; lia. }
      rewrite (singleton_iff s HW). split.
      - intros (i & Hi & Ei). apply range_in in Hi. apply N.eqb_eq in Ei. exists i. split; [lia|exact Ei].
      - intros (i & Hi & ->). exists i. split; [|apply N.eqb_refl]. unfold range. apply in_map_iff. exists (N.to_nat i).
        assert (Hin : i < n) by (apply N.pow_lt_mono_r_iff in Hs; [exact Hs|reflexivity]).
        split; [lia|]. apply in_seq. lia. }
    rewrite Hiff. destruct (N.eqb_spec (sbs_size s) 1) as [E1|E1].
    - cbn [src_entry p_left p_right p_cost p_model].
      assert (Es : 2 ^ ctz s = s).
      { assert (HW : W64 s). { unfold W64. apply N.lt_trans with (2 ^ n); [exact Hs|]. apply N.pow_lt_mono_r; lia. }
        assert (E2 : sbs_size s =? 1 = true) by (apply N.eqb_eq; exact E1).
        apply (singleton_iff s HW) in E2. destruct E2 as (i & _ & ->). rewrite ctz_pow2. reflexivity. }
      rewrite Es. tauto.
    - unfold pm_empty, pe_default, sbs_empty. cbn [p_left p_right p_cost p_model N.eqb negb]. rewrite Hinf. tauto.
  Qed.
  Lemma related_shows f PT : related n inj mdl f PT -> forall S t, describes PT S t -> S < 2 ^ n -> shows f S t.
  Proof.
    intros H S t D. induction D as [i Hi H1 H2|S tl tr H1 D1 IH1 D2 IH2 ES]; intros HS.
    - destruct (H _ HS) as (E1 & E2 & _). constructor; [exact Hi|rewrite E1; exact H1|rewrite E2; exact H2].
    - destruct (H _ HS) as (E1 & E2 & _).
      assert (Hsub : forall a b, S = N.lor a b -> a < 2 ^ n /\ b < 2 ^ n).
      { intros a b E. split; apply Sub_ones; apply Sub_ones in HS; intros j Hj; apply HS; rewrite E; unfold mem in *;
          rewrite N.lor_spec, Hj; [reflexivity|apply orb_true_r]. }
      destruct (Hsub _ _ ES) as [La Lb]. constructor; [exact H1|rewrite E1; apply IH1, La|rewrite E2; apply IH2, Lb|rewrite E1, E2; exact ES].
  Qed.
End Sources.

Section Solve.
  Context {M C : Type}.
  Variables (est : N -> N -> M -> M -> M) (cf : N -> N -> reader M) (n : N).
  Variables (lt : C -> C -> bool) (jc : N -> N -> C -> C -> C) (inf : C) (leaf : N -> C) (inj : C -> dbl) (mdl : N -> M).
  Hypothesis Hn : n < 64.
  Hypothesis HB : cost_within (bound n 0) cf.
  Hypothesis HC : computes n est cf lt jc inf inj mdl.

  Lemma solve (E : nat -> N -> client M unit) (F : nat -> N -> table C -> option (table C)) J S : S < 2 ^ n ->
    (exists K0, forall fuel, (K0 <= fuel)%nat -> implements est cf n inj mdl (E fuel n) (F fuel n)) ->
    (exists K, forall f, (K <= f)%nat -> exists PT t, F f n (pt_init inf leaf) = Some PT /\
      describes PT S t /\ optimal lt leaf jc J S t /\ jcost leaf jc t = e_cost (PT S)) ->
    solves E J n S est cf lt jc leaf inj mdl.
  Proof.
    intros HS [K0 Him] [K HK] T A t0 HI. exists (K0 + K)%nat. intros fuel Hf. specialize (Him fuel ltac:(lia)).
    destruct (HK fuel ltac:(lia)) as (PT & tree & EF & D & O & EC). destruct HC as (Hinf & _).
    destruct (sources_related est cf n inf leaf inj mdl Hn Hinf) as (W & At & f0 & Ef0 & R0).
    destruct Him as [[W1 At1] Him]. specialize (Him f0 _ R0). rewrite EF in Him. destruct Him as (f1 & Ef1 & R1).
    destruct (impl_sim est n 0 T A t0 Hn HI) as (Rel & HSim & H0).
    set (c := andthen (c_sources n mdl (fun i => inj (leaf i))) (E fuel n)).
    assert (Wc : within (bound n 0) n c) by (apply within_cbind; [exact W|intros _; exact W1]).
    assert (Ac : without_at c) by (apply without_at_cbind; [exact At|intros _; exact At1]).
    pose proof (sim_run est cf n 0 Hn HB A Rel HSim c Wc t0 pm_empty H0) as HR.
    assert (Em : mrun est cf n c pm_empty = Some (tt, f1)).
    { unfold c, andthen. rewrite mrun_cbind, Ef0. exact Ef1. }
    destruct (run est cf A c t0) as [[[] t]| |]; cbn [agrees] in HR; [|congruence|tauto].
    destruct HR as (f & Ef & HRel). rewrite Em in Ef. inversion Ef; subst f.
    exists t, f1, tree. split; [reflexivity|]. split; [exact (rel_holds n 0 T A Rel t f1 HSim HRel)|].
    split; [exact (related_shows n inj mdl f1 PT R1 S tree D HS)|]. split; [exact O|].
    destruct (R1 S HS) as (_ & _ & E3 & _). rewrite E3, EC. reflexivity.
  Qed.
End Solve.

(** ** Theorems. *)
Lemma ones_lt n : N.ones n < 2 ^ n.
Proof. apply Sub_ones. intros j Hj. exact Hj. Qed.

(** Every enumerator finds a cheapest join tree without cross products for all sources. *)
Theorem C55_enumerators : forall (M : Type) E, In E (@bottom_up_clients M ++ top_down_clients) ->
  forall (C : Type) est cf (lt : C -> C -> bool) jc inf leaf inj mdl n m, 0 < n < 64 -> cost_within (bound n 0) cf ->
  cost_model lt jc -> computes n est cf lt jc inf inj mdl -> graph n m -> symmetric m -> connected m (N.ones n) ->
  solves (E m) (adjacent m) n (N.ones n) est cf lt jc leaf inj mdl.
Proof.
  intros M E HE C est cf lt jc inf leaf inj mdl n m Hn HB HCM HC HG Hs Hc. pose proof HC as (Hinf & Hlt & Hest & Hcf).
  assert (Hn' : n < 64) by tauto.
  assert (Hgo : forall F, In F (bottom_up ++ top_down) -> forall fuel0,
    (forall fuel, (fuel0 <= fuel)%nat -> implements est cf n inj mdl (E m fuel n) (F C lt jc m fuel n)) ->
    solves (E m) (adjacent m) n (N.ones n) est cf lt jc leaf inj mdl).
  { intros F HF fuel0 H. refine (solve est cf n lt jc inf leaf inj mdl Hn' HB HC (E m) (fun fuel n => F C lt jc m fuel n) _ _ (ones_lt n) _ _).
    - exists fuel0. exact H.
    - exact (C35_optimal F HF C lt jc inf leaf HCM n m Hn HG Hs Hc). }
  unfold bottom_up_clients, top_down_clients in HE. cbn [app In] in HE.
  destruct HE as [<-|[<-|[<-|[<-|[<-|[<-|[<-|[]]]]]]]].
  - apply (Hgo (fun C lt jc => dpsize lt jc gh_next_bmi2)) with (fuel0 := O); [unfold bottom_up; cbn [app In]; tauto|].
    intros fuel _. apply im_dpsize; assumption.
  - apply (Hgo (fun C lt jc => dpsizeopt lt jc gh_next_bmi2)) with (fuel0 := O); [unfold bottom_up; cbn [app In]; tauto|].
    intros fuel _. apply im_dpsizeopt; assumption.
  - apply (Hgo (fun C lt jc => dpsizesub lt jc gh_next_bmi2)) with (fuel0 := O); [unfold bottom_up; cbn [app In]; tauto|].
    intros fuel _. apply im_dpsizesub; assumption.
  - apply (Hgo (fun C lt jc => dpsub lt jc)) with (fuel0 := O); [unfold bottom_up; cbn [app In]; tauto|].
    intros fuel _. apply im_dpsub; assumption.
  - apply (Hgo (fun C lt jc => dpsubopt lt jc)) with (fuel0 := O); [unfold bottom_up; cbn [app In]; tauto|].
    intros fuel _. apply im_dpsubopt; assumption.
  - apply (Hgo (fun C lt jc => tdbasic lt jc)) with (fuel0 := O); [unfold bottom_up, top_down; cbn [app In]; tauto|].
    intros fuel _. apply im_tdbasic; assumption.
  - apply (Hgo (fun C lt jc => tdmincut lt jc)) with (fuel0 := O); [unfold bottom_up, top_down; cbn [app In]; tauto|].
    intros fuel _. apply im_tdmincut; assumption.
Qed.
Print Assumptions C55_enumerators.

(** The enumerators that fill the table bottom-up find cheapest trees for all connected sets of sources. *)
Theorem C55_enumerators_subproblems : forall (M : Type) E, In E (@bottom_up_clients M) ->
  forall (C : Type) est cf (lt : C -> C -> bool) jc inf leaf inj mdl n m S, n < 64 -> cost_within (bound n 0) cf ->
  cost_model lt jc -> computes n est cf lt jc inf inj mdl -> graph n m -> symmetric m -> S <> 0 -> S < 2 ^ n -> connected m S ->
  solves (E m) (adjacent m) n S est cf lt jc leaf inj mdl.
Proof.
  intros M E HE C est cf lt jc inf leaf inj mdl n m S Hn HB HCM HC HG Hs Hz HS Hc. pose proof HC as (Hinf & Hlt & Hest & Hcf).
  assert (Hgo : forall F, In F bottom_up -> (forall fuel, implements est cf n inj mdl (E m fuel n) (F C lt jc m fuel n)) ->
    solves (E m) (adjacent m) n S est cf lt jc leaf inj mdl).
  { intros F HF H. refine (solve est cf n lt jc inf leaf inj mdl Hn HB HC (E m) (fun fuel n => F C lt jc m fuel n) _ _ HS _ _).
    - exists O. intros fuel _. apply H.
    - exact (C35_subproblems F HF C lt jc inf leaf HCM n m S Hn HG Hs Hz HS Hc). }
  unfold bottom_up_clients in HE. cbn [In] in HE.
  destruct HE as [<-|[<-|[<-|[<-|[<-|[]]]]]].
  - apply (Hgo (fun C lt jc => dpsize lt jc gh_next_bmi2)); [unfold bottom_up; cbn [In]; tauto|]. intros. apply im_dpsize; assumption.
  - apply (Hgo (fun C lt jc => dpsizeopt lt jc gh_next_bmi2)); [unfold bottom_up; cbn [In]; tauto|]. intros. apply im_dpsizeopt; assumption.
  - apply (Hgo (fun C lt jc => dpsizesub lt jc gh_next_bmi2)); [unfold bottom_up; cbn [In]; tauto|]. intros. apply im_dpsizesub; assumption.
  - apply (Hgo (fun C lt jc => dpsub lt jc)); [unfold bottom_up; cbn [In]; tauto|]. intros. apply im_dpsub; assumption.
  - apply (Hgo (fun C lt jc => dpsubopt lt jc)); [unfold bottom_up; cbn [In]; tauto|]. intros. apply im_dpsubopt; assumption.
Qed.
Print Assumptions C55_enumerators_subproblems.

(** [PEall] finds cheapest trees, cross products included, for all sets of sources. *)
Theorem C55_pe_all : forall (M C : Type) est cf (lt : C -> C -> bool) jc inf leaf inj (mdl : N -> M) n S, n < 64 ->
  cost_within (bound n 0) cf -> cost_model lt jc -> computes n est cf lt jc inf inj mdl -> S <> 0 -> S < 2 ^ n ->
  solves c_pe_all (fun _ _ => True) n S est cf lt jc leaf inj mdl.
Proof.
  intros M C est cf lt jc inf leaf inj mdl n S Hn HB HCM HC Hz HS. pose proof HC as (Hinf & Hlt & Hest & Hcf).
  refine (solve est cf n lt jc inf leaf inj mdl Hn HB HC c_pe_all (pe_all lt jc) _ _ HS _ _).
  - exists O. intros fuel _. apply im_pe_all; assumption.
  - exact (C35_pe_all C lt jc inf leaf HCM n S Hn Hz HS).
Qed.
Print Assumptions C55_pe_all.

(** [DPccp], on the join graphs it works for (C35). *)
Theorem C55_dpccp : forall (M C : Type) est cf (lt : C -> C -> bool) jc inf leaf inj (mdl : N -> M) n m S, n < 64 ->
  cost_within (bound n 0) cf -> cost_model lt jc -> computes n est cf lt jc inf inj mdl -> graph n m -> symmetric m ->
  acyclic m \/ distance_hereditary m (N.ones n) -> S <> 0 -> S < 2 ^ n -> connected m S ->
  solves (c_dpccp m) (adjacent m) n S est cf lt jc leaf inj mdl.
Proof.
  intros M C est cf lt jc inf leaf inj mdl n m S Hn HB HCM HC HG Hs Hd Hz HS Hc. pose proof HC as (Hinf & Hlt & Hest & Hcf).
  refine (solve est cf n lt jc inf leaf inj mdl Hn HB HC (c_dpccp m) (dpccp lt jc m) _ _ HS _ _).
  - exists (N.to_nat chunk_fuel). intros fuel Hf. apply im_dpccp; try assumption. lia.
  - destruct Hd as [Hd|Hd].
    + exact (C35_dpccp_acyclic C lt jc inf leaf HCM n m S Hn HG Hs Hd Hz HS Hc).
    + exact (C35_dpccp C lt jc inf leaf HCM n m S Hn HG Hs Hd Hz HS Hc).
Qed.
Print Assumptions C55_dpccp.

(** ** The hypotheses hold for [C_out] on estimated cardinalities: costs are numbers or infinite. *)
Definition olt (a b : option N) : bool := match a, b with Some x, Some y => x <? y | Some _, None => true | None, _ => false end.
Definition ocout (card : N -> N) (l r : N) (a b : option N) : option N :=
  match a, b with Some x, Some y => Some (card (N.lor l r) + x + y) | _, _ => None end.
Definition oinj (a : option N) : dbl := match a with Some x => Fin (inject_Z (Z.of_N x)) | None => PosInf end.
Lemma Qred_int z : Qred (inject_Z z) = inject_Z z.
Proof.
  unfold Qred, inject_Z. pose proof (Z.ggcd_gcd z 1) as G. pose proof (Z.ggcd_correct_divisors z 1) as D. rewrite Z.gcd_1_r in G.
  destruct (Z.ggcd z 1) as [g [a b]]. cbn [fst snd] in *. subst g. destruct D as [D1 D2]. rewrite Z.mul_1_l in D1, D2. subst. reflexivity.
Qed.
Lemma dadd_oinj a b : dadd (Fin (inject_Z (Z.of_N a))) (Fin (inject_Z (Z.of_N b))) = Fin (inject_Z (Z.of_N (a + b))).
Proof.
  unfold dadd. f_equal. rewrite <- (Qred_int (Z.of_N (a + b))). apply Qred_complete. rewrite N2Z.inj_add, inject_Z_plus. apply Qeq_refl.
Qed.
Example C55_enumerators_nonvacuous : forall card : N -> N,
  cost_model olt (ocout card) /\ cost_within (bound 6 0) (card_reader (fun c => Fin (inject_Z (Z.of_N c)))) /\
  computes 6 (fun l r _ _ => card (N.lor l r)) (card_reader (fun c => Fin (inject_Z (Z.of_N c)))) olt (ocout card) None oinj card /\
  graph 6 cycle5 /\ symmetric cycle5 /\ connected cycle5 (N.ones 6).
Proof.
  intros card. split; [|split; [apply card_reader_within|split; [|split; [apply cycle5_graph|split; [apply cycle5_graph|apply C35_nonvacuous]]]]].
  - unfold cost_model, cle, olt, ocout. split; [|split; [|split]].
    + intros [a|]; [apply N.ltb_irrefl|reflexivity].
    + intros [a|] [b|] [c|]; rewrite ?N.ltb_ge; try congruence; try reflexivity. lia.
    + intros [a|] [b|]; rewrite ?N.ltb_ge; auto. lia.
    + intros l r [a|] [a'|] [b|] [b'|]; rewrite ?N.ltb_ge; try congruence; try reflexivity. lia.
  - split; [reflexivity|]. split; [|split; [reflexivity|]].
    + intros [a|] [b|]; cbn [oinj dlt olt]; try reflexivity. unfold Qle_bool. cbn [inject_Z Qnum Qden]. rewrite !Z.mul_1_r.
      apply Bool.eq_iff_eq_true. rewrite negb_true_iff, Z.leb_gt, N.ltb_lt. lia.
    + intros l r f a b _ _ Em Ea Eb. unfold card_reader. cbn [value]. rewrite Em. cbn [value]. rewrite Ea, Eb.
      destruct a as [a|], b as [b|]; unfold oinj, ocout; rewrite ?dadd_oinj; reflexivity.
Qed.
Print Assumptions C55_enumerators_nonvacuous.
