(** * Proofs about connected-subgraph enumeration. *)
From Coq Require Import NArith List Bool Lia Sorting.Sorted Sorting.Permutation.
From Verif Require Import Word WordProofs Bitset BitsetProofs GraphSpec Graph GraphProofs.
Import ListNotations.
Open Scope N_scope.
Arguments N.pow : simpl never.
Arguments N.testbit : simpl never.

(** ** The loop over all non-empty subsets with a uniform amount of fuel. *)
Definition K0 : nat := N.to_nat (2 ^ 64 + 3).
Lemma K0_eq : N.of_nat K0 = 2 ^ 64 + 3. Proof. unfold K0. rewrite N2Nat.id. reflexivity. Qed.
Global Opaque K0.

Lemma NoDup_bound (l : list N) B : NoDup l -> (forall x, In x l -> x < B) -> N.of_nat (length l) <= B.
Proof.
  intros Hn Hb. assert (H : (length l <= length (map N.of_nat (seq 0 (N.to_nat B))))%nat).
  { apply NoDup_incl_length; [exact Hn|]. intros x Hx. apply in_map_iff. exists (N.to_nat x). specialize (Hb x Hx).
    split; [lia|]. apply in_seq. lia. }
  rewrite map_length, seq_length in H. lia.
Qed.

Lemma subset_loop_mono f : forall cur S stop l, subset_loop f cur S stop = Some l ->
  forall f', (f <= f')%nat -> subset_loop f' cur S stop = Some l.
Proof.
  induction f as [|f IH]; intros cur S stop l H f' Hf; [discriminate|]. destruct f' as [|f']; [lia|].
  cbn [subset_loop] in *. destruct (cur =? stop); [exact H|].
  destruct (subset_loop f (next_subset cur S) S stop) as [r|] eqn:E; [|discriminate].
  rewrite (IH _ _ _ _ E f') by lia. exact H.
Qed.
Lemma subset_loop_len f : forall cur S stop l, subset_loop f cur S stop = Some l ->
  subset_loop (Datatypes.S (length l)) cur S stop = Some l.
Proof.
  induction f as [|f IH]; intros cur S stop l H; [discriminate|]. cbn [subset_loop] in H.
  cbn [subset_loop]. destruct (cur =? stop); [exact H|].
  destruct (subset_loop f (next_subset cur S) S stop) as [r|] eqn:E; [|discriminate]. cbn [option_map] in H.
  injection H as <-. cbn [length]. rewrite (IH _ _ _ _ E). reflexivity.
Qed.
Lemma subset_loop_to_0 S : S <> 0 -> next_subset S S = 0 -> forall f cur l, subset_loop f cur S S = Some l ->
  (forall t, In t l -> t <> 0) -> exists f', subset_loop f' cur S 0 = Some (l ++ [S]).
Proof.
  intros HS Hnext. induction f as [|f IH]; intros cur l H Hnz; [discriminate|]. cbn [subset_loop] in H.
  destruct (N.eqb_spec cur S) as [E|E].
  - injection H as <-. exists 2%nat. cbn [subset_loop app]. destruct (N.eqb_spec cur 0) as [E0|_]; [congruence|].
    subst cur. rewrite Hnext. reflexivity.
  - destruct (subset_loop f (next_subset cur S) S S) as [r|] eqn:Er; [|discriminate]. cbn [option_map] in H.
    injection H as <-. destruct (IH _ _ Er) as [f' Hf']; [intros t Ht; apply Hnz; right; exact Ht|].
    exists (Datatypes.S f'). cbn [subset_loop app]. destruct (N.eqb_spec cur 0) as [E0|_].
    + exfalso. apply (Hnz cur); [left; reflexivity|exact E0].
    + rewrite Hf'. reflexivity.
Qed.
Lemma subset_loop_all S : W64 S -> exists l, StronglySorted N.lt l /\ (forall t, In t l <-> Sub t S /\ t <> 0) /\
  N.of_nat (length l) <= 2 ^ 64 /\ forall f, (K0 <= f)%nat -> subset_loop f (least_subset S) S 0 = Some l.
Proof.
  intros HW.
  assert (exists l f, subset_loop f (least_subset S) S 0 = Some l /\ StronglySorted N.lt l /\
            (forall t, In t l <-> Sub t S /\ t <> 0)) as [l [f [H1 [H2 H3]]]].
  { destruct (N.eq_dec S 0) as [->|Hz].
    - exists [], 1%nat. split; [reflexivity|]. split; [constructor|]. intros t. cbn [In]. split; [tauto|].
      intros [H Ht]. apply Sub_le in H. lia.
    - destruct (subset_loop_spec S S HW (Sub_refl S) Hz) as [fuel [l [H1 [H2 H3]]]].
      destruct (subset_loop_to_0 S Hz (next_subset_full S HW) fuel _ _ H1) as [f' Hf'].
      { intros t Ht. apply H3 in Ht. tauto. }
      exists (l ++ [S]), f'. split; [exact Hf'|]. split.
      + clear - H2 H3. assert (Hlt : forall t, In t l -> t < S) by (intros t Ht; apply H3 in Ht; tauto). clear H3.
        induction H2 as [|x l Hs IH Hx]; cbn [app]; [repeat constructor|]. constructor.
        * apply IH. intros t Ht. apply Hlt. right. exact Ht.
        * apply Forall_app. split; [exact Hx|]. constructor; [apply Hlt; left; reflexivity|constructor].
      + intros t. rewrite in_app_iff, H3. cbn [In]. split.
        * intros [[A [B _]]|[<-|[]]]; [tauto|]. split; [apply Sub_refl|exact Hz].
        * intros [A B]. destruct (N.eq_dec S t) as [E|E]; [right; left; exact E|]. left.
          pose proof (Sub_le _ _ A). repeat split; try assumption. lia. }
  exists l. split; [exact H2|]. split; [exact H3|].
  assert (HL : N.of_nat (length l) <= 2 ^ 64).
  { apply NoDup_bound; [apply StronglySorted_lt_NoDup; exact H2|]. intros x Hx. apply H3 in Hx. apply (Sub_W64 x S); tauto. }
  split; [exact HL|]. intros g Hg. apply subset_loop_mono with (Datatypes.S (length l)).
  - apply subset_loop_len with f. exact H1.
  - pose proof K0_eq. lia.
Qed.

(** ** The sets generated from a queue element [(V, X)]. *)
Definition Desc (m : matrix) (super V X T : N) : Prop :=
  (forall i, mem i V -> mem i T) /\ (forall i, mem i T -> mem i super) /\
  (forall i, mem i T -> mem i X -> mem i V) /\
  (forall j, mem j T -> exists i, mem i V /\ path m (fun x => mem x T) i j).

Definition Nb (m : matrix) (super V X : N) : N := sbs_diff (sbs_inter (neighbors m V) super) X.

Lemma path_exit m (U W : N -> Prop) (Udec : forall x, U x \/ ~ U x) i j : path m W i j -> U i -> ~ U j ->
  exists a b, U a /\ ~ U b /\ edge m a b /\ W a /\ W b.
Proof.
  intros P. induction P as [i Hi|i j k P IH He Hk]; intros HU HnU; [contradiction|].
  destruct (Udec j) as [Hj|Hj]; [|apply IH; assumption].
  exists j, k. pose proof (path_V_r _ _ _ _ P). tauto.
Qed.

Section CSG.
  Variables (n : N) (m : matrix) (super : N).
  Hypothesis (HG : graph n m) (Hsuper : W64 super).

  Lemma Nb_W64 V X : W64 (Nb m super V X).
  Proof. apply W64_diff, W64_inter_r. exact Hsuper. Qed.
  Lemma Nb_mem V X j : W64 V -> W64 X ->
    mem j (Nb m super V X) <-> ~ mem j V /\ (exists i, mem i V /\ edge m i j) /\ mem j super /\ ~ mem j X.
  Proof.
    intros HV HX. unfold Nb. rewrite mem_diff, mem_inter, (neighbors_spec n m V j HG HV); [tauto|apply W64_inter_r; exact Hsuper|exact HX].
  Qed.

  Definition wfq (q : N * N) : Prop := W64 (fst q) /\ W64 (snd q) /\ (forall i, mem i (fst q) -> mem i super).
  Definition DescQ (q : N * N) (T : N) : Prop := Desc m super (fst q) (snd q) T.

  Lemma Desc_self V X : (forall i, mem i V -> mem i super) -> Desc m super V X V.
  Proof.
    intros H. repeat split; auto. intros j Hj. exists j. split; [exact Hj|]. apply path_refl. exact Hj.
  Qed.

  Lemma Desc_child V X T : W64 V -> W64 X -> Desc m super V X T -> T <> V ->
    Sub (sbs_inter T (Nb m super V X)) (Nb m super V X) /\ sbs_inter T (Nb m super V X) <> 0 /\
    Desc m super (sbs_union V (sbs_inter T (Nb m super V X))) (sbs_union X (Nb m super V X)) T.
  Proof.
    intros HV HX [D1 [D2 [D3 D4]]] Hne.
    split; [intros i Hi; apply mem_inter in Hi; tauto|]. split.
    - intros E. apply Hne. apply mem_ext. intros j. split; [|apply D1]. intros Hj.
      destruct (mem_dec j V) as [H|H]; [exact H|]. exfalso. destruct (D4 j Hj) as [i [Hi P]].
      destruct (path_exit m (fun x => mem x V) (fun x => mem x T) (fun x => ltac:(destruct (mem_dec x V); tauto)) i j P Hi H)
        as [a [b [Ha [Hb [He [HTa HTb]]]]]].
      apply (mem_0 b). rewrite <- E. apply mem_inter. split; [exact HTb|]. apply Nb_mem; try assumption.
      split; [exact Hb|]. split; [exists a; split; assumption|]. split; [apply D2; exact HTb|].
      intros HXb. apply Hb, D3; assumption.
    - repeat split.
      + intros i Hi. apply mem_union in Hi. destruct Hi as [Hi|Hi]; [apply D1, Hi|]. apply mem_inter in Hi. tauto.
      + exact D2.
      + intros i Hi HXi. apply mem_union. apply mem_union in HXi. destruct HXi as [HXi|HXi]; [left; apply D3; assumption|].
        right. apply mem_inter. split; assumption.
      + intros j Hj. destruct (D4 j Hj) as [i [Hi P]]. exists i. split; [apply mem_union; left; exact Hi|exact P].
  Qed.

  Lemma Desc_parent V X s T : W64 V -> W64 X -> Sub s (Nb m super V X) ->
    Desc m super (sbs_union V s) (sbs_union X (Nb m super V X)) T ->
    Desc m super V X T /\ s = sbs_inter T (Nb m super V X).
  Proof.
    intros HV HX Hs [D1 [D2 [D3 D4]]]. split.
    - repeat split.
      + intros i Hi. apply D1, mem_union. left. exact Hi.
      + exact D2.
      + intros i Hi HXi. pose proof (D3 i Hi (proj2 (mem_union _ _ _) (or_introl HXi))) as H. apply mem_union in H.
        destruct H as [H|H]; [exact H|]. apply Hs in H. apply Nb_mem in H; try assumption. tauto.
      + intros j Hj. destruct (D4 j Hj) as [i [Hi P]]. apply mem_union in Hi. destruct Hi as [Hi|Hi].
        * exists i. split; assumption.
        * apply Hs in Hi. apply Nb_mem in Hi; try assumption. destruct Hi as [_ [[a [Ha He]] _]]. exists a.
          split; [exact Ha|]. apply path_trans with i; [|exact P].
          apply path_step with a; [|exact He|exact (path_V_l _ _ _ _ P)].
          apply path_refl. apply D1, mem_union. left. exact Ha.
    - apply mem_ext. intros i. split.
      + intros Hi. apply mem_inter. split; [apply D1, mem_union; right; exact Hi|apply Hs, Hi].
      + intros Hi. apply mem_inter in Hi. destruct Hi as [HiT HiN].
        pose proof (D3 i HiT (proj2 (mem_union _ _ _) (or_intror HiN))) as H. apply mem_union in H.
        destruct H as [H|H]; [|exact H]. exfalso. apply Nb_mem in HiN; try assumption. tauto.
  Qed.

  (** Termination measure of a queue. *)
  Definition mu (q : N * N) : N := popcount (sbs_diff super (snd q)).
  Definition B : N := 2 ^ 64 + 1.
  Definition Phi (Q : list (N * N)) : N := fold_right (fun q s => B ^ mu q + s) 0 Q.
  Lemma Phi_app Q1 Q2 : Phi (Q1 ++ Q2) = Phi Q1 + Phi Q2.
  Proof. induction Q1 as [|q Q1 IH]; cbn [app Phi fold_right]; [reflexivity|]. fold (Phi (Q1 ++ Q2)) (Phi Q1). lia. Qed.

  Lemma Phi_children V X ns : W64 V -> W64 X -> (forall t, In t ns <-> Sub t (Nb m super V X) /\ t <> 0) ->
    N.of_nat (length ns) <= 2 ^ 64 ->
    Phi (map (fun s => (sbs_union V s, sbs_union X (Nb m super V X))) ns) < B ^ mu (V, X).
  Proof.
    intros HV HX Hns Hlen. assert (HB : 0 < B) by (unfold B; lia).
    assert (Hpos : 0 < B ^ mu (V, X)) by (apply N.neq_0_lt_0, N.pow_nonzero; lia).
    destruct ns as [|s0 ns'] eqn:E; [exact Hpos|]. rewrite <- E in *.
    assert (Hne : Nb m super V X <> 0).
    { intros Ez. assert (H : In s0 ns) by (rewrite E; left; reflexivity). apply Hns in H. rewrite Ez in H.
      destruct H as [H1 H2]. apply Sub_le in H1. lia. }
    set (X' := sbs_union X (Nb m super V X)).
    assert (Hmu : popcount (sbs_diff super X') < mu (V, X)).
    { unfold mu. cbn [snd]. destruct (nonzero_mem _ Hne) as [j Hj].
      assert (HX' : W64 X') by (apply W64_union; [exact HX|apply Nb_W64]).
      apply popcount_strict with j.
      - apply W64_diff. exact Hsuper.
      - intros i Hi. apply mem_diff in Hi; try assumption. apply mem_diff; try assumption. split; [tauto|].
        intros H. apply (proj2 Hi). apply mem_union. left. exact H.
      - apply mem_diff; try assumption. apply Nb_mem in Hj; try assumption. tauto.
      - intros H. apply mem_diff in H; try assumption. apply (proj2 H). apply mem_union. right. exact Hj. }
    assert (HP : Phi (map (fun s => (sbs_union V s, X')) ns) = N.of_nat (length ns) * B ^ popcount (sbs_diff super X')).
    { clear. induction ns as [|s ns IH]; [reflexivity|]. cbn [map Phi fold_right length].
      change (fold_right (fun q z => B ^ mu q + z) 0 (map (fun s => (sbs_union V s, X')) ns))
        with (Phi (map (fun s => (sbs_union V s, X')) ns)). rewrite IH. unfold mu. cbn [snd]. lia. }
    rewrite HP. clear HP. set (p := popcount (sbs_diff super X')) in *. clearbody p.
    assert (H1 : B ^ N.succ p <= B ^ mu (V, X)) by (apply N.pow_le_mono_r; lia). rewrite N.pow_succ_r' in H1.
    assert (H2 : 0 < B ^ p) by (apply N.neq_0_lt_0, N.pow_nonzero; lia). set (bp := B ^ p) in *. clearbody bp.
    set (bm := B ^ mu (V, X)) in *. clearbody bm. unfold B in H1. clear - H1 H2 Hlen. nia.
  Qed.

  Fixpoint excl (Q : list (N * N)) : Prop :=
    match Q with
    | [] => True
    | q :: Q' => (forall q', In q' Q' -> forall T, DescQ q T -> DescQ q' T -> False) /\ excl Q'
    end.
  Lemma excl_app Q1 Q2 : excl Q1 -> excl Q2 -> (forall q1 q2, In q1 Q1 -> In q2 Q2 -> forall T, DescQ q1 T -> DescQ q2 T -> False) ->
    excl (Q1 ++ Q2).
  Proof.
    induction Q1 as [|q Q1 IH]; cbn [app excl]; intros H1 H2 H3; [exact H2|]. destruct H1 as [Ha Hb]. split.
    - intros q' Hq'. apply in_app_iff in Hq'. destruct Hq' as [Hq'|Hq']; [apply Ha, Hq'|].
      apply H3; [left; reflexivity|exact Hq'].
    - apply IH; auto. intros q1 q2 Hq1. apply H3. right. exact Hq1.
  Qed.

  Lemma wf_children V X s : wfq (V, X) -> Sub s (Nb m super V X) -> wfq (sbs_union V s, sbs_union X (Nb m super V X)).
  Proof.
    intros [HV [HX Hs]] H. cbn [fst snd] in *. assert (Hss : W64 s) by (apply (Sub_W64 s _ H), Nb_W64).
    split; [apply W64_union; assumption|]. split; [apply W64_union; [exact HX|apply Nb_W64]|]. cbn [fst].
    intros i Hi. apply mem_union in Hi. destruct Hi as [Hi|Hi]; [apply Hs, Hi|]. apply H, Nb_mem in Hi; tauto.
  Qed.

  Lemma csg_while_spec : forall f Q, Forall wfq Q -> Phi Q + 1 + N.of_nat K0 <= N.of_nat f ->
    exists out, csg_while m super f Q = Some out /\ (forall T, In T out <-> exists q, In q Q /\ DescQ q T) /\
      (excl Q -> NoDup out).
  Proof.
    induction f as [|f IH]; intros Q Hwf Hf; [lia|]. cbn [csg_while]. destruct Q as [|[V X] Q].
    - exists []. split; [reflexivity|]. split; [|intros _; constructor]. intros T. cbn [In]. split; [tauto|].
      intros [q [[] _]].
    - fold (Nb m super V X). pose proof (Forall_inv Hwf) as Hq. pose proof (Forall_inv_tail Hwf) as HQ.
      destruct (Hq) as [HV [HX Hs]]. cbn [fst snd] in HV, HX, Hs.
      destruct (subset_loop_all (Nb m super V X) (Nb_W64 V X)) as [ns [Hsort [Hns [Hlen Hloop]]]].
      rewrite Hloop by (cbn [Phi fold_right] in Hf; fold (Phi Q) in Hf; assert (0 < B ^ mu (V, X)) by (apply N.neq_0_lt_0, N.pow_nonzero; unfold B; lia); lia).
      set (ch := map (fun n0 => (sbs_union V n0, sbs_union X (Nb m super V X))) ns).
      pose proof (Phi_children V X ns HV HX Hns Hlen) as HPhi. fold ch in HPhi.
      destruct (IH (Q ++ ch)) as [out [H1 [H2 H3]]].
      + apply Forall_app. split; [exact HQ|]. apply Forall_forall. intros q Hqin. apply in_map_iff in Hqin.
        destruct Hqin as [s [<- Hsin]]. apply wf_children; [exact Hq|]. apply Hns, Hsin.
      + rewrite Phi_app. cbn [Phi fold_right] in Hf. fold (Phi Q) in Hf. lia.
      + exists (V :: out). split; [exact (f_equal (fun r => match r with Some o => Some (V :: o) | None => None end) H1)|].
        assert (Hch : forall q, In q ch -> forall T, DescQ q T -> DescQ (V, X) T /\ T <> V).
        { intros q Hqin T HT. apply in_map_iff in Hqin. destruct Hqin as [s [<- Hsin]]. apply Hns in Hsin.
          destruct Hsin as [Hs1 Hs2]. destruct (Desc_parent V X s T HV HX Hs1 HT) as [HD Es]. split; [exact HD|].
          intros ->. destruct (nonzero_mem s Hs2) as [j Hj]. destruct HT as [D1 _].
          assert (Hjv : mem j V) by (apply D1; apply mem_union; right; exact Hj).
          apply Hs1, Nb_mem in Hj; tauto. }
        split.
        * intros T. cbn [In]. rewrite H2. split.
          -- intros [<-|[q [Hqin HT]]].
             ++ exists (V, X). split; [left; reflexivity|]. apply Desc_self. exact Hs.
             ++ apply in_app_iff in Hqin. destruct Hqin as [Hqin|Hqin]; [exists q; split; [right; exact Hqin|exact HT]|].
                exists (V, X). split; [left; reflexivity|]. apply (Hch q Hqin T HT).
          -- intros [q [[<-|Hqin] HT]]; [|right; exists q; split; [apply in_app_iff; left; exact Hqin|exact HT]].
             destruct (N.eq_dec V T) as [E|E]; [left; exact E|]. right. assert (E' : T <> V) by congruence.
             destruct (Desc_child V X T HV HX HT E') as [C1 [C2 C3]].
             exists (sbs_union V (sbs_inter T (Nb m super V X)), sbs_union X (Nb m super V X)). split; [|exact C3]. apply in_app_iff. right. apply in_map_iff. eexists. split; [reflexivity|].
             apply Hns. split; assumption.
        * cbn [excl]. intros [Ha Hb]. constructor.
          -- rewrite H2. intros [q [Hqin HT]]. apply in_app_iff in Hqin. destruct Hqin as [Hqin|Hqin].
             ++ apply (Ha q Hqin V); [apply Desc_self; exact Hs|exact HT].
             ++ destruct (Hch q Hqin V HT) as [_ H]. congruence.
          -- apply H3. apply excl_app; [exact Hb| |].
             ++ assert (Hnd : NoDup ns) by (apply StronglySorted_lt_NoDup; exact Hsort).
                assert (Hsub : forall s, In s ns -> Sub s (Nb m super V X)) by (intros s Hsin; apply Hns, Hsin).
                unfold ch. clear - Hnd Hsub HV HX HG Hsuper.
                induction Hnd as [|s ns Hnin Hnd IHn]; cbn [map excl]; [exact I|]. split.
                ** intros q Hqin T HT1 HT2. apply in_map_iff in Hqin. destruct Hqin as [s' [<- Hs']].
                   destruct (Desc_parent V X s T HV HX (Hsub s (or_introl eq_refl)) HT1) as [_ E1].
                   destruct (Desc_parent V X s' T HV HX (Hsub s' (or_intror Hs')) HT2) as [_ E2].
                   apply Hnin. replace s with s'; [exact Hs'|]. exact (eq_trans E2 (eq_sym E1)).
                ** apply IHn. intros s' Hs'. apply Hsub. right. exact Hs'.
             ++ intros q1 q2 Hq1 Hq2 T HT1 HT2. destruct (Hch q2 Hq2 T HT2) as [HT _]. exact (Ha q1 Hq1 T HT HT1).
  Qed.

  (** ** The loop over the sources. *)
  Variable source : N.
  Hypothesis Hsrc : Sub source super.
  Hypothesis Hsym : symmetric m.

  Definition larger (i : N) : N := sbs_inter source (sbs_not (N.ones (i + 1))).
  Lemma larger_mem i j : i < 64 -> mem j (larger i) <-> mem j source /\ i < j.
  Proof.
    intros Hi. unfold larger. rewrite mem_inter. unfold mem at 2. rewrite not_spec.
    - rewrite testbit_ones, andb_true_iff, N.ltb_lt, negb_true_iff, N.ltb_ge. split.
      + intros [H1 [H2 H3]]. split; [exact H1|lia].
      + intros [H1 H2]. split; [exact H1|]. split; [|lia]. apply Hsrc in H1. exact (mem_lt64 j super Hsuper H1).
    - unfold W64. apply N.lt_le_trans with (2 ^ (i + 1)); [apply ones_lt|]. apply N.pow_le_mono_r; lia.
  Qed.

  Lemma Desc_source i T : mem i source ->
    Desc m super (2 ^ i) (larger i) T <->
    mem i T /\ (forall j, mem j T -> mem j super) /\ connected m T /\ (forall j, mem j T -> mem j source -> j <= i).
  Proof.
    intros Hi. assert (Hi64 : i < 64) by (apply (mem_lt64 i super Hsuper), Hsrc, Hi). split.
    - intros [D1 [D2 [D3 D4]]]. split; [apply D1, mem_pow2; reflexivity|]. split; [exact D2|]. split.
      + intros a b Ha Hb. destruct (D4 a Ha) as [x [Hx Pa]], (D4 b Hb) as [y [Hy Pb]]. apply mem_pow2 in Hx, Hy.
        subst x y. apply path_trans with i; [apply path_sym; assumption|exact Pb].
      + intros j Hj Hjs. destruct (N.le_gt_cases j i) as [H|H]; [exact H|].
        assert (Hl : mem j (larger i)) by (apply larger_mem; auto).
        specialize (D3 j Hj Hl). apply mem_pow2 in D3. lia.
    - intros [H1 [H2 [H3 H4]]]. repeat split.
      + intros j Hj. apply mem_pow2 in Hj. subst j. exact H1.
      + exact H2.
      + intros j Hj Hl. apply larger_mem in Hl; [|exact Hi64]. destruct Hl as [Hl1 Hl2]. specialize (H4 j Hj Hl1). lia.
      + intros j Hj. exists i. split; [apply mem_pow2; reflexivity|]. apply H3; assumption.
  Qed.

  Lemma source_start bits : W64 bits -> bits <> 0 ->
    it_as_set bits = 2 ^ ctz bits /\
    exists lo, sbs_mask_to_lo (it_as_set bits) = Some lo /\ sbs_inter source (sbs_not lo) = larger (ctz bits).
  Proof.
    intros HW Hz. assert (Hc : ctz bits < 64) by (apply ctz_lt; assumption).
    pose proof (blsi_pow2 bits HW Hz) as E. unfold it_as_set. rewrite E. split; [reflexivity|].
    assert (Hp : 2 ^ ctz bits <> 0) by (pose proof (pow2_pos (ctz bits)); lia).
    destruct (mask_to_lo_spec (2 ^ ctz bits) (pow_W64 _ Hc) Hp) as [lo [H1 H2]]. exists lo. split; [exact H1|].
    assert (Ectz : ctz (2 ^ ctz bits) = ctz bits).
    { apply ctz_unique; [rewrite testbit_pow2; apply N.eqb_refl|]. intros i Hi. rewrite testbit_pow2. apply N.eqb_neq. lia. }
    rewrite Ectz in H2. unfold larger. do 2 f_equal. apply N.bits_inj. intros j. rewrite H2, testbit_ones.
    destruct (N.leb_spec j (ctz bits)), (N.ltb_spec j (ctz bits + 1)); try reflexivity; lia.
  Qed.

  Definition chunk_fuel : N := B ^ 64 + 1 + N.of_nat K0.
  Lemma wfq_source i : mem i source -> wfq (2 ^ i, larger i).
  Proof.
    intros Hi. pose proof (Hsrc i Hi) as Hi'. pose proof (mem_lt64 i super Hsuper Hi') as H64. split; [apply pow_W64; exact H64|].
    split; [apply W64_inter, (Sub_W64 source super Hsrc Hsuper)|]. cbn [fst]. intros j Hj. apply mem_pow2 in Hj. subst j. exact Hi'.
  Qed.
  Lemma csg_chunk f i : mem i source -> chunk_fuel <= N.of_nat f ->
    exists out, csg_while m super f [(2 ^ i, larger i)] = Some out /\ NoDup out /\
      forall T, In T out <-> mem i T /\ (forall j, mem j T -> mem j super) /\ connected m T /\
                           (forall j, mem j T -> mem j source -> j <= i).
  Proof.
    intros Hi Hf. destruct (csg_while_spec f [(2 ^ i, larger i)]) as [out [H1 [H2 H3]]].
    - constructor; [apply wfq_source; exact Hi|constructor].
    - cbn [Phi fold_right]. assert (B ^ mu (2 ^ i, larger i) <= B ^ 64).
      { apply N.pow_le_mono_r; [unfold B; lia|]. apply popcount_le64, W64_diff. exact Hsuper. }
      unfold chunk_fuel in Hf. lia.
    - exists out. split; [exact H1|]. split; [apply H3; cbn [excl]; split; [intros q' []|exact I]|].
      intros T. rewrite H2, <- Desc_source by exact Hi. split.
      + intros [q [[<-|[]] HT]]. exact HT.
      + intros HT. exists (2 ^ i, larger i). split; [left; reflexivity|exact HT].
  Qed.

  (** The output is the concatenation of one chunk per source, in ascending order. *)
  Lemma csg_sources_chunks f : chunk_fuel <= N.of_nat f -> forall k bits, Sub bits source -> (length (elems bits) < k)%nat ->
    exists outs, csg_sources m super source f k bits = Some (concat outs) /\
      Forall2 (fun i out => csg_while m super f [(2 ^ i, larger i)] = Some out) (elems bits) outs.
  Proof.
    intros Hf. induction k as [|k IH]; intros bits Hb Hk; [lia|]. cbn [csg_sources].
    assert (HW : W64 bits) by (apply (Sub_W64 bits super); [intros j Hj; apply Hsrc, Hb, Hj|exact Hsuper]).
    destruct (N.eqb_spec bits 0) as [E|E].
    - subst bits. exists []. split; [reflexivity|]. rewrite elems_0. constructor.
    - destruct (source_start bits HW E) as [E1 [lo [E2 E3]]]. rewrite E2, E3, E1.
      assert (Hc : mem (ctz bits) source) by (apply Hb, testbit_ctz; exact E).
      destruct (csg_chunk f (ctz bits) Hc Hf) as [out [H1 _]]. unfold sbs in *. rewrite H1.
      assert (Hnext : it_next bits = N.land bits (bits - 1)) by (unfold it_next; rewrite sub64_1 by assumption; reflexivity).
      destruct (IH (it_next bits)) as [outs [H2 H3]].
      + intros j Hj. apply Hb. rewrite Hnext in Hj. rewrite testbit_blsr in Hj by exact E. apply andb_true_iff in Hj. tauto.
      + rewrite Hnext. rewrite (elems_cons bits HW E) in Hk. cbn [length] in Hk. lia.
      + rewrite H2. exists (out :: outs). split; [reflexivity|]. rewrite (elems_cons bits HW E), <- Hnext.
        constructor; assumption.
  Qed.
End CSG.

Lemma NoDup_app {A} (l1 l2 : list A) : NoDup l1 -> NoDup l2 -> (forall x, In x l1 -> In x l2 -> False) -> NoDup (l1 ++ l2).
Proof.
  intros H1 H2 H3. induction H1 as [|x l1 Hx H1 IH]; cbn [app]; [exact H2|]. constructor.
  - rewrite in_app_iff. intros [H|H]; [contradiction|]. apply (H3 x); [left; reflexivity|exact H].
  - apply IH. intros y Hy1 Hy2. apply (H3 y); [right; exact Hy1|exact Hy2].
Qed.

Lemma max_source T source : W64 T -> (exists i, mem i T /\ mem i source) ->
  exists i, mem i T /\ mem i source /\ forall j, mem j T -> mem j source -> j <= i.
Proof.
  intros HT [i0 [Hi1 Hi2]]. set (Y := N.land T source).
  assert (HY : Y <> 0). { intros E. apply (mem_0 i0). rewrite <- E. apply mem_inter. split; assumption. }
  assert (HYW : W64 Y) by (apply land_lt; exact HT).
  destruct (hi_spec Y HYW HY) as [h [H1 [H2 _]]]. exists h. apply mem_inter in H1. destruct H1 as [H1 H1'].
  split; [exact H1|]. split; [exact H1'|]. intros j Hj1 Hj2. apply H2. apply mem_inter. split; assumption.
Qed.

Lemma for_each_CSG_spec n m super source f : graph n m -> symmetric m -> W64 super ->
  chunk_fuel <= N.of_nat f ->
  exists out, for_each_CSG m f super source = Some out /\ NoDup out /\
    forall T, In T out <-> (forall j, mem j T -> mem j super) /\ (exists i, mem i T /\ mem i source) /\ connected m T.
Proof.
  intros HG Hsym HW Hf. unfold for_each_CSG. set (src := sbs_inter source super).
  assert (Hs : Sub src super) by (intros j Hj; apply mem_inter in Hj; tauto).
  assert (HsW : W64 src) by (apply (Sub_W64 src super Hs HW)).
  destruct (csg_sources_chunks n m super HG HW src Hs Hsym f Hf 65 src (Sub_refl src)) as [outs [H1 H2]].
  { pose proof (length_elems_le src). lia. }
  exists (concat outs). split; [exact H1|].
  assert (Hgen : forall l outs, (forall i, In i l -> mem i src) -> NoDup l ->
     Forall2 (fun i out => csg_while m super f [(2 ^ i, larger src i)] = Some out) l outs ->
     NoDup (concat outs) /\ forall T, In T (concat outs) <-> exists i, In i l /\ mem i T /\ (forall j, mem j T -> mem j super) /\
        connected m T /\ (forall j, mem j T -> mem j src -> j <= i)).
  { clear outs H1 H2. induction l as [|i l IH]; intros outs Hl Hnd HF; inversion HF as [|i' out l' outs' Hc HF']; subst; cbn [concat].
    - split; [constructor|]. intros T. cbn [In]. split; [tauto|]. intros [i [[] _]].
    - destruct (csg_chunk n m super HG HW src Hs Hsym f i (Hl i (or_introl eq_refl)) Hf) as [out' [Ho1 [Ho2 Ho3]]].
      assert (out' = out) by congruence. subst out'. inversion Hnd as [|? ? Hni Hnd']; subst.
      destruct (IH outs' (fun x Hx => Hl x (or_intror Hx)) Hnd' HF') as [I1 I2]. split.
      + apply NoDup_app; [exact Ho2|exact I1|]. intros T HT1 HT2. apply Ho3 in HT1. apply I2 in HT2.
        destruct HT2 as [i' [Hi' [Hm' [_ [_ Hmax']]]]]. destruct HT1 as [Hm [_ [_ Hmax]]].
        assert (i = i'); [|congruence]. apply N.le_antisymm.
        * apply Hmax'; [exact Hm|]. apply Hl. left. reflexivity.
        * apply Hmax; [exact Hm'|]. apply Hl. right. exact Hi'.
      + intros T. rewrite in_app_iff, Ho3, I2. split.
        * intros [H|[i' [Hi' H]]]; [exists i; split; [left; reflexivity|exact H]|exists i'; split; [right; exact Hi'|exact H]].
        * intros [i' [[<-|Hi'] H]]; [left; exact H|right; exists i'; split; assumption]. }
  destruct (Hgen (elems src) outs) as [Hnd Hin].
  - intros i Hi. apply in_elems in Hi; assumption.
  - apply StronglySorted_lt_NoDup, elems_sorted.
  - exact H2.
  - split; [exact Hnd|]. intros T. rewrite Hin. split.
    + intros [i [Hi [Hm [Hsub [Hc _]]]]]. split; [exact Hsub|]. split; [|exact Hc]. exists i. split; [exact Hm|].
      apply in_elems in Hi; [|exact HsW]. apply mem_inter in Hi. tauto.
    + intros [Hsub [[i [Hi1 Hi2]] Hc]]. assert (HTW : W64 T) by (apply (Sub_W64 T super Hsub HW)).
      destruct (max_source T src HTW) as [k [K1 [K2 K3]]].
      { exists i. split; [exact Hi1|]. apply mem_inter. split; [exact Hi2|apply Hsub, Hi1]. }
      exists k. split; [apply in_elems; assumption|]. tauto.
Qed.

(** ** Pairs *)
Lemma concat_opt_spec {A B} (g : A -> option (list B)) (h : A -> list B) l : (forall x, In x l -> g x = Some (h x)) ->
  concat_opt g l = Some (flat_map h l).
Proof.
  induction l as [|x l IH]; intros H; cbn [concat_opt flat_map]; [reflexivity|].
  rewrite (H x (or_introl eq_refl)), IH by (intros y Hy; apply H; right; exact Hy). reflexivity.
Qed.

(** [hi A]: the greatest element. *)
Definition is_max (A h : N) : Prop := mem h A /\ forall j, mem j A -> j <= h.

Lemma csg_partners_spec n m super f first : graph n m -> symmetric m -> W64 super -> W64 first -> first <> 0 ->
  chunk_fuel <= N.of_nat f ->
  exists l, csg_partners m f super first = Some (map (fun s => (first, s)) l) /\ NoDup l /\
    forall T, In T l <-> (forall j, mem j T -> mem j super) /\ disjoint first T /\ connected m T /\ adjacent m first T /\
                         (forall h j, is_max first h -> mem j T -> j < h).
Proof.
  intros HG Hsym HW Hf Hz Hfuel. unfold csg_partners.
  destruct (hi_spec first Hf Hz) as [h [Hh1 [Hh2 [Hh64 Hh]]]]. rewrite Hh.
  assert (Hp : 2 ^ h <> 0) by (pose proof (pow2_pos h); lia).
  destruct (mask_to_lo_spec (2 ^ h) (pow_W64 h Hh64) Hp) as [lo [Hlo1 Hlo2]]. rewrite Hlo1.
  assert (Ectz : ctz (2 ^ h) = h).
  { apply ctz_unique; [rewrite testbit_pow2; apply N.eqb_refl|]. intros i Hi. rewrite testbit_pow2. apply N.eqb_neq. lia. }
  rewrite Ectz in Hlo2.
  set (sup2 := sbs_inter (sbs_diff super first) lo).
  assert (Hsup2 : forall j, mem j sup2 <-> mem j super /\ ~ mem j first /\ j <= h).
  { intros j. unfold sup2. rewrite mem_inter, mem_diff by assumption. unfold mem at 3. rewrite Hlo2, N.leb_le. tauto. }
  assert (HWs : W64 sup2) by (apply W64_inter, W64_diff; exact HW).
  destruct (for_each_CSG_spec n m sup2 (sbs_inter (neighbors m first) super) f HG Hsym HWs Hfuel) as [out [H1 [H2 H3]]].
  rewrite H1. exists out. split; [reflexivity|]. split; [exact H2|]. intros T. rewrite H3. split.
  - intros [A [[i [Hi1 Hi2]] C]]. split; [intros j Hj; apply A, Hsup2 in Hj; tauto|].
    split; [intros j Hj1 Hj2; apply A, Hsup2 in Hj2; tauto|]. split; [exact C|]. split.
    + apply mem_inter in Hi2. destruct Hi2 as [Hi2 _]. apply (neighbors_spec n m first i HG Hf) in Hi2.
      destruct Hi2 as [_ [a [Ha He]]]. exists a, i. tauto.
    + intros h' j [Hm1 Hm2] Hj. assert (h' = h) by (apply N.le_antisymm; [apply Hh2, Hm1|apply Hm2, Hh1]). subst h'.
      apply A, Hsup2 in Hj. destruct Hj as [_ [Hj1 Hj2]]. assert (j <> h) by (intros ->; contradiction). lia.
  - intros [A [D [C [[a [b [Ha [Hb He]]]] M]]]]. split.
    + intros j Hj. apply Hsup2. split; [apply A, Hj|]. split; [intros H; exact (D j H Hj)|].
      assert (j < h); [|lia]. apply (M h j); [split; assumption|exact Hj].
    + split; [|exact C]. exists b. split; [exact Hb|]. apply mem_inter. split; [|apply A, Hb].
      apply (neighbors_spec n m first b HG Hf). split; [intros H; exact (D b H Hb)|]. exists a. split; assumption.
Qed.

Lemma NoDup_pairs {A B} (h : A -> list B) l : NoDup l -> (forall x, In x l -> NoDup (h x)) ->
  NoDup (flat_map (fun x => map (fun y => (x, y)) (h x)) l).
Proof.
  intros Hl Hh. induction Hl as [|x l Hx Hl IH]; cbn [flat_map]; [constructor|]. apply NoDup_app.
  - apply FinFun.Injective_map_NoDup; [intros a b E; congruence|]. apply Hh. left. reflexivity.
  - apply IH. intros y Hy. apply Hh. right. exact Hy.
  - intros p H1 H2. apply in_map_iff in H1. destruct H1 as [y [<- _]]. apply in_flat_map in H2.
    destruct H2 as [x' [Hx' H2]]. apply in_map_iff in H2. destruct H2 as [y' [E _]]. congruence.
Qed.

Lemma for_each_CSG_pair_structure n m super f : graph n m -> symmetric m -> W64 super -> chunk_fuel <= N.of_nat f ->
  exists firsts partners, for_each_CSG m f super super = Some firsts /\
    for_each_CSG_pair m f super = Some (flat_map (fun a => map (fun b => (a, b)) (partners a)) firsts) /\
    NoDup firsts /\
    (forall T, In T firsts <-> (forall j, mem j T -> mem j super) /\ T <> 0 /\ connected m T) /\
    (forall a, In a firsts -> NoDup (partners a) /\
       forall T, In T (partners a) <-> (forall j, mem j T -> mem j super) /\ disjoint a T /\ connected m T /\ adjacent m a T /\
                         (forall h j, is_max a h -> mem j T -> j < h)).
Proof.
  intros HG Hsym HW Hf. destruct (for_each_CSG_spec n m super super f HG Hsym HW Hf) as [firsts [H1 [H2 H3]]].
  assert (H3' : forall T, In T firsts <-> (forall j, mem j T -> mem j super) /\ T <> 0 /\ connected m T).
  { intros T. rewrite H3. split; intros [A [E C]]; (split; [exact A|split; [|exact C]]).
    - intros ->. destruct E as [i [Hi _]]. exact (mem_0 _ Hi).
    - destruct (nonzero_mem T E) as [i Hi]. exists i. split; [exact Hi|apply A, Hi]. }
  set (partners := fun a => match csg_partners m f super a with Some l => map snd l | None => [] end).
  assert (HP : forall a, In a firsts -> csg_partners m f super a = Some (map (fun b => (a, b)) (partners a)) /\ NoDup (partners a) /\
       forall T, In T (partners a) <-> (forall j, mem j T -> mem j super) /\ disjoint a T /\ connected m T /\ adjacent m a T /\
                         (forall h j, is_max a h -> mem j T -> j < h)).
  { intros a Ha. apply H3' in Ha. destruct Ha as [A1 [A2 A3]].
    destruct (csg_partners_spec n m super f a HG Hsym HW (Sub_W64 a super A1 HW) A2 Hf) as [l [L1 [L2 L3]]].
    assert (El : map snd (map (fun s : N => (a, s)) l) = l) by (rewrite map_map; apply map_id).
    assert (Ep : partners a = l) by (unfold partners; rewrite L1; exact El). rewrite Ep. split; [exact L1|]. split; assumption. }
  exists firsts, partners. split; [exact H1|]. split.
  - unfold for_each_CSG_pair. rewrite H1. apply concat_opt_spec. intros a Ha. apply HP, Ha.
  - split; [exact H2|]. split; [exact H3'|]. intros a Ha. apply HP, Ha.
Qed.

Lemma for_each_CSG_pair_spec n m super f : graph n m -> symmetric m -> W64 super -> chunk_fuel <= N.of_nat f ->
  exists out, for_each_CSG_pair m f super = Some out /\ NoDup out /\
    forall a b, In (a, b) out <->
      (forall j, mem j a -> mem j super) /\ (forall j, mem j b -> mem j super) /\ a <> 0 /\
      connected m a /\ connected m b /\ disjoint a b /\ adjacent m a b /\ (forall h j, is_max a h -> mem j b -> j < h).
Proof.
  intros HG Hsym HW Hf.
  destruct (for_each_CSG_pair_structure n m super f HG Hsym HW Hf) as [firsts [partners [_ [H1 [H2 [H3 H4]]]]]].
  eexists. split; [exact H1|]. split.
  - apply NoDup_pairs; [exact H2|]. intros a Ha. apply H4, Ha.
  - intros a b. rewrite in_flat_map. split.
    + intros [x [Hx Hb]]. apply in_map_iff in Hb. destruct Hb as [y [E Hy]]. injection E as -> ->.
      pose proof (proj1 (H3 a) Hx). apply (proj2 (H4 a Hx)) in Hy. tauto.
    + intros [A1 [A2 [A3 [A4 [A5 [A6 [A7 A8]]]]]]]. assert (Ha : In a firsts) by (apply H3; tauto). exists a.
      split; [exact Ha|]. apply in_map_iff. exists b. split; [reflexivity|]. apply (H4 a Ha). tauto.
Qed.
