(** * Proofs about the adjacency matrix model. *)
From Coq Require Import NArith List Bool Lia Sorting.Sorted Sorting.Permutation.
From Verif Require Import Word WordProofs Bitset BitsetProofs GraphSpec Graph.
Import ListNotations.
Open Scope N_scope.
Arguments N.pow : simpl never.
Arguments N.testbit : simpl never.

Lemma mem_Sub a b : Sub a b <-> forall i, mem i a -> mem i b.
Proof. reflexivity. Qed.
Lemma mem_dec i S : {mem i S} + {~ mem i S}.
Proof. unfold mem. destruct (N.testbit S i); [left; reflexivity|right; discriminate]. Defined.
Lemma mem_ext a b : (forall i, mem i a <-> mem i b) -> a = b.
Proof.
  intros H. apply N.bits_inj. intros i. specialize (H i). unfold mem in H.
  destruct (N.testbit a i), (N.testbit b i); try reflexivity; destruct H as [H1 H2]; [symmetry; apply H1|apply H2]; reflexivity.
Qed.
Lemma mem_0 i : ~ mem i 0.
Proof. unfold mem. rewrite N.bits_0. discriminate. Qed.
Lemma mem_union i a b : mem i (sbs_union a b) <-> mem i a \/ mem i b.
Proof. unfold mem. rewrite union_spec. apply orb_true_iff. Qed.
Lemma mem_inter i a b : mem i (sbs_inter a b) <-> mem i a /\ mem i b.
Proof. unfold mem. rewrite inter_spec. apply andb_true_iff. Qed.
Lemma mem_diff i a b : W64 a -> W64 b -> mem i (sbs_diff a b) <-> mem i a /\ ~ mem i b.
Proof.
  intros Ha Hb. unfold mem. rewrite diff_spec by assumption. rewrite andb_true_iff, negb_true_iff, not_true_iff_false.
  reflexivity.
Qed.
Lemma mem_lt64 i a : W64 a -> mem i a -> i < 64.
Proof.
  intros Ha Hi. destruct (N.lt_ge_cases i 64) as [H|H]; [exact H|]. unfold mem in Hi.
  rewrite W64_testbit_high in Hi by assumption. discriminate.
Qed.
Lemma mem_pow2 i k : mem i (2 ^ k) <-> i = k.
Proof. unfold mem. rewrite testbit_pow2. apply N.eqb_eq. Qed.
Lemma W64_0 : W64 0. Proof. reflexivity. Qed.
Lemma W64_union a b : W64 a -> W64 b -> W64 (sbs_union a b). Proof. apply lor_lt. Qed.
Lemma W64_inter a b : W64 a -> W64 (sbs_inter a b). Proof. apply land_lt. Qed.
Lemma W64_inter_r a b : W64 b -> W64 (sbs_inter a b). Proof. apply land_lt_r. Qed.
Lemma W64_diff a b : W64 a -> W64 (sbs_diff a b). Proof. apply land_lt. Qed.
Lemma nonzero_mem a : a <> 0 -> exists i, mem i a.
Proof. intros H. exists (ctz a). apply testbit_ctz. exact H. Qed.
Lemma empty_mem a : sbs_empty a = true <-> forall i, ~ mem i a.
Proof.
  rewrite empty_spec. unfold mem. split; intros H i; specialize (H i); destruct (N.testbit a i); try reflexivity; congruence.
Qed.
Lemma empty_false_mem a : sbs_empty a = false <-> exists i, mem i a.
Proof.
  split.
  - intros H. apply nonzero_mem. intros ->. discriminate.
  - intros [i Hi]. destruct (sbs_empty a) eqn:E; [|reflexivity]. apply empty_mem with (i := i) in E. contradiction.
Qed.

Lemma sbs_list_elems s : W64 s -> sbs_list s = elems s.
Proof. intros H. unfold sbs_list. rewrite iterate_ok by exact H. reflexivity. Qed.
Lemma in_sbs_list s i : W64 s -> In i (sbs_list s) <-> mem i s.
Proof. intros H. rewrite sbs_list_elems by exact H. apply in_elems. exact H. Qed.

Lemma mem_union_over_list (step : N -> sbs) l : forall acc i,
  mem i (fold_left (fun a x => sbs_union a (step x)) l acc) <-> mem i acc \/ exists x, In x l /\ mem i (step x).
Proof.
  induction l as [|x l IH]; intros acc i; cbn [fold_left].
  - split; [tauto|]. intros [H|[x [[] _]]]. exact H.
  - rewrite IH, mem_union. split.
    + intros [[H|H]|[y [Hy H]]]; [tauto| |]; right; [exists x|exists y]; cbn [In]; tauto.
    + intros [H|[y [[->|Hy] H]]]; [tauto|tauto|]. right. exists y. tauto.
Qed.
Lemma mem_union_over (step : N -> sbs) R acc i : W64 R ->
  mem i (union_over step R acc) <-> mem i acc \/ exists x, mem x R /\ mem i (step x).
Proof.
  intros HR. unfold union_over. rewrite mem_union_over_list.
  split; (intros [H|[x [Hx H]]]; [tauto|right; exists x]); split; try exact H; apply in_sbs_list; assumption.
Qed.
Lemma W64_union_over (step : N -> sbs) R acc : (forall x, W64 (step x)) -> W64 acc -> W64 (union_over step R acc).
Proof.
  intros Hs. unfold union_over. generalize (sbs_list R) as l. intros l. revert acc.
  induction l as [|x l IH]; intros acc Ha; cbn [fold_left]; [exact Ha|]. apply IH. apply W64_union; auto.
Qed.

(** Strict inclusion increases the cardinality. *)
Lemma popcount_mono a b : W64 b -> Sub a b -> popcount a <= popcount b.
Proof.
  intros Hb H. pose proof (Sub_W64 _ _ H Hb) as Ha. rewrite !popcount_elems by assumption.
  assert (L : (length (elems a) <= length (elems b))%nat); [|lia]. apply NoDup_incl_length.
  - apply StronglySorted_lt_NoDup, elems_sorted.
  - intros i. rewrite !in_elems by assumption. apply H.
Qed.
Lemma popcount_strict a b i : W64 b -> Sub a b -> mem i b -> ~ mem i a -> popcount a < popcount b.
Proof.
  intros Hb H Hi Hni. pose proof (Sub_W64 _ _ H Hb) as Ha. rewrite !popcount_elems by assumption.
  assert (L : (length (i :: elems a) <= length (elems b))%nat).
  { apply NoDup_incl_length.
    - constructor; [rewrite in_elems by assumption; exact Hni|]. apply StronglySorted_lt_NoDup, elems_sorted.
    - intros x [<-|Hx]; rewrite in_elems in * by assumption; [exact Hi|apply H, Hx]. }
  cbn [length] in L. lia.
Qed.

(** ** Reachability *)
Lemma reach_loop_spec (step : N -> sbs) : (forall x, W64 (step x)) -> forall f old new,
  W64 old -> W64 new -> Sub old new -> (forall x, mem x old -> Sub (step x) new) ->
  (65 <= N.of_nat f + popcount old) ->
  exists R, reach_loop step f old new = Some R /\ W64 R /\ Sub new R /\ (forall x, mem x R -> Sub (step x) R) /\
    (forall P : N -> Prop, (forall x y, P x -> mem y (step x) -> P y) -> (forall x, mem x new -> P x) -> forall x, mem x R -> P x).
Proof.
  intros Hstep. induction f as [|f IH]; intros old new Ho Hn Hsub Hcl Hf.
  - pose proof (popcount_le64 old Ho). lia.
  - cbn [reach_loop]. destruct (sbs_empty (sbs_diff new old)) eqn:E.
    + exists new. split; [reflexivity|]. split; [exact Hn|]. split; [apply Sub_refl|].
      assert (Heq : forall x, mem x new -> mem x old).
      { intros x Hx. destruct (mem_dec x old) as [H|H]; [exact H|]. exfalso.
        apply empty_mem with (i := x) in E. apply E. apply mem_diff; auto. }
      split; [intros x Hx; apply Hcl, Heq, Hx|]. intros P _ H. exact H.
    + apply empty_false_mem in E. destruct E as [i Hi]. apply mem_diff in Hi; try assumption.
      pose proof (popcount_strict old new i Hn Hsub (proj1 Hi) (proj2 Hi)) as Hpc.
      set (new' := union_over step (sbs_diff new old) new).
      assert (HR : W64 (sbs_diff new old)) by (apply W64_diff; assumption).
      assert (Hn' : W64 new') by (apply W64_union_over; assumption).
      assert (Hs' : Sub new new') by (intros x Hx; apply mem_union_over; auto).
      destruct (IH new new' Hn Hn' Hs') as [R [H1 [H2 [H3 [H4 H5]]]]].
      * intros x Hx y Hy. apply mem_union_over; [exact HR|].
        destruct (mem_dec x old) as [Hxo|Hxo]; [left; apply (Hcl x Hxo), Hy|].
        right. exists x. split; [apply mem_diff; auto|exact Hy].
      * lia.
      * exists R. split; [exact H1|]. split; [exact H2|]. split; [intros x Hx; apply H3, Hs', Hx|]. split; [exact H4|].
        intros P HP Hnew x Hx. apply (H5 P HP); [|exact Hx]. intros y Hy. unfold new' in Hy.
        apply mem_union_over in Hy; [|exact HR]. destruct Hy as [Hy|[z [Hz Hy]]]; [apply Hnew, Hy|].
        apply (HP z y); [|exact Hy]. apply mem_diff in Hz; try assumption. apply Hnew, Hz.
Qed.

Lemma path_V_l m V i j : path m V i j -> V i.
Proof. induction 1; assumption. Qed.
Lemma path_V_r m V i j : path m V i j -> V j.
Proof. induction 1; assumption. Qed.
Lemma path_trans m V i j k : path m V i j -> path m V j k -> path m V i k.
Proof. intros H1 H2. induction H2 as [|j k l H2 IH He Hl]; [exact H1|]. exact (path_step m V i k l (IH H1) He Hl). Qed.
Lemma path_mono m (V W : N -> Prop) i j : (forall x, V x -> W x) -> path m V i j -> path m W i j.
Proof. intros H P. induction P as [i Hi|i j k P IH He Hk]; [apply path_refl, H, Hi|]. exact (path_step m W i j k IH He (H k Hk)). Qed.
Lemma path_sym m V : symmetric m -> forall i j, path m V i j -> path m V j i.
Proof.
  intros Hs i j P. induction P as [i Hi|i j k P IH He Hk]; [apply path_refl; exact Hi|].
  apply path_trans with j; [|exact IH].
  apply path_step with k; [apply path_refl; exact Hk|apply Hs; exact He|exact (path_V_r _ _ _ _ P)].
Qed.

Lemma graph_W64 n m : graph n m -> forall i, W64 (m i).
Proof.
  intros [Hn Hg] i. apply lt_pow2_testbit. intros j Hj. destruct (N.testbit (m i) j) eqn:E; [|reflexivity].
  destruct (Hg i j E). lia.
Qed.

Lemma reachable_spec n m src : graph n m -> W64 src ->
  exists R, reachable m src = Some R /\ W64 R /\
    forall j, mem j R <-> exists i, mem i src /\ path m (fun _ => True) i j.
Proof.
  intros Hg Hsrc. destruct (reach_loop_spec m (graph_W64 n m Hg) 66 0 src W64_0 Hsrc) as [R [H1 [H2 [H3 [H4 H5]]]]].
  - intros x Hx. exfalso. exact (mem_0 x Hx).
  - intros x Hx. exfalso. exact (mem_0 x Hx).
  - change (popcount 0) with 0. lia.
  - exists R. split; [exact H1|]. split; [exact H2|]. intros j. split.
    + apply (H5 (fun j => exists i, mem i src /\ path m (fun _ => True) i j)).
      * intros x y [i [Hi P]] Hy. exists i. split; [exact Hi|]. exact (path_step _ _ _ _ _ P Hy I).
      * intros x Hx. exists x. split; [exact Hx|apply path_refl; exact I].
    + intros [i [Hi P]]. induction P as [i _|i j k P IH He _]; [apply H3, Hi|]. apply (H4 j (IH Hi)). exact He.
Qed.

Lemma reachable_in_spec n m src S : graph n m -> W64 S ->
  exists R, reachable_in m src S = Some R /\ W64 R /\
    forall j, mem j R <-> exists i, mem i src /\ path m (fun x => mem x S) i j.
Proof.
  intros Hg HS. unfold reachable_in.
  destruct (reach_loop_spec (fun x => sbs_inter (m x) S) (fun x => W64_inter_r (m x) S HS) 66 0 (sbs_inter src S) W64_0
              (W64_inter_r src S HS)) as [R [H1 [H2 [H3 [H4 H5]]]]].
  - intros x Hx. exfalso. exact (mem_0 x Hx).
  - intros x Hx. exfalso. exact (mem_0 x Hx).
  - change (popcount 0) with 0. lia.
  - exists R. split; [exact H1|]. split; [exact H2|]. intros j. split.
    + apply (H5 (fun j => exists i, mem i src /\ path m (fun x => mem x S) i j)).
      * intros x y [i [Hi P]] Hy. apply mem_inter in Hy. exists i. split; [exact Hi|].
        exact (path_step _ _ _ _ _ P (proj1 Hy) (proj2 Hy)).
      * intros x Hx. apply mem_inter in Hx. exists x. split; [apply Hx|apply path_refl; apply Hx].
    + intros [i [Hi P]]. induction P as [i HiS|i j k P IH He Hk].
      * apply H3, mem_inter; auto.
      * apply (H4 j (IH Hi)). apply mem_inter. split; assumption.
Qed.

Lemma neighbors_W64 n m S : graph n m -> W64 (neighbors m S).
Proof. intros Hg. apply W64_diff, W64_union_over; [exact (graph_W64 n m Hg)|exact W64_0]. Qed.
Lemma neighbors_spec n m S j : graph n m -> W64 S ->
  mem j (neighbors m S) <-> ~ mem j S /\ exists i, mem i S /\ edge m i j.
Proof.
  intros Hg HS. unfold neighbors.
  rewrite mem_diff; [|apply W64_union_over; [exact (graph_W64 n m Hg)|exact W64_0]|exact HS].
  rewrite mem_union_over by exact HS. split.
  - intros [[H|H] H2]; [exfalso; exact (mem_0 _ H)|]. split; assumption.
  - intros [H1 H2]. split; [right; exact H2|exact H1].
Qed.

Lemma as_set_mem S i : W64 S -> mem i (it_as_set S) -> mem i S /\ S <> 0.
Proof.
  intros HS Hi. unfold it_as_set in Hi. destruct (N.eq_dec S 0) as [->|Hz].
  - exfalso. change (mem i 0) in Hi. exact (mem_0 _ Hi).
  - rewrite blsi_pow2 in Hi by assumption. apply mem_pow2 in Hi. subst i. split; [apply testbit_ctz; exact Hz|exact Hz].
Qed.
Lemma as_set_inhabited S : W64 S -> S <> 0 -> it_as_set S = 2 ^ ctz S /\ mem (ctz S) S.
Proof. intros HS Hz. split; [apply blsi_pow2; assumption|apply testbit_ctz; exact Hz]. Qed.

Lemma is_connected_spec n m S : graph n m -> symmetric m -> W64 S ->
  exists b, is_connected m S = Some b /\ (b = true <-> connected m S).
Proof.
  intros Hg Hsym HS. unfold is_connected.
  destruct (reachable_in_spec n m (it_as_set S) S Hg HS) as [R [H1 [H2 H3]]]. rewrite H1.
  exists (R =? S). split; [reflexivity|]. rewrite N.eqb_eq. split.
  - intros -> i j Hi Hj. apply H3 in Hi. apply H3 in Hj. destruct Hi as [a [Ha Pa]], Hj as [b [Hb Pb]].
    destruct (as_set_mem S a HS Ha) as [_ Hz]. destruct (as_set_inhabited S HS Hz) as [E Hc].
    rewrite E in Ha, Hb. apply mem_pow2 in Ha. apply mem_pow2 in Hb. subst a b.
    apply path_trans with (ctz S); [apply path_sym; assumption|exact Pb].
  - intros Hc. apply mem_ext. intros j. rewrite H3. split.
    + intros [i [_ P]]. exact (path_V_r _ _ _ _ P).
    + intros Hj. assert (Hz : S <> 0) by (intros ->; exact (mem_0 _ Hj)).
      destruct (as_set_inhabited S HS Hz) as [E Hcm]. exists (ctz S). split; [rewrite E; apply mem_pow2; reflexivity|].
      apply Hc; assumption.
Qed.

Lemma is_connected2_spec n m A B : graph n m -> symmetric m -> W64 A -> W64 B ->
  is_connected2 m A B = true <-> adjacent m A B.
Proof.
  intros Hg Hsym HA HB. unfold is_connected2. rewrite negb_true_iff, empty_false_mem. split.
  - intros [i Hi]. apply mem_inter in Hi. destruct Hi as [Hi Hu]. apply mem_union_over in Hu; [|exact HB].
    destruct Hu as [H|[x [Hx He]]]; [exfalso; exact (mem_0 _ H)|]. exists i, x.
    split; [exact Hi|]. split; [exact Hx|]. apply Hsym. exact He.
  - intros [a [b [Ha [Hb He]]]]. exists a. apply mem_inter. split; [exact Ha|]. apply mem_union_over; [exact HB|].
    right. exists b. split; [exact Hb|]. apply Hsym in He. exact He.
Qed.
