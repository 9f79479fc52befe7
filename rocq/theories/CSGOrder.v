(** * C12: the order in which connected subgraphs and pairs are enumerated. *)
From Coq Require Import NArith List Bool Lia Arith Relations Sorting.Sorted.
From Verif Require Import Word WordProofs Bitset BitsetProofs GraphSpec Graph GraphProofs ClosureProofs CSGProofs GraphProps MsfProps.
Import ListNotations.
Open Scope N_scope.

(** ** Specification *)

(** [a] stands before [b] in the list. *)
Definition before {A} (l : list A) (a b : A) : Prop := exists l1 l2 l3, l = l1 ++ a :: l2 ++ b :: l3.

(** [within m S k i j]: at most [k] edges lead from [i] to [j] without leaving [S]. *)
Inductive within (m : N -> N) (S : N) : nat -> N -> N -> Prop :=
| within_refl k i : mem i S -> within m S k i i
| within_step k i j l : within m S k i j -> edge m j l -> mem l S -> within m S (Datatypes.S k) i l.

(** Distances in a connected subset are the distances in the whole set: trees, cliques, complete bipartite graphs, ... *)
Definition distance_hereditary (m : N -> N) (super : N) : Prop :=
  forall S i j k, Sub S super -> connected m S -> mem i S -> mem j S -> within m super k i j -> within m S k i j.

(** ** Lists *)
Lemma before_map {A B} (g : A -> B) l a b : before l a b -> before (map g l) (g a) (g b).
Proof. intros (l1 & l2 & l3 & ->). exists (map g l1), (map g l2), (map g l3). rewrite map_app. cbn [map]. rewrite map_app. reflexivity. Qed.
Lemma before_cross {A} (l l' : list A) a b : In a l -> In b l' -> before (l ++ l') a b.
Proof.
  intros Ha Hb. apply in_split in Ha, Hb. destruct Ha as (l1 & l2 & ->), Hb as (l3 & l4 & ->).
  exists l1, (l2 ++ l3), l4. rewrite <- !app_assoc. reflexivity.
Qed.
Lemma before_app_l {A} (l l' : list A) a b : before l a b -> before (l ++ l') a b.
Proof. intros (l1 & l2 & l3 & ->). exists l1, l2, (l3 ++ l'). rewrite <- app_assoc. cbn [app]. rewrite <- app_assoc. reflexivity. Qed.
Lemma before_app_r {A} (l l' : list A) a b : before l' a b -> before (l ++ l') a b.
Proof. intros (l1 & l2 & l3 & ->). exists (l ++ l1), l2, l3. rewrite app_assoc. reflexivity. Qed.
Lemma before_flat_map {A B} (g : A -> list B) l x y a b : before l x y -> In a (g x) -> In b (g y) -> before (flat_map g l) a b.
Proof.
  intros (l1 & l2 & l3 & ->) Ha Hb. rewrite flat_map_app. apply before_app_r. cbn [flat_map]. apply before_cross; [exact Ha|].
  rewrite flat_map_app. apply in_app_iff. right. cbn [flat_map]. apply in_app_iff. left. exact Hb.
Qed.
Lemma before_flat_map_in {A B} (g : A -> list B) l x a b : In x l -> before (g x) a b -> before (flat_map g l) a b.
Proof.
  intros Hx H. apply in_split in Hx. destruct Hx as (l1 & l2 & ->). rewrite flat_map_app. apply before_app_r. cbn [flat_map].
  apply before_app_l, H.
Qed.
Lemma before_sorted l a b : StronglySorted N.lt l -> In a l -> In b l -> a < b -> before l a b.
Proof.
  induction 1 as [|x l Hs IH Hf]; intros Ha Hb Hlt; [destruct Ha|]. rewrite Forall_forall in Hf.
  destruct Ha as [->|Ha].
  - destruct Hb as [->|Hb]; [lia|]. exact (before_cross [a] l a b (or_introl eq_refl) Hb).
  - destruct Hb as [->|Hb]; [specialize (Hf a Ha); lia|]. apply (before_app_r [x] l), IH; assumption.
Qed.
Lemma before_in_l {A} (l : list A) a b : before l a b -> In a l.
Proof. intros (l1 & l2 & l3 & ->). apply in_app_iff. right. left. reflexivity. Qed.
Lemma before_in_r {A} (l : list A) a b : before l a b -> In b l.
Proof. intros (l1 & l2 & l3 & ->). apply in_app_iff. right. right. apply in_app_iff. right. left. reflexivity. Qed.

Lemma within_mono m S S' k k' i j : (k <= k')%nat -> Sub S S' -> within m S k i j -> within m S' k' i j.
Proof.
  intros Hk HS H. revert k' Hk. induction H as [k i Hi|k i j l H IH He Hl]; intros k' Hk; [apply within_refl, HS, Hi|].
  destruct k' as [|k']; [lia|]. apply within_step with j; [apply IH; lia|exact He|apply HS, Hl].
Qed.
Lemma within_mem_l m S k i j : within m S k i j -> mem i S. Proof. induction 1; auto. Qed.
Lemma within_mem_r m S k i j : within m S k i j -> mem j S. Proof. destruct 1; auto. Qed.

(** ** Breadth-first search, level by level *)
Section Order.
  Variables (n : N) (m : matrix) (super : N).
  Hypothesis (HG : graph n m) (Hsuper : W64 super).

  Definition children (q : N * N) : list (N * N) :=
    let Nq := Nb m super (fst q) (snd q) in
    map (fun s => (sbs_union (fst q) s, sbs_union (snd q) Nq)) (match subset_loop K0 (least_subset Nq) Nq 0 with Some l => l | None => [] end).
  Lemma children_spec q : exists ns, StronglySorted N.lt ns /\ (forall t, In t ns <-> Sub t (Nb m super (fst q) (snd q)) /\ t <> 0) /\
    children q = map (fun s => (sbs_union (fst q) s, sbs_union (snd q) (Nb m super (fst q) (snd q)))) ns /\
    forall f l, subset_loop f (least_subset (Nb m super (fst q) (snd q))) (Nb m super (fst q) (snd q)) 0 = Some l -> l = ns.
  Proof.
    destruct (subset_loop_all _ (Nb_W64 m super Hsuper (fst q) (snd q))) as (ns & H1 & H2 & _ & H3). exists ns.
    split; [exact H1|]. split; [exact H2|]. split; [unfold children; rewrite H3 by lia; reflexivity|].
    intros f l Hl. apply (subset_loop_mono _ _ _ _ _) with (f' := Nat.max f K0) in Hl; [|lia]. rewrite H3 in Hl by lia. congruence.
  Qed.

  Lemma level_step : forall Q R f out, csg_while m super f (Q ++ R) = Some out ->
    exists f' out', csg_while m super f' (R ++ flat_map children Q) = Some out' /\ out = map fst Q ++ out' /\ (f' + length Q = f)%nat.
  Proof.
    induction Q as [|[V X] Q IH]; intros R f out H.
    - cbn [app flat_map map length] in *. exists f, out. rewrite app_nil_r. split; [exact H|]. split; [reflexivity|lia].
    - destruct f as [|f]; [discriminate|]. cbn [app csg_while] in H. fold (Nb m super V X) in H.
      destruct (children_spec (V, X)) as (ns & _ & _ & Ec & Hns). cbn [fst snd] in Ec, Hns.
      destruct (subset_loop f (least_subset (Nb m super V X)) (Nb m super V X) 0) as [l|] eqn:El; [|discriminate].
      apply Hns in El. subst l. rewrite <- Ec in H. destruct (csg_while m super f ((Q ++ R) ++ children (V, X))) as [o|] eqn:Eo; [|discriminate].
      injection H as <-. rewrite <- app_assoc in Eo. destruct (IH _ _ _ Eo) as (f' & out' & E1 & E2 & E3).
      exists f', out'. rewrite <- app_assoc in E1. split; [exact E1|]. split; [cbn [map fst app]; rewrite E2; reflexivity|cbn [length]; lia].
  Qed.
  Lemma level Q f out : csg_while m super f Q = Some out -> Q <> [] ->
    exists f' out', csg_while m super f' (flat_map children Q) = Some out' /\ out = map fst Q ++ out' /\ (f' < f)%nat.
  Proof.
    intros H Hne. rewrite <- (app_nil_r Q) in H. destruct (level_step Q [] f out H) as (f' & out' & E1 & E2 & E3). exists f', out'.
    split; [exact E1|]. split; [exact E2|]. destruct Q; [congruence|cbn [length] in E3; lia].
  Qed.

  (** The child of [q] on the way to [T]. *)
  Definition child (q : N * N) (T : N) : N * N :=
    (sbs_union (fst q) (sbs_inter T (Nb m super (fst q) (snd q))), sbs_union (snd q) (Nb m super (fst q) (snd q))).
  Lemma child_in q T : wfq super q -> DescQ m super q T -> T <> fst q -> In (child q T) (children q) /\ DescQ m super (child q T) T.
  Proof.
    intros (HV & HX & _) HD Hne. destruct (Desc_child n m super HG Hsuper _ _ _ HV HX HD Hne) as (A & B & D). split; [|exact D].
    destruct (children_spec q) as (ns & _ & Hns & -> & _). unfold child.
    apply (in_map (fun s => (sbs_union (fst q) s, sbs_union (snd q) (Nb m super (fst q) (snd q))))). apply Hns. split; assumption.
  Qed.
  Lemma wf_flat Q : Forall (wfq super) Q -> Forall (wfq super) (flat_map children Q).
  Proof.
    intros H. apply Forall_forall. intros c Hc. apply in_flat_map in Hc. destruct Hc as (q & Hq & Hc). rewrite Forall_forall in H. specialize (H q Hq).
    destruct (children_spec q) as (ns & _ & Hns & E & _). rewrite E in Hc. apply in_map_iff in Hc. destruct Hc as (s & <- & Hs).
    destruct q as [V X]. apply (wf_children n m super HG Hsuper); [exact H|]. apply Hns, Hs.
  Qed.

  Lemma bfs_in : forall f Q out, csg_while m super f Q = Some out -> Forall (wfq super) Q ->
    forall q T, In q Q -> DescQ m super q T -> In T out.
  Proof.
    induction f as [f IH] using lt_wf_ind. intros Q out H Hwf q T Hq HD.
    assert (Hne : Q <> []) by (intros ->; destruct Hq). destruct (level Q f out H Hne) as (f' & out' & E1 & -> & Hlt).
    apply in_app_iff. destruct (N.eq_dec T (fst q)) as [->|Hn]; [left; apply in_map, Hq|]. right.
    assert (Hw : wfq super q) by (rewrite Forall_forall in Hwf; auto). destruct (child_in q T Hw HD Hn) as [A B].
    apply (IH f' Hlt _ _ E1 (wf_flat Q Hwf) (child q T)); [|exact B]. apply in_flat_map. exists q. split; assumption.
  Qed.

  (** [q] is the queue entry of level [k] on the way from [h] to [T]. *)
  Definition at_level (h : N) (k : nat) (q : N * N) (T : N) : Prop :=
    DescQ m super q T /\ forall x, mem x (fst q) <-> within m T k h x.
  Lemma at_level_child h k q T : wfq super q -> at_level h k q T -> T <> fst q -> at_level h (S k) (child q T) T.
  Proof.
    intros Hw [HD HL] Hne. split; [apply (child_in q T Hw HD Hne)|]. destruct Hw as (HV & HX & _). destruct HD as (D1 & D2 & D3 & _).
    intros x. unfold child. cbn [fst]. rewrite mem_union, mem_inter, (Nb_mem n m super HG Hsuper) by assumption. split.
    - intros [Hx|(HT & _ & (i & Hi & He) & _)].
      + apply HL in Hx. apply (within_mono m T T k (S k)); [lia|intros y Hy; exact Hy|exact Hx].
      + apply HL in Hi. apply within_step with i; assumption.
    - intros Hx. destruct (mem_dec x (fst q)) as [H|H]; [left; exact H|right].
      inversion Hx as [k' i Hi|k' i j l Hj He Hl]; subst.
      + exfalso. apply H, HL. apply within_refl. exact Hi.
      + split; [exact Hl|]. split; [exact H|]. split; [exists j; split; [apply HL; exact Hj|exact He]|]. split; [apply D2, Hl|].
        intros HXx. apply H, D3; assumption.
  Qed.

  Hypothesis Hdh : distance_hereditary m super.

  Lemma bfs_before h : forall f Q out k, csg_while m super f Q = Some out -> Forall (wfq super) Q ->
    forall q1 q T1 T, (q1 = q \/ before Q q1 q) -> In q1 Q -> In q Q -> at_level h k q1 T1 -> at_level h k q T ->
    connected m T1 -> mem h T1 -> Sub T1 T -> T1 <> T -> before out T1 T.
  Proof.
    induction f as [f IH] using lt_wf_ind. intros Q out k H Hwf q1 q T1 T Hq Hi1 Hi L1 L Hc Hh Hs Hne.
    assert (HneQ : Q <> []) by (intros ->; destruct Hi). destruct (level Q f out H HneQ) as (f' & out' & E1 & -> & Hlt).
    assert (Hw1 : wfq super q1) by (rewrite Forall_forall in Hwf; auto). assert (Hw : wfq super q) by (rewrite Forall_forall in Hwf; auto).
    destruct (N.eq_dec T1 (fst q1)) as [e1|n1].
    - destruct (N.eq_dec T (fst q)) as [e|ne].
      + apply before_app_l. destruct Hq as [->|Hq]; [congruence|]. rewrite e1, e. apply before_map, Hq.
      + apply before_cross; [rewrite e1; apply in_map, Hi1|].
        destruct (child_in q T Hw (proj1 L) ne) as [A B].
        apply (bfs_in f' _ _ E1 (wf_flat Q Hwf) (child q T)); [|exact B]. apply in_flat_map. exists q. split; assumption.
    - assert (ne : T <> fst q).
      { intros e. apply n1. apply mem_ext. intros x. split; [|apply (proj1 (proj1 L1))]. intros Hx. apply (proj2 L1).
        apply Hdh; try assumption.
        - intros y Hy. apply (proj1 (proj2 (proj1 L1))), Hy.
        - apply (within_mono m T super k k); [lia|intros y Hy; apply (proj1 (proj2 (proj1 L))), Hy|]. apply (proj2 L). rewrite <- e. apply Hs, Hx. }
      destruct (child_in q1 T1 Hw1 (proj1 L1) n1) as [A1 B1]. destruct (child_in q T Hw (proj1 L) ne) as [A B].
      apply before_app_r. apply (IH f' Hlt _ _ (S k) E1 (wf_flat Q Hwf) (child q1 T1) (child q T)); try assumption.
      + destruct Hq as [->|Hq]; [|right; apply before_flat_map with q1 q; assumption].
        set (s1 := sbs_inter T1 (Nb m super (fst q) (snd q))). set (s := sbs_inter T (Nb m super (fst q) (snd q))).
        destruct (N.eq_dec s1 s) as [es|nes]; [left; unfold child; fold s1; fold s; rewrite es; reflexivity|right].
        assert (Hss : Sub s1 s). { intros x Hx. apply mem_inter in Hx. apply mem_inter. split; [apply Hs; tauto|tauto]. }
        apply Sub_le in Hss. apply before_flat_map_in with q; [exact Hi|].
        destruct (children_spec q) as (ns & Hsort & Hns & Ec & _). rewrite Ec. unfold child. fold s1 s.
        apply (before_map (fun s0 => (sbs_union (fst q) s0, sbs_union (snd q) (Nb m super (fst q) (snd q)))) ns s1 s).
        destruct (Desc_child n m super HG Hsuper _ _ _ (proj1 Hw) (proj1 (proj2 Hw)) (proj1 L) ne) as (X1 & X2 & _).
        destruct (Desc_child n m super HG Hsuper _ _ _ (proj1 Hw) (proj1 (proj2 Hw)) (proj1 L1) n1) as (Y1 & Y2 & _).
        apply before_sorted; [exact Hsort|apply Hns; split; assumption|apply Hns; split; assumption|lia].
      + apply in_flat_map. exists q1. split; assumption.
      + apply in_flat_map. exists q. split; assumption.
      + apply at_level_child; assumption.
      + apply at_level_child; assumption.
  Qed.

  Hypothesis Hsym : symmetric m.

  (** Sets with a smaller greatest element, and connected subsets, come first. *)
  Lemma csg_before f : chunk_fuel <= N.of_nat f -> forall out, for_each_CSG m f super super = Some out ->
    forall T1 T h1 h, In T1 out -> In T out -> is_max T1 h1 -> is_max T h -> (h1 < h \/ (h1 = h /\ Sub T1 T /\ T1 <> T)) -> before out T1 T.
  Proof.
    intros Hf out H T1 T h1 h HT1 HT M1 M D.
    destruct (for_each_CSG_spec n m super super f HG Hsym Hsuper Hf) as (out' & E & _ & Hin). assert (out' = out) by congruence. subst out'.
    apply Hin in HT1, HT. destruct HT1 as (S1 & _ & C1), HT as (S & _ & C).
    unfold for_each_CSG in H. assert (Ess : sbs_inter super super = super) by apply N.land_diag. rewrite Ess in H.
    destruct (csg_sources_chunks n m super HG Hsuper super (Sub_refl super) Hsym f Hf 65 super (Sub_refl super)) as (outs & H1 & H2).
    { pose proof (length_elems_le super). lia. }
    assert (out = concat outs) by congruence. subst out. clear H1 H E Hin.
    assert (Hh1 : In h1 (elems super)) by (apply in_elems; [exact Hsuper|]; apply S1, M1).
    assert (Hh : In h (elems super)) by (apply in_elems; [exact Hsuper|]; apply S, M).
    assert (Hchunk : forall i o, In i (elems super) -> csg_while m super f [(2 ^ i, larger super i)] = Some o ->
      forall T, is_max T i -> Sub T super -> connected m T -> In T o).
    { intros i o Hi Ho T' M' S' C'. destruct (csg_chunk n m super HG Hsuper super (Sub_refl super) Hsym f i) as (o' & Eo & _ & Ho'); [apply in_elems in Hi; assumption|exact Hf|].
      assert (o' = o) by congruence. subst o'. apply Ho'. split; [apply M'|]. split; [exact S'|]. split; [exact C'|]. intros j Hj _. apply M', Hj. }
    destruct D as [Hlt|(-> & Hs & Hne)].
    - pose proof (elems_sorted super) as Hsort. revert Hchunk Hsort Hh1 Hh H2. generalize (elems super). intros l Hchunk Hsort Hh1 Hh HF.
      induction HF as [|i o l outs Ho HF IH]; [destruct Hh|]. inversion Hsort as [|? ? Hsort' Hfa]; subst. rewrite Forall_forall in Hfa. cbn [concat].
      destruct Hh1 as [->|Hh1].
      + apply before_cross; [apply (Hchunk h1 o (or_introl eq_refl) Ho); assumption|].
        destruct Hh as [->|Hh]; [lia|]. clear - Hh HF M S C Hchunk. induction HF as [|i o' l outs Ho HF IH]; [destruct Hh|]. cbn [concat]. apply in_app_iff.
        destruct Hh as [->|Hh]; [left; apply (Hchunk h o' (or_intror (or_introl eq_refl)) Ho); assumption|right; apply IH; [|exact Hh]].
        intros i' o0 Hi'. apply Hchunk. destruct Hi' as [->|Hi']; [left; reflexivity|right; right; exact Hi'].
      + destruct Hh as [->|Hh]; [specialize (Hfa h1 Hh1); lia|]. apply before_app_r. apply IH; try assumption. intros i' o' Hi'. apply Hchunk. right. exact Hi'.
    - assert (HB : forall o, csg_while m super f [(2 ^ h, larger super h)] = Some o -> before o T1 T).
      { intros o Ho. assert (Hhs : mem h super) by (apply S, M). apply (bfs_before h f _ o 0%nat Ho) with (q1 := (2 ^ h, larger super h)) (q := (2 ^ h, larger super h)).
        - constructor; [apply (wfq_source super Hsuper super (Sub_refl super)); exact Hhs|constructor].
        - left. reflexivity.
        - left. reflexivity.
        - left. reflexivity.
        - split; [apply (Desc_source m super Hsuper super (Sub_refl super) Hsym h T1 Hhs)|].
          + split; [apply M1|]. split; [exact S1|]. split; [exact C1|]. intros j Hj _. apply M1, Hj.
          + cbn [fst]. intros x. rewrite mem_pow2. split; [intros ->; apply within_refl, M1|]. intros Hx. inversion Hx; reflexivity.
        - split; [apply (Desc_source m super Hsuper super (Sub_refl super) Hsym h T Hhs)|].
          + split; [apply M|]. split; [exact S|]. split; [exact C|]. intros j Hj _. apply M, Hj.
          + cbn [fst]. intros x. rewrite mem_pow2. split; [intros ->; apply within_refl, M|]. intros Hx. inversion Hx; reflexivity.
        - exact C1.
        - apply M1.
        - exact Hs.
        - exact Hne. }
      clear - HB H2 Hh. induction H2 as [|i o l outs Ho HF IH]; [destruct Hh|]. cbn [concat]. destruct Hh as [->|Hh]; [apply before_app_l, HB, Ho|apply before_app_r, IH, Hh].
  Qed.
End Order.

(** ** C12 *)

(** On graphs whose connected subsets preserve distances, all pairs with union [c] or [d] are visited before the pair ([c], [d]). *)
Theorem C12_order : forall n m super, graph n m -> symmetric m -> W64 super -> distance_hereditary m super ->
  exists fuel0, forall fuel, (fuel0 <= fuel)%nat -> forall out, for_each_CSG_pair m fuel super = Some out ->
  forall a b c d, In (a, b) out -> In (c, d) out -> N.lor a b = c \/ N.lor a b = d -> before out (a, b) (c, d).
Proof.
  intros n m super HG Hs HW Hdh. exists (N.to_nat chunk_fuel). intros fuel Hf out Hout a b c d Hab Hcd Hu.
  assert (Hf' : chunk_fuel <= N.of_nat fuel) by lia. clear Hf.
  destruct (for_each_CSG_pair_structure n m super fuel HG Hs HW Hf') as (firsts & partners & E1 & E2 & _ & F & P).
  assert (out = flat_map (fun a => map (fun b => (a, b)) (partners a)) firsts) by congruence. subst out. clear Hout E2.
  apply in_flat_map in Hab, Hcd. destruct Hab as (a' & Ha & Hb), Hcd as (c' & Hc & Hd). apply in_map_iff in Hb, Hd.
  destruct Hb as (b' & Eb & Hb), Hd as (d' & Ed & Hd). injection Eb as -> ->. injection Ed as -> ->.
  apply before_flat_map with a c; [|apply in_map; exact Hb|apply in_map; exact Hd].
  apply (proj2 (P a Ha)) in Hb. apply (proj2 (P c Hc)) in Hd. destruct Hb as (_ & Dab & _ & (x & y & Hx & Hy & _) & Mab), Hd as (_ & _ & _ & (_ & z & _ & Hz & _) & Mcd).
  pose proof (proj1 (F a) Ha) as (Sa & Za & _). pose proof (proj1 (F c) Hc) as (Sc & Zc & _).
  destruct (hi_spec a (Sub_W64 a super Sa HW) Za) as (ha & Ha1 & Ha2 & _). destruct (hi_spec c (Sub_W64 c super Sc HW) Zc) as (hc & Hc1 & Hc2 & _).
  assert (Ma : is_max a ha) by (split; assumption). assert (Mc : is_max c hc) by (split; assumption).
  assert (Uab : forall i, mem i (N.lor a b) <-> mem i a \/ mem i b) by (intros i; apply mem_union).
  apply (csg_before n m super HG HW Hdh Hs fuel Hf' firsts E1 a c ha hc Ha Hc Ma Mc). destruct Hu as [Hu|Hu].
  - right. split; [|split].
    + apply N.le_antisymm; [apply Hc2; rewrite <- Hu; apply Uab; left; exact Ha1|].
      rewrite <- Hu in Hc1. apply Uab in Hc1. destruct Hc1 as [H|H]; [apply Ha2, H|specialize (Mab ha hc Ma H); lia].
    + intros i Hi. rewrite <- Hu. apply Uab. left. exact Hi.
    + intros E. apply (Dab y); [|exact Hy]. rewrite E, <- Hu. apply Uab. right. exact Hy.
  - left. apply (Mcd hc ha Mc). rewrite <- Hu. apply Uab. left. exact Ha1.
Qed.
Print Assumptions C12_order.

(** Every subset of a graph without cycles preserves distances. *)
Lemma exit m super S i : mem i S -> forall k y, within m super k i y -> ~ mem y S ->
  exists a l b, (l < k)%nat /\ mem a S /\ within m super l i a /\ edge m a b /\ ~ mem b S /\ path m (fun x => ~ mem x S) b y.
Proof.
  intros Hi k y H. induction H as [k i Hi'|k i j l H IH He Hl]; intros Hy; [contradiction|].
  destruct (mem_dec j S) as [Hj|Hj].
  - exists j, k, l. split; [lia|]. split; [exact Hj|]. split; [exact H|]. split; [exact He|]. split; [exact Hy|]. apply path_refl. exact Hy.
  - destruct (IH Hi Hj) as (a & l' & b & A1 & A2 & A3 & A4 & A5 & A6). exists a, l', b. split; [lia|]. repeat (split; [assumption|]).
    apply path_step with j; assumption.
Qed.
Lemma path_linked m (V : N -> Prop) (R : N -> N -> Prop) : (forall x y, V x -> V y -> edge m x y -> R x y) -> forall i j, path m V i j -> linked R i j.
Proof.
  intros HR i j H. induction H as [i Hi|i j k H IH He Hk]; [apply rt_refl|]. apply rt_trans with j; [exact IH|]. apply rt_step. apply HR; [|exact Hk|exact He].
  exact (path_V_r _ _ _ _ H).
Qed.
Lemma acyclic_distance_hereditary m super : symmetric m -> acyclic m -> distance_hereditary m super.
Proof.
  intros Hs Ha S i j k HS Hc Hi. revert j. induction k as [k IH] using lt_wf_ind. intros j Hj H.
  inversion H as [k' i' Hi'|k' i' y l Hy He Hl]; subst; [apply within_refl; exact Hi|].
  destruct (mem_dec y S) as [HyS|HyS].
  - apply within_step with y; [|exact He|exact Hj]. apply IH; [lia|exact HyS|exact Hy].
  - destruct (exit m super S i Hi k' y Hy HyS) as (a & l & b & A1 & A2 & A3 & A4 & A5 & A6).
    destruct (N.eq_dec a j) as [->|Hne].
    + apply (within_mono m S S l (Datatypes.S k')); [lia|intros z Hz; exact Hz|]. apply IH; [lia|exact Hj|exact A3].
    + exfalso. apply (Ha a b A4). apply rt_trans with j; [|apply rt_trans with y].
      * apply (path_linked m (fun x => mem x S)); [|apply Hc; assumption]. intros x z Hx Hz Hxz. split; [exact Hxz|]. split; intros [E1 E2]; subst; contradiction.
      * apply rt_step. split; [apply Hs; exact He|]. split; intros [E1 E2]; subst; contradiction.
      * apply (path_linked m (fun x => ~ mem x S)); [|apply path_sym; assumption]. intros x z Hx Hz Hxz. split; [exact Hxz|]. split; intros [E1 E2]; subst; contradiction.
Qed.
Theorem C12_order_acyclic : forall n m super, graph n m -> symmetric m -> W64 super -> acyclic m ->
  exists fuel0, forall fuel, (fuel0 <= fuel)%nat -> forall out, for_each_CSG_pair m fuel super = Some out ->
  forall a b c d, In (a, b) out -> In (c, d) out -> N.lor a b = c \/ N.lor a b = d -> before out (a, b) (c, d).
Proof. intros n m super HG Hs HW Ha. apply (C12_order n); try assumption. apply acyclic_distance_hereditary; assumption. Qed.
Print Assumptions C12_order_acyclic.

Lemma before_index {A} (l : list A) a b : before l a b -> exists i j, (i < j)%nat /\ nth_error l i = Some a /\ nth_error l j = Some b.
Proof.
  intros (l1 & l2 & l3 & ->). exists (length l1), (length l1 + S (length l2))%nat. split; [lia|]. split.
  - rewrite nth_error_app2 by lia. rewrite Nat.sub_diag. reflexivity.
  - rewrite nth_error_app2 by lia. replace (length l1 + S (length l2) - length l1)%nat with (S (length l2)) by lia. cbn [nth_error].
    rewrite nth_error_app2 by lia. rewrite Nat.sub_diag. reflexivity.
Qed.
Lemma before_asym {A} (l : list A) a b : NoDup l -> before l a b -> before l b a -> False.
Proof.
  intros Hn H1 H2. apply before_index in H1, H2. destruct H1 as (i & j & Hij & Hi & Hj), H2 as (i' & j' & Hij' & Hi' & Hj').
  rewrite NoDup_nth_error in Hn.
  assert (i = j') by (apply Hn; [apply nth_error_Some; congruence|congruence]).
  assert (j = i') by (apply Hn; [apply nth_error_Some; congruence|congruence]). lia.
Qed.

(** The hypotheses are met: chains (any length up to 64) have no cycles; in cliques all distances are 1. *)
Definition chain (n : N) : N -> N := fun i => N.lor (if (0 <? i) && (i <? n) then 2 ^ (i - 1) else 0) (if i + 1 <? n then 2 ^ (i + 1) else 0).
Lemma chain_edge n i j : edge (chain n) i j <-> (j + 1 = i \/ i + 1 = j) /\ i < n /\ j < n.
Proof.
  unfold edge, chain, mem. rewrite N.lor_spec, orb_true_iff.
  destruct (N.ltb_spec 0 i), (N.ltb_spec i n), (N.ltb_spec (i + 1) n); cbn [andb]; rewrite ?testbit_pow2, ?N.bits_0, ?N.eqb_eq; split; intros; try lia; try (destruct H2; [left|right]; try lia; discriminate).
  all: try (destruct H2 as [[?|?] ?]; (left; lia) || (right; lia) || lia).
Qed.
Lemma chain_acyclic n : n <= 64 -> graph n (chain n) /\ symmetric (chain n) /\ acyclic (chain n).
Proof.
  intros Hn. split; [split; [exact Hn|intros i j H; apply chain_edge in H; tauto]|].
  split; [intros i j H; apply chain_edge in H; apply chain_edge; tauto|].
  intros i j He H. apply chain_edge in He. destruct He as [[E|E] _].
  - assert (X : forall y, linked (fun x y => edge (chain n) x y /\ ~ (x = i /\ y = j) /\ ~ (x = j /\ y = i)) i y -> i <= y).
    { intros y Hy. apply Operators_Properties.clos_rt_rtn1 in Hy. induction Hy as [|y z [Hyz [N1 N2]] _ IH]; [lia|]. apply chain_edge in Hyz. lia. }
    specialize (X j H). lia.
  - assert (X : forall y, linked (fun x y => edge (chain n) x y /\ ~ (x = i /\ y = j) /\ ~ (x = j /\ y = i)) i y -> y <= i).
    { intros y Hy. apply Operators_Properties.clos_rt_rtn1 in Hy. induction Hy as [|y z [Hyz [N1 N2]] _ IH]; [lia|]. apply chain_edge in Hyz. lia. }
    specialize (X j H). lia.
Qed.
Lemma clique_distance_hereditary m super : (forall i j, mem i super -> mem j super -> i <> j -> edge m i j) -> distance_hereditary m super.
Proof.
  intros H S i j k HS _ Hi Hj Hk. destruct (N.eq_dec i j) as [<-|Hne]; [apply within_refl; exact Hi|].
  destruct k as [|k]; [exfalso; apply Hne; inversion Hk; reflexivity|]. apply within_step with i; [apply within_refl; exact Hi| |exact Hj].
  apply H; [apply HS, Hi|apply HS, Hj|exact Hne].
Qed.
Example C12_order_example : for_each_CSG_pair (chain 4) 40 15 = Some [(2, 1); (4, 2); (4, 3); (6, 1); (8, 4); (8, 6); (8, 7); (12, 2); (12, 3); (14, 1)].
Proof. vm_compute. reflexivity. Qed.
