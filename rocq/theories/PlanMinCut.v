(** * [MinCutAGaT::partition] enumerates exactly the connected-subgraph-complement pairs of its argument. *)
From Coq Require Import NArith List Bool Lia Sorting.Sorted.
From Verif Require Import Word WordProofs Bitset BitsetProofs GraphSpec Graph GraphProofs ClosureProofs CSGProofs PlanSpec PlanEnum PlanProofs PlanInst PlanTD.
Import ListNotations.
Open Scope N_scope.
Arguments N.pow : simpl never.
Arguments N.testbit : simpl never.

Lemma path_avoid m (W D : N -> Prop) (Ddec : forall x, D x \/ ~ D x) i j : path m W i j -> ~ D i ->
  path m (fun x => W x /\ ~ D x) i j \/ exists z d, path m (fun x => W x /\ ~ D x) i z /\ D d /\ edge m z d.
Proof.
  intros P. induction P as [i Hi|i j k P IH He Hk]; intros Hn.
  - left. apply path_refl. tauto.
  - destruct (IH Hn) as [H|H]; [|right; exact H]. destruct (Ddec k) as [Hd|Hd].
    + right. exists j, k. tauto.
    + left. apply path_step with j; [exact H|exact He|tauto].
Qed.

Section MinCut.
  Variables (n : N) (m : matrix) (S : N).
  Hypothesis (HG : graph n m) (Hsym : symmetric m) (HS : W64 S) (Hconn : connected m S).

  Lemma it_next_mem bits i : W64 bits -> bits <> 0 -> mem i (it_next bits) <-> mem i bits /\ i <> ctz bits.
  Proof.
    intros HW Hz. unfold it_next. rewrite sub64_1 by assumption. unfold mem. rewrite testbit_blsr by exact Hz.
    rewrite andb_true_iff, negb_true_iff, N.eqb_neq. reflexivity.
  Qed.
  Lemma it_next_W64 bits : W64 bits -> W64 (it_next bits).
  Proof. intros H. apply land_lt. exact H. Qed.
  Lemma it_next_size bits : W64 bits -> bits <> 0 -> popcount bits = popcount (it_next bits) + 1.
  Proof. intros HW Hz. rewrite popcount_blsr by assumption. unfold it_next. rewrite sub64_1 by assumption. reflexivity. Qed.

  (** The property of [T] on which IsConnectedImp rests: every vertex outside [C] reaches a neighbour of [T]. *)
  Definition Tprop (C T : N) : Prop := Sub T C /\
    forall y, mem y S -> ~ mem y C -> exists z t, path m (fun x => mem x S /\ ~ mem x C) y z /\ mem t T /\ edge m z t.

  Lemma Tprop_set (C T : N) : Sub T C -> (forall x, mem x C -> mem x T) -> T <> 0 -> Sub C S -> Tprop C T.
  Proof.
    intros H1 H2 Hz HCS. split; [exact H1|]. intros y HyS Hy. destruct (nonzero_mem T Hz) as [t Ht].
    assert (HtS : mem t S) by (apply HCS, H1, Ht).
    assert (Dd : forall x, mem x C \/ ~ mem x C) by (intros x; destruct (mem_dec x C); tauto).
    destruct (path_avoid m _ (fun x => mem x C) Dd y t (Hconn y t HyS HtS) Hy) as [P|[z [d [P [Hd He]]]]].
    - pose proof (path_V_r _ _ _ _ P) as [_ Hc]. exfalso. apply Hc, H1, Ht.
    - exists z, d. split; [exact P|]. split; [apply H2; exact Hd|exact He].
  Qed.
  Lemma mem_SC C x : Sub C S -> (mem x (sbs_diff S C) <-> mem x S /\ ~ mem x C).
  Proof. intros H. apply mem_diff; [exact HS|apply (Sub_W64 _ _ H HS)]. Qed.
  Lemma Tprop_single (C v : N) : Sub C S -> connected m (sbs_diff S C) -> mem v S -> ~ mem v C -> Tprop (sbs_union C (2 ^ v)) (2 ^ v).
  Proof.
    intros HCS Hc HvS HvC. split; [intros x Hx; apply mem_union; right; exact Hx|].
    intros y HyS Hy. assert (HyC : ~ mem y C) by (intros H; apply Hy, mem_union; left; exact H).
    assert (Hyv : y <> v) by (intros ->; apply Hy, mem_union; right; apply mem_pow2; reflexivity).
    assert (Dd : forall x, x = v \/ ~ x = v) by (intros x; destruct (N.eq_dec x v); tauto).
    destruct (path_avoid m _ (fun x => x = v) Dd y v (Hc y v (proj2 (mem_SC C y HCS) (conj HyS HyC)) (proj2 (mem_SC C v HCS) (conj HvS HvC))) Hyv)
      as [P|[z [d [P [Hd He]]]]].
    - pose proof (path_V_r _ _ _ _ P) as [_ Hn]. exfalso. apply Hn. reflexivity.
    - exists z, d. split; [|split; [subst d; apply mem_pow2; reflexivity|exact He]].
      eapply path_mono; [|exact P]. cbv beta. intros x [Hx Hxv]. apply mem_SC in Hx; [|exact HCS]. split; [tauto|].
      intros H. apply mem_union in H. destruct H as [H|H]; [tauto|]. apply mem_pow2 in H. contradiction.
  Qed.

  Lemma mc_connected_spec C T : Sub C S -> C <> S -> Tprop C T ->
    exists b, mc_connected m S C T = Some b /\ (b = true <-> connected m (sbs_diff S C)).
  Proof.
    intros HCS HCne [HTC HT]. assert (HCW := Sub_W64 _ _ HCS HS). assert (HTW := Sub_W64 _ _ HTC HCW).
    unfold mc_connected. set (NT := sbs_diff (sbs_inter (neighbors m T) S) C).
    assert (HNT : forall x, mem x NT <-> (exists t, mem t T /\ edge m t x) /\ mem x S /\ ~ mem x C).
    { intros x. unfold NT. rewrite mem_diff, mem_inter, (neighbors_spec n m T x HG HTW); [|apply W64_inter_r; exact HS|exact HCW].
      pose proof (HTC x). unfold mem in *. tauto. }
    assert (HNTW : W64 NT) by (apply W64_diff, W64_inter_r; exact HS).
    assert (Hreach : forall y, mem y S -> ~ mem y C -> exists z, mem z NT /\ path m (fun x => mem x (sbs_diff S C)) y z).
    { intros y H1 H2. destruct (HT y H1 H2) as [z [t [P [Ht He]]]]. exists z. pose proof (path_V_r _ _ _ _ P) as [Z1 Z2]. split.
      - apply HNT. split; [exists t; split; [exact Ht|apply Hsym; exact He]|tauto].
      - eapply path_mono; [|exact P]. cbv beta. intros x Hx. apply mem_SC; assumption. }
    assert (Hc : (forall a b, mem a NT -> mem b NT -> path m (fun x => mem x (sbs_diff S C)) a b) -> connected m (sbs_diff S C)).
    { intros H i j Hi Hj. apply mem_SC in Hi; [|exact HCS]. apply mem_SC in Hj; [|exact HCS].
      destruct (Hreach i (proj1 Hi) (proj2 Hi)) as [a [Ha Pa]], (Hreach j (proj1 Hj) (proj2 Hj)) as [b [Hb Pb]].
      apply path_trans with a; [exact Pa|]. apply path_trans with b; [apply H; assumption|]. apply path_sym; assumption. }
    assert (Hin : forall a, mem a NT -> mem a (sbs_diff S C)).
    { intros a Ha. apply mem_SC; [exact HCS|]. apply HNT in Ha. tauto. }
    destruct (N.leb_spec (sbs_size NT) 1) as [L|L].
    - exists true. split; [reflexivity|]. split; [intros _|reflexivity]. apply Hc. intros a b Ha Hb.
      assert (a = b) as ->.
      { destruct (N.eq_dec a b) as [E|E]; [exact E|]. exfalso.
        assert (sbs_size (2 ^ a) < sbs_size NT).
        { apply popcount_strict with b; [exact HNTW| |exact Hb|]; [intros x Hx; apply mem_pow2 in Hx; subst x; exact Ha|].
          intros H. apply mem_pow2 in H. congruence. }
        rewrite size_pow2 in H. lia. }
      apply path_refl. apply Hin. exact Hb.
    - assert (Hz : NT <> 0) by (intros E; rewrite E in L; change (sbs_size 0) with 0 in L; lia).
      destruct (as_set_inhabited NT HNTW Hz) as [Es Hm].
      destruct (reachable_in_spec n m (it_as_set NT) (sbs_diff S C) HG (W64_diff S C HS)) as [R [E1 [E2 E3]]]. rewrite E1.
      exists (sbs_is_subset NT R). split; [reflexivity|]. rewrite subset_spec. split.
      + intros Hsub. apply Hc. intros a b Ha Hb. apply Hsub in Ha. apply Hsub in Hb. apply E3 in Ha. apply E3 in Hb.
        destruct Ha as [x [Hx Px]], Hb as [y [Hy Py]]. rewrite Es in Hx, Hy. apply mem_pow2 in Hx. apply mem_pow2 in Hy. subst x y.
        apply path_trans with (ctz NT); [apply path_sym; assumption|exact Py].
      + intros Hcon j Hj. apply E3. exists (ctz NT). rewrite Es. split; [apply mem_pow2; reflexivity|].
        apply Hcon; apply Hin; assumption.
  Qed.

  (** Well-formed worklist entries. *)
  Definition wfe (e : N * N * N) : Prop :=
    let '(C, X, T) := e in Sub C S /\ C <> S /\ C <> 0 /\ connected m C /\ Sub X S /\ disjoint C X /\ Tprop C T.
  (** The sets reached from an entry. *)
  Definition From (e : N * N * N) (D : N) : Prop :=
    let '(C, X, T) := e in Sub C D /\ Sub D S /\ D <> S /\ disjoint D X /\ connected m D.

  Definition free (e : N * N * N) : N := let '(C, X, T) := e in popcount (sbs_diff S (sbs_union C X)).
  Definition pot (W : list (N * N * N)) : N := fold_right (fun e s => 2 ^ free e + s) 0 W.
  Lemma pot_app a b : pot (a ++ b) = pot a + pot b.
  Proof. induction a as [|e a IH]; cbn [app pot fold_right]; [reflexivity|]. fold (pot (a ++ b)) (pot a). lia. Qed.
  Lemma pot_rev a : pot (rev a) = pot a.
  Proof. induction a as [|e a IH]; [reflexivity|]. cbn [rev]. rewrite pot_app, IH. cbn [pot fold_right]. fold (pot a). lia. Qed.

  Section Children.
    Variables (C T_tmp : N).
    Hypothesis (HC : Sub C S) (HC0 : C <> 0) (HCc : connected m C) (Hsz : sbs_size C + 1 < sbs_size S).
    Hypothesis HT : forall v, mem v S -> ~ mem v C -> Tprop (sbs_union C (2 ^ v)) (sbs_union T_tmp (2 ^ v)).
    Lemma mc_children_spec steps : forall X bits, (popcount bits < N.of_nat steps) -> Sub X S -> disjoint C X ->
      Sub bits S -> disjoint bits (sbs_union C X) -> (forall v, mem v bits -> exists u, mem u C /\ edge m u v) ->
      Forall wfe (mc_children steps C T_tmp X bits) /\
      pot (mc_children steps C T_tmp X bits) + 1 <= 2 ^ popcount (sbs_diff S (sbs_union C X)) /\
      (forall D, (exists e, In e (mc_children steps C T_tmp X bits) /\ From e D) <->
         Sub C D /\ Sub D S /\ D <> S /\ disjoint D X /\ connected m D /\ (exists v, mem v D /\ mem v bits)).
    Proof.
      induction steps as [|st IH]; intros X bits Hst HX HCX Hb Hbd Hadj; [lia|]. cbn [mc_children].
      assert (HbW := Sub_W64 _ _ Hb HS). assert (HCW := Sub_W64 _ _ HC HS). assert (HXW := Sub_W64 _ _ HX HS).
      destruct (N.eqb_spec bits 0) as [->|Hz].
      { split; [constructor|]. split; [cbn [pot fold_right]; pose proof (pow2_pos (popcount (sbs_diff S (sbs_union C X)))); lia|].
        intros D. split; [intros [e [[] _]]|]. intros [_ [_ [_ [_ [_ [v [_ Hv]]]]]]]. exfalso. exact (mem_0 _ Hv). }
      destruct (as_set_inhabited bits HbW Hz) as [-> Hm]. set (v := ctz bits) in *.
      assert (HvS : mem v S) by (apply Hb; exact Hm).
      assert (HvCX : ~ mem v C /\ ~ mem v X).
      { split; intros H; apply (Hbd v Hm); apply mem_union; [left|right]; exact H. }
      destruct HvCX as [HvC HvX]. assert (Hv64 : v < 64) by (apply (mem_lt64 v S HS HvS)).
      assert (HvW : W64 (2 ^ v)) by (apply pow_W64; exact Hv64).
      assert (HX' : Sub (sbs_union X (2 ^ v)) S).
      { apply union_Sub; [exact HX|]. intros x Hx. apply mem_pow2 in Hx. subst x. exact HvS. }
      assert (HC' : Sub (sbs_union C (2 ^ v)) S).
      { apply union_Sub; [exact HC|]. intros x Hx. apply mem_pow2 in Hx. subst x. exact HvS. }
      assert (Hn : forall i, mem i (it_next bits) <-> mem i bits /\ i <> v) by (intros i; apply it_next_mem; assumption).
      destruct (IH (sbs_union X (2 ^ v)) (it_next bits)) as [I1 [I2 I3]].
      - pose proof (it_next_size bits HbW Hz). lia.
      - exact HX'.
      - intros i H1 H2. apply mem_union in H2. destruct H2 as [H2|H2]; [exact (HCX i H1 H2)|]. apply mem_pow2 in H2. subst i. contradiction.
      - intros i Hi. apply Hn in Hi. apply Hb. tauto.
      - intros i H1 H2. apply Hn in H1. destruct H1 as [H1 H1']. apply mem_union in H2. destruct H2 as [H2|H2].
        + apply (Hbd i H1). apply mem_union. left. exact H2.
        + apply mem_union in H2. destruct H2 as [H2|H2]; [apply (Hbd i H1); apply mem_union; right; exact H2|]. apply mem_pow2 in H2. contradiction.
      - intros x Hx. apply Hn in Hx. apply Hadj. tauto.
      - assert (Hconn' : connected m (sbs_union C (2 ^ v))).
        { destruct (Hadj v Hm) as [u [Hu He]]. apply connected_union; [exact Hsym|exact HCc|apply connected_single|].
          exists u, v. split; [exact Hu|]. split; [apply mem_pow2; reflexivity|exact He]. }
        assert (HCW' : W64 (sbs_union C (2 ^ v))) by (apply W64_union; assumption).
        assert (Hsz' : sbs_size (sbs_union C (2 ^ v)) = sbs_size C + 1).
        { rewrite union_add, size_pow2; [reflexivity|exact HCW|exact HvW|]. intros i H1 H2. apply mem_pow2 in H2. subst i. contradiction. }
        split; [|split].
        + constructor; [|exact I1]. cbn [wfe]. split; [exact HC'|]. split; [intros E; rewrite E in Hsz'; lia|].
          split; [intros E; apply N.lor_eq_0_l in E; contradiction|]. split; [exact Hconn'|]. split; [exact HX|]. split.
          * intros i H1 H2. apply mem_union in H1. destruct H1 as [H1|H1]; [exact (HCX i H1 H2)|]. apply mem_pow2 in H1. subst i. contradiction.
          * apply HT; assumption.
        + cbn [pot fold_right]. fold (pot (mc_children st C T_tmp (sbs_union X (2 ^ v)) (it_next bits))). unfold free.
          assert (E1 : sbs_diff S (sbs_union (sbs_union C (2 ^ v)) X) = sbs_diff S (sbs_union C (sbs_union X (2 ^ v)))).
          { f_equal. unfold sbs_union. rewrite <- !N.lor_assoc. f_equal. apply N.lor_comm. }
          rewrite E1. set (p' := popcount (sbs_diff S (sbs_union C (sbs_union X (2 ^ v))))) in *.
          assert (Hlt : p' < popcount (sbs_diff S (sbs_union C X))).
          { apply popcount_strict with v; [apply W64_diff; exact HS| | |].
            - intros i Hi. apply mem_diff in Hi; [|exact HS|apply W64_union; [exact HCW|apply W64_union; assumption]].
              apply mem_diff; [exact HS|apply W64_union; assumption|]. split; [tauto|]. intros H. apply (proj2 Hi).
              apply mem_union in H. apply mem_union. destruct H as [H|H]; [left; exact H|right; apply mem_union; left; exact H].
            - apply mem_diff; [exact HS|apply W64_union; assumption|]. split; [exact HvS|]. intros H. apply mem_union in H. tauto.
            - intros H. apply mem_diff in H; [|exact HS|apply W64_union; [exact HCW|apply W64_union; assumption]].
              apply (proj2 H). apply mem_union. right. apply mem_union. right. apply mem_pow2. reflexivity. }
          assert (2 ^ N.succ p' <= 2 ^ popcount (sbs_diff S (sbs_union C X))) by (apply N.pow_le_mono_r; lia).
          rewrite N.pow_succ_r' in *. lia.
        + intros D. split.
          * intros [e [[<-|He] HF]].
            -- cbn [From] in HF. destruct HF as [F1 [F2 [F3 [F4 F5]]]]. split; [apply (Sub_union_l _ _ _ F1)|].
               repeat (split; [assumption|]). exists v. split; [apply F1, mem_union; right; apply mem_pow2; reflexivity|exact Hm].
            -- destruct (proj1 (I3 D) (ex_intro _ e (conj He HF))) as [G1 [G2 [G3 [G4 [G5 [x [Gx Gx']]]]]]].
               repeat (split; [assumption|]). split; [intros i H1 H2; apply (G4 i H1), mem_union; left; exact H2|].
               split; [exact G5|]. exists x. apply Hn in Gx'. tauto.
          * intros [G1 [G2 [G3 [G4 [G5 [x [Gx Gx']]]]]]]. destruct (mem_dec v D) as [HvD|HvD].
            -- eexists. split; [left; reflexivity|]. cbn [From]. split; [|tauto]. apply union_Sub; [exact G1|]. intros i Hi.
               apply mem_pow2 in Hi. subst i. exact HvD.
            -- destruct (proj2 (I3 D)) as [e [He HF]]; [|exists e; split; [right; exact He|exact HF]].
               repeat (split; [assumption|]). split.
               { intros i H1 H2. apply mem_union in H2. destruct H2 as [H2|H2]; [exact (G4 i H1 H2)|]. apply mem_pow2 in H2. subst i. contradiction. }
               split; [exact G5|]. exists x. split; [exact Gx|]. apply Hn. split; [exact Gx'|]. intros ->. contradiction.
    Qed.
  End Children.

  Lemma mc_while_spec f : forall W, Forall wfe W -> pot W < N.of_nat f ->
    exists out, mc_while m S f W = Some out /\
      forall p, In p out <-> exists e D, In e W /\ From e D /\ connected m (sbs_diff S D) /\ p = (D, sbs_diff S D).
  Proof.
    induction f as [|f IH]; intros W HW Hpot; [lia|]. cbn [mc_while]. destruct W as [|[[C X] T] W].
    { exists []. split; [reflexivity|]. intros p. split; [intros []|]. intros [e [D [[] _]]]. }
    inversion HW as [|? ? He HW']; subst. destruct He as [W1 [W2 [W3 [W4 [W5 [W6 W7]]]]]].
    destruct (mc_connected_spec C T W1 W2 W7) as [conn [Ec Hc]]. rewrite Ec.
    assert (HCW := Sub_W64 _ _ W1 HS). assert (HXW := Sub_W64 _ _ W5 HS).
    set (next := if sbs_size S <=? sbs_size C + 1 then [] else rev (mc_children 65 C (if conn then 0 else C) X (sbs_diff (sbs_inter (neighbors m C) S) X))).
    assert (Hnext : Forall wfe next /\ pot next + 1 <= 2 ^ free (C, X, T) /\
       (forall D, (exists e, In e next /\ From e D) <-> From (C, X, T) D /\ D <> C)).
    { unfold next. destruct (N.leb_spec (sbs_size S) (sbs_size C + 1)) as [L|L].
      - split; [constructor|]. split; [cbn [pot fold_right]; pose proof (pow2_pos (free (C, X, T))); lia|].
        intros D. split; [intros [e [[] _]]|]. intros [[F1 [F2 [F3 [F4 F5]]]] Hne]. exfalso.
        assert (HDW := Sub_W64 _ _ F2 HS).
        destruct (nonzero_mem _ (diff_nz C D HDW F1 ltac:(congruence))) as [x Hx]. apply mem_diff in Hx; [|assumption|assumption].
        pose proof (popcount_strict C D x HDW F1 (proj1 Hx) (proj2 Hx)).
        destruct (nonzero_mem _ (diff_nz D S HS F2 F3)) as [y Hy]. apply mem_diff in Hy; [|assumption|assumption].
        pose proof (popcount_strict D S y HS F2 (proj1 Hy) (proj2 Hy)). unfold sbs_size in L. lia.
      - set (bits := sbs_diff (sbs_inter (neighbors m C) S) X).
        assert (Hbits : forall x, mem x bits <-> (exists u, mem u C /\ edge m u x) /\ ~ mem x C /\ mem x S /\ ~ mem x X).
        { intros x. unfold bits. rewrite mem_diff, mem_inter, (neighbors_spec n m C x HG HCW); [tauto|apply W64_inter_r; exact HS|exact HXW]. }
        assert (HbW : W64 bits) by (apply W64_diff, W64_inter_r; exact HS).
        destruct (mc_children_spec C (if conn then 0 else C) W1 W3 W4 L) with (steps := 65%nat) (X := X) (bits := bits) as [C1 [C2 C3]].
        + intros v Hv HvC. destruct conn.
          * unfold sbs_union at 2. rewrite N.lor_0_l. apply Tprop_single; [exact W1|apply Hc; reflexivity|exact Hv|exact HvC].
          * apply Tprop_set; [apply Sub_refl|tauto|intros E; apply N.lor_eq_0_l in E; contradiction|].
            apply union_Sub; [exact W1|]. intros x Hx. apply mem_pow2 in Hx. subst x. exact Hv.
        + pose proof (popcount_le64 bits HbW). lia.
        + exact W5.
        + exact W6.
        + intros x Hx. apply Hbits in Hx. tauto.
        + intros x Hx. apply Hbits in Hx. intros H. apply mem_union in H. tauto.
        + intros v Hv. apply Hbits in Hv. tauto.
        + split; [apply Forall_rev; exact C1|]. split; [rewrite pot_rev; exact C2|]. intros D. split.
          * intros [e [He HF]]. apply in_rev in He. destruct (proj1 (C3 D) (ex_intro _ e (conj He HF))) as [G1 [G2 [G3 [G4 [G5 [v [G6 G7]]]]]]].
            split; [cbn [From]; tauto|]. intros ->. apply Hbits in G7. tauto.
          * intros [[F1 [F2 [F3 [F4 F5]]]] Hne].
            destruct (proj2 (C3 D)) as [e [He HF]]; [|exists e; split; [apply -> in_rev; exact He|exact HF]].
            repeat (split; [assumption|]).
            assert (HDW := Sub_W64 _ _ F2 HS).
            destruct (nonzero_mem _ (diff_nz C D HDW F1 ltac:(congruence))) as [x Hx]. apply mem_diff in Hx; [|assumption|assumption].
            destruct (nonzero_mem _ W3) as [u Hu].
            assert (Dd : forall y, mem y C \/ ~ mem y C) by (intros y; destruct (mem_dec y C); tauto).
            destruct (path_exit m (fun y => mem y C) _ Dd u x (F5 u x (F1 u Hu) (proj1 Hx)) Hu (proj2 Hx)) as [a [b [E1 [E2 [E3 [E4 E5]]]]]].
            exists b. split; [exact E5|]. apply Hbits. split; [exists a; tauto|]. split; [exact E2|]. split; [apply F2; exact E5|].
            intros Hbx. exact (F4 b E5 Hbx). }
    destruct Hnext as [N1 [N2 N3]].
    destruct (IH (next ++ W)) as [out [O1 O2]].
    - apply Forall_app. split; assumption.
    - rewrite pot_app. cbn [pot fold_right] in Hpot. fold (pot W) in Hpot. lia.
    - change (exists o, match mc_while m S f (next ++ W) with Some out => Some (if conn then (C, sbs_diff S C) :: out else out) | None => None end = Some o /\
        forall p, In p o <-> exists e D, In e ((C, X, T) :: W) /\ From e D /\ connected m (sbs_diff S D) /\ p = (D, sbs_diff S D)).
      rewrite O1. eexists. split; [reflexivity|].
      assert (HselfF : From (C, X, T) C) by (cbn [From]; split; [apply Sub_refl|tauto]).
      assert (Hout : forall p, In p out <-> exists e D, In e (next ++ W) /\ From e D /\ connected m (sbs_diff S D) /\ p = (D, sbs_diff S D)) by exact O2.
      intros p. split.
      + intros Hp.
        assert (Hp' : (conn = true /\ p = (C, sbs_diff S C)) \/ In p out).
        { destruct conn; [destruct Hp as [<-|Hp]; [left; tauto|right; exact Hp]|right; exact Hp]. }
        destruct Hp' as [[-> ->]|Hp'].
        * exists (C, X, T), C. split; [left; reflexivity|]. split; [exact HselfF|]. split; [apply Hc; reflexivity|reflexivity].
        * apply Hout in Hp'. destruct Hp' as [e [D [H1 [H2 H3]]]]. apply in_app_iff in H1. destruct H1 as [H1|H1].
          -- exists (C, X, T), D. split; [left; reflexivity|]. split; [|exact H3]. apply (N3 D). exists e. tauto.
          -- exists e, D. split; [right; exact H1|tauto].
      + intros [e [D [H1 [H2 [H3 ->]]]]].
        destruct (N.eq_dec D C) as [->|Hne].
        * destruct H1 as [<-|H1].
          -- destruct conn; [left; reflexivity|]. exfalso. assert (false = true) by (apply Hc; exact H3). discriminate.
          -- assert (Hi : In (C, sbs_diff S C) out) by (apply Hout; exists e, C; split; [apply in_app_iff; right; exact H1|tauto]).
             destruct conn; [right; exact Hi|exact Hi].
        * assert (Hi : In (D, sbs_diff S D) out).
          { apply Hout. destruct H1 as [<-|H1].
            - destruct (proj2 (N3 D) (conj H2 Hne)) as [e' [He' HF']]. exists e', D. split; [apply in_app_iff; left; exact He'|tauto].
            - exists e, D. split; [apply in_app_iff; right; exact H1|tauto]. }
          destruct conn; [right; exact Hi|exact Hi].
  Qed.

  Theorem mc_partition_spec f : sbs_size S <> 1 -> S <> 0 -> enough f ->
    exists out, mc_partition m f S = Some out /\
      forall p, In p out <-> exists D, Sub D S /\ D <> S /\ mem (ctz S) D /\ connected m D /\ connected m (sbs_diff S D) /\ p = (D, sbs_diff S D).
  Proof.
    intros Hs1 Hz Hf. unfold mc_partition, sbs_empty, sbs_is_singleton. apply N.eqb_neq in Hz. rewrite Hz. apply N.eqb_neq in Hz.
    apply N.eqb_neq in Hs1. rewrite Hs1. apply N.eqb_neq in Hs1. cbn [orb].
    destruct (as_set_inhabited S HS Hz) as [-> Hm]. set (c := ctz S) in *.
    assert (Hc64 : c < 64) by (apply (mem_lt64 c S HS Hm)).
    assert (Hsub : Sub (2 ^ c) S) by (intros x Hx; apply mem_pow2 in Hx; subst x; exact Hm).
    assert (Hc0 : 2 ^ c <> 0) by (pose proof (pow2_pos c); lia).
    destruct (mc_while_spec f [(2 ^ c, 0, 2 ^ c)]) as [out [O1 O2]].
    - constructor; [|constructor]. cbn [wfe]. split; [exact Hsub|]. split; [intros E; apply Hs1; rewrite <- E; apply size_pow2|].
      split; [exact Hc0|]. split; [apply connected_single|]. split; [intros x Hx; exfalso; exact (mem_0 x Hx)|].
      split; [intros x _ Hx; exact (mem_0 x Hx)|]. apply Tprop_set; [apply Sub_refl|tauto|exact Hc0|exact Hsub].
    - cbn [pot fold_right]. unfold free. 
      assert (popcount (sbs_diff S (sbs_union (2 ^ c) 0)) <= 64) by (apply popcount_le64, W64_diff; exact HS).
      assert (2 ^ popcount (sbs_diff S (sbs_union (2 ^ c) 0)) <= 2 ^ 64) by (apply N.pow_le_mono_r; lia).
      assert ((N.to_nat (2 ^ 64 + 1) <= f)%nat) by (apply enough_le; [exact Hf|rewrite N2Nat.id; lia]). lia.
    - exists out. split; [exact O1|]. intros p. rewrite O2. split.
      + intros [e [D [[<-|[]] [[F1 [F2 [F3 [F4 F5]]]] [H3 ->]]]]]. exists D. repeat (split; [assumption|]).
        split; [apply F1, mem_pow2; reflexivity|]. tauto.
      + intros [D [H1 [H2 [H3 [H4 [H5 ->]]]]]]. exists (2 ^ c, 0, 2 ^ c), D. split; [left; reflexivity|]. cbn [From].
        split; [|tauto]. split; [intros x Hx; apply mem_pow2 in Hx; subst x; exact H3|]. repeat (split; [assumption|]).
        split; [intros x _ Hx; exact (mem_0 x Hx)|exact H4].
  Qed.
End MinCut.
