(** * Optimality of dynamic-programming join enumeration: the generic argument. *)
From Coq Require Import NArith List Bool Lia Sorting.Sorted.
From Verif Require Import Word WordProofs Bitset BitsetProofs GraphSpec Graph GraphProofs ClosureProofs CSGProofs PlanSpec PlanEnum.
Import ListNotations.
Open Scope N_scope.
Arguments N.pow : simpl never.
Arguments N.testbit : simpl never.

Lemma foldM_app {A B} (f : A -> B -> option A) l1 : forall l2 a,
  foldM f (l1 ++ l2) a = match foldM f l1 a with Some a' => foldM f l2 a' | None => None end.
Proof. induction l1 as [|x l1 IH]; intros l2 a; cbn [app foldM]; [reflexivity|]. destruct (f a x); [apply IH|reflexivity]. Qed.
Lemma foldM_ext {A B} (f g : A -> B -> option A) l : (forall a x, In x l -> f a x = g a x) -> forall a, foldM f l a = foldM g l a.
Proof.
  induction l as [|x l IH]; intros H a; cbn [foldM]; [reflexivity|]. rewrite H by (left; reflexivity).
  destruct (g a x); [apply IH; intros; apply H; right; assumption|reflexivity].
Qed.

Lemma singleton_iff S : W64 S -> sbs_size S =? 1 = true <-> exists i, i < 64 /\ S = 2 ^ i.
Proof.
  intros HW. split.
  - intros H. destruct (singleton_pow2 S HW H) as [E Hz]. exists (ctz S). split; [apply ctz_lt; assumption|exact E].
  - intros [i [Hi ->]]. unfold sbs_size. apply N.eqb_eq. replace (2 ^ i) with (1 * 2 ^ i) by lia. apply popcount_mul_pow2.
Qed.
Lemma ctz_pow2 i : ctz (2 ^ i) = i.
Proof. apply ctz_unique; [rewrite testbit_pow2; apply N.eqb_refl|]. intros j Hj. rewrite testbit_pow2. apply N.eqb_neq. lia. Qed.
Lemma size_pow2 i : sbs_size (2 ^ i) = 1.
Proof. unfold sbs_size. replace (2 ^ i) with (1 * 2 ^ i) by lia. apply popcount_mul_pow2. Qed.

(** The union of two disjoint non-empty sets is larger than both. *)
Lemma union_size l r : W64 l -> W64 r -> l <> 0 -> r <> 0 -> disjoint l r ->
  sbs_size l < sbs_size (sbs_union l r) /\ sbs_size r < sbs_size (sbs_union l r).
Proof.
  intros Hl Hr Hzl Hzr Hd. destruct (nonzero_mem l Hzl) as [i Hi]. destruct (nonzero_mem r Hzr) as [j Hj].
  assert (HW : W64 (sbs_union l r)) by (apply W64_union; assumption). unfold sbs_size. split.
  - apply popcount_strict with j; [exact HW|intros x Hx; apply mem_union; left; exact Hx|apply mem_union; right; exact Hj|].
    intros H. exact (Hd j H Hj).
  - apply popcount_strict with i; [exact HW|intros x Hx; apply mem_union; right; exact Hx|apply mem_union; left; exact Hi|].
    intros H. exact (Hd i Hi H).
Qed.
Lemma size_pos S : S <> 0 -> 0 < sbs_size S.
Proof. apply popcount_pos. Qed.

Lemma jset_W64 J t : jvalid J t -> W64 (jset t) /\ jset t <> 0.
Proof.
  induction t as [i|l IHl r IHr]; cbn [jvalid jset].
  - intros Hi. split; [apply pow_W64; exact Hi|]. pose proof (pow2_pos i). lia.
  - intros [Hl [Hr _]]. destruct (IHl Hl) as [A1 A2], (IHr Hr) as [B1 B2]. split; [apply lor_lt; assumption|].
    intros E. apply N.lor_eq_0_l in E. contradiction.
Qed.

Section DP.
  Context {C : Type}.
  Variables (lt : C -> C -> bool) (jc : N -> N -> C -> C -> C) (inf : C) (leaf : N -> C).
  Hypothesis HCM : cost_model lt jc.
  Notation le := (cle lt).
  Notation upd := (pt_update lt jc).

  Let le_refl := proj1 HCM.
  Let le_trans := proj1 (proj2 HCM).
  Let le_total := proj1 (proj2 (proj2 HCM)).
  Let jc_mono := proj2 (proj2 (proj2 HCM)).

  Lemma lt_le a b : lt a b = true -> le a b.
  Proof. intros H. destruct (le_total a b) as [H'|H']; [exact H'|]. unfold cle in H'. congruence. Qed.

  (** The plan described by the table for [S] (how the optimizer reads it). *)
  Inductive describes (PT : table C) : N -> jtree -> Prop :=
  | d_leaf i : i < 64 -> e_left (PT (2 ^ i)) = 0 -> e_right (PT (2 ^ i)) = 0 -> describes PT (2 ^ i) (JLeaf i)
  | d_node S tl tr : sbs_size S <> 1 -> describes PT (e_left (PT S)) tl -> describes PT (e_right (PT S)) tr ->
      S = N.lor (e_left (PT S)) (e_right (PT S)) -> describes PT S (JNode tl tr).

  Variable J : N -> N -> Prop.
  Hypothesis J_sym : forall a b, J a b -> J b a.
  Variable U : N.                                  (* all sources *)
  Hypothesis HU : W64 U.

  (** Subproblems that have a valid plan. *)
  Definition ok (S : N) : Prop := exists t, jvalid J t /\ jset t = S.

  Definition call_ok (p : N * N) : Prop :=
    ok (fst p) /\ ok (snd p) /\ disjoint (fst p) (snd p) /\ J (fst p) (snd p) /\ Sub (fst p) U /\ Sub (snd p) U.
  Definition un (p : N * N) : N := sbs_union (fst p) (snd p).

  Lemma ok_W64 S : ok S -> W64 S /\ S <> 0.
  Proof. intros [t [H1 <-]]. exact (jset_W64 J t H1). Qed.
  Lemma ok_join a b : ok a -> ok b -> disjoint a b -> J a b -> ok (sbs_union a b).
  Proof. intros [ta [A1 <-]] [tb [B1 <-]] Hd HJ. exists (JNode ta tb). cbn [jvalid jset]. repeat split; assumption. Qed.
  Lemma call_facts p : call_ok p -> W64 (fst p) /\ W64 (snd p) /\ fst p <> 0 /\ snd p <> 0 /\ W64 (un p) /\
    sbs_size (fst p) < sbs_size (un p) /\ sbs_size (snd p) < sbs_size (un p) /\ sbs_size (un p) <> 1 /\
    un p <> fst p /\ un p <> snd p.
  Proof.
    intros [H1 [H2 [H3 _]]]. destruct (ok_W64 _ H1) as [A1 A2], (ok_W64 _ H2) as [B1 B2].
    destruct (union_size (fst p) (snd p) A1 B1 A2 B2 H3) as [S1 S2]. fold (un p) in S1, S2.
    pose proof (size_pos _ A2). split; [exact A1|]. split; [exact B1|]. split; [exact A2|]. split; [exact B2|].
    split; [apply W64_union; assumption|]. split; [exact S1|]. split; [exact S2|]. split; [lia|].
    split; intros E; rewrite E in S1, S2; lia.
  Qed.

  Record Inv (P : list (N * N)) (PT : table C) : Prop := {
    inv_single : forall i, i < 64 -> PT (2 ^ i) = {| e_left := 0; e_right := 0; e_cost := leaf i |};
    inv_plan : forall S, sbs_size S <> 1 -> (has_plan PT S = true <-> exists p, In p P /\ un p = S);
    inv_entry : forall S, sbs_size S <> 1 -> has_plan PT S = true ->
      exists a b, (In (a, b) P \/ In (b, a) P) /\ sbs_union a b = S /\ e_left (PT S) = a /\ e_right (PT S) = b /\
                  e_cost (PT S) = jc a b (e_cost (PT a)) (e_cost (PT b));
    inv_best : forall p, In p P ->
      le (e_cost (PT (un p))) (jc (fst p) (snd p) (e_cost (PT (fst p))) (e_cost (PT (snd p)))) /\
      le (e_cost (PT (un p))) (jc (snd p) (fst p) (e_cost (PT (snd p))) (e_cost (PT (fst p)))) }.

  Lemma Inv_init : Inv [] (pt_init inf leaf).
  Proof.
    constructor.
    - intros i Hi. unfold pt_init. unfold sbs_is_singleton. rewrite size_pow2, N.eqb_refl, ctz_pow2. reflexivity.
    - intros S HS. unfold has_plan. apply N.eqb_neq in HS. rewrite HS. cbn [pt_init e_left]. split; [discriminate|].
      intros [p [[] _]].
    - intros S HS. unfold has_plan. apply N.eqb_neq in HS. rewrite HS. discriminate.
    - intros p [].
  Qed.

  (** One call preserves the invariant, provided the entries it reads are never written afterwards. *)
  Lemma Inv_step P PT p : Forall call_ok P -> call_ok p -> has_plan PT (fst p) = true -> has_plan PT (snd p) = true ->
    (forall q, In q P -> un p <> fst q /\ un p <> snd q) -> Inv P PT ->
    exists PT', upd PT (fst p) (snd p) = Some PT' /\ Inv (P ++ [p]) PT' /\ (forall s, s <> un p -> PT' s = PT s).
  Proof.
    intros HP Hp Hpl Hpr Hord [I1 I2 I3 I4].
    destruct (call_facts p Hp) as [F1 [F2 [F3 [F4 [F5 [F6 [F7 [F8 [F9 F10]]]]]]]]].
    destruct p as [l r]. cbn [fst snd] in *. unfold un in *. cbn [fst snd] in *.
    unfold pt_update. apply N.eqb_neq in F3, F4. unfold sbs_empty. rewrite F3, F4. cbn [orb].
    rewrite Hpl, Hpr. cbn [andb negb]. rewrite andb_false_r.
    set (S := sbs_union l r) in *.
    set (c1 := jc l r (e_cost (PT l)) (e_cost (PT r))). set (c2 := jc r l (e_cost (PT r)) (e_cost (PT l))).
    unfold sbs. set (pick := if lt c2 c1 then (c2, r, l) else (c1, l, r)).
    assert (Hpick : exists c a b, pick = (c, a, b) /\ ((a = l /\ b = r /\ c = c1) \/ (a = r /\ b = l /\ c = c2)) /\ le c c1 /\ le c c2).
    { unfold pick. destruct (lt c2 c1) eqn:E.
      - exists c2, r, l. split; [reflexivity|]. split; [right; tauto|]. split; [apply lt_le; exact E|apply le_refl].
      - exists c1, l, r. split; [reflexivity|]. split; [left; tauto|]. split; [apply le_refl|]. exact E. }
    destruct Hpick as [c [a [b [-> [Hab [Hc1 Hc2]]]]]].
    destruct (negb (has_plan PT S) || lt c (e_cost (PT S))) eqn:E.
    - (* the entry is written *)
      set (PT' := fun s => if s =? S then {| e_left := a; e_right := b; e_cost := c |} else PT s).
      exists PT'. split; [reflexivity|].
      assert (Hother : forall s, s <> S -> PT' s = PT s) by (intros s Hs; unfold PT'; apply N.eqb_neq in Hs; rewrite Hs; reflexivity).
      assert (HS : PT' S = {| e_left := a; e_right := b; e_cost := c |}) by (unfold PT'; rewrite N.eqb_refl; reflexivity).
      assert (Hhp : forall s, s <> S -> has_plan PT' s = has_plan PT s) by (intros s Hs; unfold has_plan; rewrite (Hother s Hs); reflexivity).
      assert (HhS : has_plan PT' S = true).
      { unfold has_plan. apply N.eqb_neq in F8. rewrite F8, HS. cbn [e_left]. unfold sbs_empty.
        destruct Hab as [[-> _]|[-> _]]; [rewrite F3|rewrite F4]; reflexivity. }
      assert (Hcl : PT' l = PT l) by (apply Hother; congruence). assert (Hcr : PT' r = PT r) by (apply Hother; congruence).
      clearbody PT'. split; [|exact Hother]. constructor.
      + intros i Hi. rewrite Hother; [apply I1; exact Hi|]. intros E'. apply F8. rewrite <- E'. apply size_pow2.
      + intros s Hs. destruct (N.eq_dec s S) as [->|Hne].
        * split; [|intros _; exact HhS]. intros _. exists (l, r). split; [apply in_app_iff; right; left; reflexivity|reflexivity].
        * rewrite (Hhp s Hne), (I2 s Hs). split; intros [p [Hp1 Hp2]]; exists p; (split; [|exact Hp2]).
          -- apply in_app_iff. left. exact Hp1.
          -- apply in_app_iff in Hp1. destruct Hp1 as [Hp1|[<-|[]]]; [exact Hp1|]. exfalso. apply Hne. symmetry. exact Hp2.
      + intros s Hs Hh. destruct (N.eq_dec s S) as [->|Hne].
        * exists a, b. rewrite HS. cbn [e_left e_right e_cost].
          destruct Hab as [[-> [-> ->]]|[-> [-> ->]]]; rewrite Hcl, Hcr.
          -- split; [left; apply in_app_iff; right; left; reflexivity|]. repeat split; reflexivity.
          -- split; [right; apply in_app_iff; right; left; reflexivity|]. split; [apply N.lor_comm|]. repeat split; reflexivity.
        * rewrite (Hhp s Hne) in Hh. destruct (I3 s Hs Hh) as [x [y [H1 [H2 [H3 [H4 H5]]]]]]. exists x, y.
          rewrite (Hother s Hne). split; [destruct H1 as [H1|H1]; [left|right]; apply in_app_iff; left; exact H1|].
          split; [exact H2|]. split; [exact H3|]. split; [exact H4|].
          assert (x <> S /\ y <> S) as [Hx Hy].
          { destruct H1 as [H1|H1]; destruct (Hord _ H1) as [O1 O2]; cbn [fst snd] in O1, O2; split; congruence. }
          rewrite (Hother x Hx), (Hother y Hy). exact H5.
      + intros q Hq. apply in_app_iff in Hq. destruct Hq as [Hq|[<-|[]]].
        * destruct (Hord q Hq) as [O1 O2]. rewrite (Hother (fst q)), (Hother (snd q)) by congruence.
          destruct (I4 q Hq) as [B1 B2]. destruct (N.eq_dec (un q) S) as [Eq|Hne]; [|rewrite (Hother _ Hne); split; assumption].
          assert (Hle : le (e_cost (PT' (un q))) (e_cost (PT (un q)))).
          { rewrite Eq, HS. cbn [e_cost]. assert (Hh : has_plan PT S = true) by (apply I2; [exact F8|]; exists q; split; assumption).
            rewrite Hh in E. cbn [negb orb] in E. apply lt_le. exact E. }
          split; apply le_trans with (e_cost (PT (un q))); assumption.
        * cbn [fst snd un]. change (un (l, r)) with S. rewrite HS, Hcl, Hcr. cbn [e_cost]. split; assumption.
    - (* the entry is kept *)
      apply orb_false_iff in E. destruct E as [E1 E2]. apply negb_false_iff in E1.
      exists PT. split; [reflexivity|]. split; [|reflexivity]. constructor.
      + exact I1.
      + intros s Hs. rewrite (I2 s Hs). split; intros [p [Hp1 Hp2]].
        * exists p. split; [apply in_app_iff; left; exact Hp1|exact Hp2].
        * apply in_app_iff in Hp1. destruct Hp1 as [Hp1|[<-|[]]]; [exists p; split; assumption|].
          apply (I2 s Hs). rewrite <- Hp2. exact E1.
      + intros s Hs Hh. destruct (I3 s Hs Hh) as [x [y [H1 H2]]]. exists x, y. split; [|exact H2].
        destruct H1 as [H1|H1]; [left|right]; apply in_app_iff; left; exact H1.
      + intros q Hq. apply in_app_iff in Hq. destruct Hq as [Hq|[<-|[]]]; [apply I4; exact Hq|]. cbn [fst snd].
        change (un (l, r)) with S. split; apply le_trans with c; assumption.
  Qed.

  (** Traces of calls. *)
  Definition ordered (tr : list (N * N)) : Prop :=
    forall P p Q, tr = P ++ p :: Q -> forall q, In q (p :: Q) -> un q <> fst p /\ un q <> snd p.
  Definition complete (tr : list (N * N)) : Prop :=
    forall a b, ok a -> ok b -> disjoint a b -> J a b -> Sub (sbs_union a b) U -> In (a, b) tr \/ In (b, a) tr.

  Lemma ok_split S : ok S -> sbs_size S = 1 \/ exists a b, ok a /\ ok b /\ disjoint a b /\ J a b /\ S = sbs_union a b.
  Proof.
    intros [[i|l r] [H1 <-]]; cbn [jvalid jset] in *; [left; apply size_pow2|]. right. exists (jset l), (jset r).
    split; [exists l; tauto|]. split; [exists r; tauto|]. split; [tauto|]. split; [tauto|reflexivity].
  Qed.

  Lemma run_prefix tr : Forall call_ok tr -> complete tr -> ordered tr ->
    forall Q0 P R, tr = P ++ Q0 ++ R -> forall PT, Inv P PT ->
    exists PT', foldM (fun PT p => upd PT (fst p) (snd p)) Q0 PT = Some PT' /\ Inv (P ++ Q0) PT'.
  Proof.
    intros Hok Hc Ho. induction Q0 as [|p Q0 IH]; intros P R E0 PT HI.
    - rewrite app_nil_r. exists PT. split; [reflexivity|exact HI].
    - set (Q := Q0 ++ R). assert (E : tr = P ++ p :: Q) by exact E0. assert (Hp : call_ok p). { rewrite Forall_forall in Hok. apply Hok. rewrite E. apply in_app_iff. right. left. reflexivity. }
      assert (HP : Forall call_ok P). { rewrite E in Hok. apply Forall_app in Hok. tauto. }
      assert (Hplan : forall s, ok s -> Sub s U -> (s = fst p \/ s = snd p) -> has_plan PT s = true).
      { intros s Hs HsU Hsp. destruct (N.eq_dec (sbs_size s) 1) as [E1|E1].
        - unfold has_plan. rewrite E1. reflexivity.
        - apply (inv_plan _ _ HI s E1). destruct (ok_split s Hs) as [H|[a [b [Ha [Hb [Hd [HJ ->]]]]]]]; [contradiction|].
          assert (Hin : exists q, In q tr /\ un q = sbs_union a b).
          { destruct (Hc a b Ha Hb Hd HJ HsU) as [H|H]; [exists (a, b); split; [exact H|reflexivity]|].
            exists (b, a). split; [exact H|apply N.lor_comm]. }
          destruct Hin as [q [Hq1 Hq2]]. exists q. split; [|exact Hq2]. rewrite E in Hq1. apply in_app_iff in Hq1.
          destruct Hq1 as [Hq1|Hq1]; [exact Hq1|]. exfalso. destruct (Ho P p Q E q Hq1) as [O1 O2].
          destruct Hsp as [Hsp|Hsp]; congruence. }
      destruct Hp as [Hp1 [Hp2 [Hp3 [Hp4 [Hp5 Hp6]]]]].
      destruct (Inv_step P PT p HP (conj Hp1 (conj Hp2 (conj Hp3 (conj Hp4 (conj Hp5 Hp6)))))
                  (Hplan _ Hp1 Hp5 (or_introl eq_refl)) (Hplan _ Hp2 Hp6 (or_intror eq_refl))) as [PT1 [U1 [U2 _]]].
      + intros q Hq. apply in_split in Hq. destruct Hq as [A [B ->]]. rewrite <- app_assoc in E. cbn [app] in E.
        apply (Ho A q (B ++ p :: Q) E). right. apply in_app_iff. right. left. reflexivity.
      + exact HI.
      + cbn [foldM]. rewrite U1. destruct (IH (P ++ [p]) R) with (PT := PT1) as [PT2 [V1 V2]].
        * rewrite E0, <- app_assoc. reflexivity.
        * exact U2.
        * exists PT2. split; [exact V1|]. rewrite <- app_assoc in V2. exact V2.
  Qed.
  Lemma run_inv tr : Forall call_ok tr -> complete tr -> ordered tr -> forall PT, Inv [] PT ->
    exists PT', foldM (fun PT p => upd PT (fst p) (snd p)) tr PT = Some PT' /\ Inv tr PT'.
  Proof.
    intros H1 H2 H3 PT HI. apply (run_prefix tr H1 H2 H3 tr [] []); [rewrite app_nil_r; reflexivity|exact HI].
  Qed.

  (** The final table is optimal for every subproblem that has a valid plan. *)
  Definition table_optimal (PT : table C) : Prop :=
    forall S, ok S -> Sub S U -> exists t, describes PT S t /\ optimal lt leaf jc J S t /\ jcost leaf jc t = e_cost (PT S).

  Lemma Inv_optimal tr PT : Forall call_ok tr -> complete tr -> Inv tr PT -> table_optimal PT.
  Proof.
    intros Hok Hc HI S HS HSU.
    assert (Hlow : forall t, jvalid J t -> Sub (jset t) U -> le (e_cost (PT (jset t))) (jcost leaf jc t)).
    { induction t as [i|l IHl r IHr]; cbn [jvalid jset jcost]; intros Hv Hs.
      - rewrite (inv_single _ _ HI i Hv). cbn [e_cost]. apply le_refl.
      - destruct Hv as [Hl [Hr [Hd HJ]]].
        assert (Hsl : Sub (jset l) U) by (intros x Hx; apply Hs, mem_union; left; exact Hx).
        assert (Hsr : Sub (jset r) U) by (intros x Hx; apply Hs, mem_union; right; exact Hx).
        specialize (IHl Hl Hsl). specialize (IHr Hr Hsr).
        apply le_trans with (jc (jset l) (jset r) (e_cost (PT (jset l))) (e_cost (PT (jset r)))); [|apply jc_mono; assumption].
        destruct (Hc (jset l) (jset r) (ex_intro _ l (conj Hl eq_refl)) (ex_intro _ r (conj Hr eq_refl)) Hd HJ Hs) as [H|H];
          destruct (inv_best _ _ HI _ H) as [B1 B2]; unfold un in B1, B2; cbn [fst snd] in B1, B2; [exact B1|].
        unfold sbs_union in B2. rewrite N.lor_comm in B2. exact B2. }
    assert (Hex : forall k S, sbs_size S <= k -> ok S -> Sub S U ->
      exists t, describes PT S t /\ jvalid J t /\ jset t = S /\ jcost leaf jc t = e_cost (PT S)).
    { clear S HS HSU. induction k as [|k IHk] using N.peano_ind; intros S Hk HS HSU.
      - destruct (ok_W64 S HS) as [_ Hz]. pose proof (size_pos S Hz). lia.
      - destruct (N.eq_dec (sbs_size S) 1) as [E1|E1].
        + apply N.eqb_eq in E1. apply singleton_iff in E1; [|apply (ok_W64 S HS)]. destruct E1 as [i [Hi ->]].
          exists (JLeaf i). pose proof (inv_single _ _ HI i Hi) as Hi'. split; [apply d_leaf; [exact Hi|rewrite Hi'; reflexivity|rewrite Hi'; reflexivity]|]. cbn [jvalid jset jcost]. split; [exact Hi|]. split; [reflexivity|].
          rewrite Hi'. reflexivity.
        + assert (Hh : has_plan PT S = true).
          { apply (inv_plan _ _ HI S E1). destruct (ok_split S HS) as [H|[a [b [Ha [Hb [Hd [HJ ->]]]]]]]; [contradiction|].
            destruct (Hc a b Ha Hb Hd HJ HSU) as [H|H]; [exists (a, b); split; [exact H|reflexivity]|].
            exists (b, a). split; [exact H|apply N.lor_comm]. }
          destruct (inv_entry _ _ HI S E1 Hh) as [a [b [Hin [HU' [HL [HR Hcost]]]]]].
          assert (Hab : call_ok (a, b)).
          { rewrite Forall_forall in Hok. destruct Hin as [Hin|Hin]; [exact (Hok _ Hin)|].
            destruct (Hok _ Hin) as [P1 [P2 [P3 [P4 [P5 P6]]]]]. cbn [fst snd] in *. repeat split; auto.
            intros x H1 H2. exact (P3 x H2 H1). }
          destruct (call_facts _ Hab) as [F1 [F2 [F3 [F4 [F5 [F6 [F7 _]]]]]]]. unfold un in F6, F7. cbn [fst snd] in *.
          rewrite HU' in F6, F7. destruct Hab as [P1 [P2 [P3 [P4 [P5 P6]]]]]. cbn [fst snd] in *.
          destruct (IHk a) as [ta [A1 [A2 [A3 A4]]]]; [lia|exact P1|exact P5|].
          destruct (IHk b) as [tb [B1 [B2 [B3 B4]]]]; [lia|exact P2|exact P6|].
          exists (JNode ta tb). split.
          * apply d_node; [exact E1|rewrite HL; exact A1|rewrite HR; exact B1|rewrite HL, HR; symmetry; exact HU'].
          * cbn [jvalid jset jcost]. rewrite A3, B3, A4, B4. split; [tauto|]. split; [exact HU'|]. symmetry. exact Hcost. }
    destruct (Hex (sbs_size S) S ltac:(lia) HS HSU) as [t [T1 [T2 [T3 T4]]]].
    exists t. split; [exact T1|]. split; [|exact T4]. split; [exact T2|]. split; [exact T3|].
    intros t' Ht' Hs'. rewrite T4, <- Hs'. apply Hlow; [exact Ht'|rewrite Hs'; exact HSU].
  Qed.

  Theorem trace_optimal tr : Forall call_ok tr -> complete tr -> ordered tr ->
    exists PT, foldM (fun PT p => upd PT (fst p) (snd p)) tr (pt_init inf leaf) = Some PT /\ Inv tr PT /\ table_optimal PT.
  Proof.
    intros H1 H2 H3. destruct (run_inv tr H1 H2 H3 _ Inv_init) as [PT [A1 A2]].
    exists PT. split; [exact A1|]. split; [exact A2|]. exact (Inv_optimal tr PT H1 H2 A2).
  Qed.

  (** ** Phased enumeration: all calls of a phase build sets of that phase's key from sets of smaller keys. *)
  Variable key : N -> N.
  Variable phases : list N.
  Hypothesis phases_sorted : StronglySorted N.lt phases.
  Variable calls : N -> list (N * N).
  Hypothesis calls_ok : forall k p, In k phases -> In p (calls k) ->
    call_ok p /\ key (un p) = k /\ key (fst p) < k /\ key (snd p) < k.
  Hypothesis calls_complete : forall a b, ok a -> ok b -> disjoint a b -> J a b -> Sub (sbs_union a b) U ->
    In (key (sbs_union a b)) phases /\ (In (a, b) (calls (key (sbs_union a b))) \/ In (b, a) (calls (key (sbs_union a b)))).
  (** What a phase may rely on: exactly the plannable sets of smaller key have plans. *)
  Definition ready (k : N) (PT : table C) : Prop :=
    forall S, Sub S U -> S <> 0 -> key S < k -> (has_plan PT S = true <-> ok S).
  Variable body : table C -> N -> option (table C).
  Hypothesis body_calls : forall k PT, In k phases -> ready k PT ->
    body PT k = foldM (fun PT p => upd PT (fst p) (snd p)) (calls k) PT.

  Let tr := flat_map calls phases.

  Lemma tr_ok : Forall call_ok tr.
  Proof. apply Forall_forall. intros p Hp. apply in_flat_map in Hp. destruct Hp as [k [Hk Hp]]. apply (calls_ok k p Hk Hp). Qed.
  Lemma tr_complete : complete tr.
  Proof.
    intros a b Ha Hb Hd HJ HS. destruct (calls_complete a b Ha Hb Hd HJ HS) as [H1 [H2|H2]]; [left|right];
      apply in_flat_map; exists (key (sbs_union a b)); split; assumption.
  Qed.
  Lemma tr_ordered : ordered tr.
  Proof.
    intros P p Q E q Hq.
    assert (Hkeys : forall ks, StronglySorted N.lt ks -> (forall k, In k ks -> In k phases) -> forall P p Q, flat_map calls ks = P ++ p :: Q ->
       forall q, In q (p :: Q) -> key (un p) <= key (un q)).
    { clear E Hq. induction ks as [|k ks IH]; intros Hs Hin P' p' Q' E' q' Hq'; cbn [flat_map] in E'; [destruct P'; discriminate|].
      inversion Hs as [|? ? Hs' Hlt]; subst. assert (Hkin : In k phases) by (apply Hin; left; reflexivity).
      assert (Hall : forall x, In x (calls k ++ flat_map calls ks) -> In x (calls k) \/ exists k', In k' ks /\ In x (calls k')).
      { intros x Hx. apply in_app_iff in Hx. destruct Hx as [Hx|Hx]; [left; exact Hx|right]. apply in_flat_map in Hx. exact Hx. }
      assert (Hsplit : In p' (calls k) \/ exists P'', flat_map calls ks = P'' ++ p' :: Q').
      { clear - E'. revert E'. generalize (calls k) as l. intros l. revert P'. induction l as [|x l IHl]; intros P' E'; cbn [app] in E'.
        - right. exists P'. exact E'.
        - destruct P' as [|y P']; cbn [app] in E'; injection E' as E1 E2; [left; left; exact E1|].
          destruct (IHl P' E2) as [H|H]; [left; right; exact H|right; exact H]. }
      destruct Hsplit as [Hp'|[P'' E'']].
      - destruct (calls_ok k p' Hkin Hp') as [_ [Hkp _]]. rewrite Hkp.
        assert (Hq2 : In q' (calls k ++ flat_map calls ks)) by (rewrite E'; apply in_app_iff; right; exact Hq').
        destruct (Hall q' Hq2) as [H|[k' [Hk' H]]].
        + destruct (calls_ok k q' Hkin H) as [_ [-> _]]. lia.
        + destruct (calls_ok k' q' (Hin k' (or_intror Hk')) H) as [_ [-> _]]. rewrite Forall_forall in Hlt. specialize (Hlt k' Hk'). lia.
      - apply (IH Hs' (fun x Hx => Hin x (or_intror Hx)) P'' p' Q' E'' q' Hq'). }
    pose proof (Hkeys phases phases_sorted (fun k H => H) P p Q E q Hq) as Hle.
    assert (Hp : In p tr) by (rewrite E; apply in_app_iff; right; left; reflexivity).
    apply in_flat_map in Hp. destruct Hp as [k [Hk Hp]]. destruct (calls_ok k p Hk Hp) as [_ [K1 [K2 K3]]].
    split; intros Eq; rewrite Eq in Hle; lia.
  Qed.

  Lemma phased_run : forall ks done PT, phases = done ++ ks -> Inv (flat_map calls done) PT ->
    exists PT', foldM body ks PT = Some PT' /\ Inv tr PT'.
  Proof.
    induction ks as [|k ks IH]; intros done PT E HI.
    - rewrite app_nil_r in E. subst done. exists PT. split; [reflexivity|exact HI].
    - assert (Hk : In k phases) by (rewrite E; apply in_app_iff; right; left; reflexivity).
      assert (Etr : tr = flat_map calls done ++ (calls k ++ flat_map calls ks)).
      { unfold tr. rewrite E, flat_map_app. reflexivity. }
      assert (Hready : ready k PT).
      { intros S HS Hz Hkey. assert (HSW : W64 S) by (apply (Sub_W64 S U HS HU)).
        destruct (N.eq_dec (sbs_size S) 1) as [E1|E1].
        - split.
          + intros _. apply N.eqb_eq in E1. apply singleton_iff in E1; [|exact HSW]. destruct E1 as [i [Hi ->]].
            exists (JLeaf i). split; [exact Hi|reflexivity].
          + intros _. unfold has_plan. rewrite E1. reflexivity.
        - rewrite (inv_plan _ _ HI S E1). split.
          + intros [p [Hp1 <-]]. pose proof tr_ok as Hok. rewrite Forall_forall in Hok.
            assert (Hp : call_ok p) by (apply Hok; rewrite Etr; apply in_app_iff; left; exact Hp1).
            destruct Hp as [P1 [P2 [P3 [P4 _]]]]. apply ok_join; assumption.
          + intros HSok. destruct (ok_split S HSok) as [H|[a [b [Ha [Hb [Hd [HJ ->]]]]]]]; [contradiction|].
            destruct (calls_complete a b Ha Hb Hd HJ HS) as [C1 C2].
            assert (Hdone : In (key (sbs_union a b)) done).
            { rewrite E in C1. apply in_app_iff in C1. destruct C1 as [C1|C1]; [exact C1|]. exfalso.
              rewrite E in phases_sorted. clear - phases_sorted C1 Hkey. induction done as [|d done IHd]; cbn [app] in phases_sorted.
              - inversion phases_sorted as [|? ? Hs Hf]; subst. destruct C1 as [C1|C1]; [lia|]. rewrite Forall_forall in Hf.
                specialize (Hf _ C1). lia.
              - inversion phases_sorted as [|? ? Hs Hf]; subst. exact (IHd Hs). }
            destruct C2 as [C2|C2]; [exists (a, b)|exists (b, a)];
              (split; [apply in_flat_map; exists (key (sbs_union a b)); split; assumption|]); [reflexivity|apply N.lor_comm]. }
      cbn [foldM]. rewrite (body_calls k PT Hk Hready).
      (* run the calls of this phase *)
      assert (Hrun : exists PT', foldM (fun PT p => upd PT (fst p) (snd p)) (calls k) PT = Some PT' /\ Inv (flat_map calls done ++ calls k) PT')
        by exact (run_prefix tr tr_ok tr_complete tr_ordered (calls k) (flat_map calls done) (flat_map calls ks) Etr PT HI).
      destruct Hrun as [PT' [R1 R2]]. rewrite R1. apply IH with (done ++ [k]).
      + rewrite E, <- app_assoc. reflexivity.
      + rewrite flat_map_app. cbn [flat_map]. rewrite app_nil_r. exact R2.
  Qed.

  Theorem phased_optimal : exists PT, foldM body phases (pt_init inf leaf) = Some PT /\ Inv tr PT /\ table_optimal PT.
  Proof.
    destruct (phased_run phases [] (pt_init inf leaf) eq_refl Inv_init) as [PT [R1 R2]].
    exists PT. split; [exact R1|]. split; [exact R2|]. exact (Inv_optimal tr PT tr_ok tr_complete R2).
  Qed.
End DP.
