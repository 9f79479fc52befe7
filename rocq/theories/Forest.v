(** * Forests: the exchange argument for minimum spanning forests *)
From Coq Require Import NArith ZArith List Bool Lia Relations Permutation.
Import ListNotations.
Local Open Scope N_scope.

Notation edge := (N * N)%type.

(** [J l]: connected by the edges in [l]. *)
Definition J (l : list edge) : N -> N -> Prop := clos_refl_sym_trans N (fun x y => In (x, y) l).

Lemma J_refl l x : J l x x. Proof. apply rst_refl. Qed.
Lemma J_sym l x y : J l x y -> J l y x. Proof. apply rst_sym. Qed.
Lemma J_trans l x y z : J l x y -> J l y z -> J l x z. Proof. apply rst_trans. Qed.
Lemma J_in l x y : In (x, y) l -> J l x y. Proof. intros; apply rst_step; auto. Qed.

Lemma J_sub l l' : (forall x y, In (x, y) l -> J l' x y) -> forall x y, J l x y -> J l' x y.
Proof.
  intros H x y Hj. induction Hj as [x y Hs|x|x y _ IH|x y z _ IH1 _ IH2]; auto.
  - apply J_refl. - apply J_sym; auto. - eapply J_trans; eauto.
Qed.
Lemma J_incl l l' x y : incl l l' -> J l x y -> J l' x y.
Proof. intros H. apply J_sub. intros; apply J_in, H; auto. Qed.

Lemma J_nil x y : J [] x y -> x = y.
Proof. intros H. induction H as [? ? []| | |]; congruence. Qed.

Lemma J_cons a b l x y : J ((a, b) :: l) x y <-> J l x y \/ (J l x a /\ J l b y) \/ (J l x b /\ J l a y).
Proof.
  split.
  - intros H. apply clos_rst_rst1n in H. induction H as [x|x z y Hs _ IH]; [left; apply J_refl|].
    assert (Hs' : In (x, z) l \/ In (z, x) l \/ (x = a /\ z = b) \/ (x = b /\ z = a)).
    { destruct Hs as [[E|H]|[E|H]]; try (injection E as -> ->); auto. }
    assert (C : J l x z -> J l x y \/ (J l x a /\ J l b y) \/ (J l x b /\ J l a y)).
    { intros Hz. destruct IH as [I|[[I1 I2]|[I1 I2]]].
      - left; eapply J_trans; eauto.
      - right; left; split; auto; eapply J_trans; eauto.
      - right; right; split; auto; eapply J_trans; eauto. }
    destruct Hs' as [H|[H|[[-> ->]|[-> ->]]]].
    + apply C, J_in; auto.
    + apply C, J_sym, J_in; auto.
    + destruct IH as [I|[[I1 I2]|[I1 I2]]].
      * right; left; split; auto; apply J_refl.
      * right; left; split; auto; apply J_refl.
      * left; auto.
    + destruct IH as [I|[[I1 I2]|[I1 I2]]].
      * right; right; split; auto; apply J_refl.
      * left; auto.
      * right; right; split; auto; apply J_refl.
  - assert (Hi : incl l ((a, b) :: l)) by (intros e He; right; auto).
    assert (Hab : J ((a, b) :: l) a b) by (apply J_in; left; auto).
    intros [H|[[H1 H2]|[H1 H2]]].
    + eapply J_incl; eauto.
    + eapply J_trans; [eapply J_incl; eauto|]. eapply J_trans; [exact Hab|]. eapply J_incl; eauto.
    + eapply J_trans; [eapply J_incl; eauto|]. eapply J_trans; [apply J_sym; exact Hab|]. eapply J_incl; eauto.
Qed.

Lemma J_dec l : forall x y, {J l x y} + {~ J l x y}.
Proof.
  induction l as [|[a b] l IH]; intros x y.
  - destruct (N.eq_dec x y) as [->|H]; [left; apply J_refl|right; intros X; apply H, J_nil; auto].
  - destruct (IH x y) as [H|H0]; [left; apply J_cons; auto|].
    destruct (IH x a) as [H1|H1], (IH b y) as [H2|H2]; try (left; apply J_cons; auto; fail);
    (destruct (IH x b) as [H3|H3], (IH a y) as [H4|H4]; [left; apply J_cons; auto|right; rewrite J_cons; tauto|right; rewrite J_cons; tauto|right; rewrite J_cons; tauto]).
Qed.

Lemma incl_mid (A : list edge) e B : incl (A ++ B) (A ++ e :: B).
Proof. intros x Hx. apply in_app_iff in Hx. apply in_app_iff. cbn. tauto. Qed.
Lemma J_mid A a b B x y : J (A ++ (a, b) :: B) x y <-> J ((a, b) :: A ++ B) x y.
Proof. split; apply J_incl; intros e He; [apply (Permutation_in e (Permutation_sym (Permutation_middle A B (a, b)))); auto|apply (Permutation_in e (Permutation_middle A B (a, b))); auto]. Qed.

(** A path between two classes of [K] has an edge between two classes of [K]. *)
Lemma crossing (C : list edge) (K : N -> N -> Prop) (Kdec : forall x y, {K x y} + {~ K x y})
  (Ks : forall x y, K x y -> K y x) (Kt : forall x y z, K x y -> K y z -> K x z) (Kc : forall x y, J C x y -> K x y) :
  forall G u v, J (C ++ G) u v -> ~ K u v ->
  exists A x y B, G = A ++ (x, y) :: B /\ ~ K x y /\
    ((J (C ++ A ++ B) u x /\ J (C ++ A ++ B) y v) \/ (J (C ++ A ++ B) u y /\ J (C ++ A ++ B) x v)).
Proof.
  induction G as [|[a b] G IH]; intros u v Hj Hk.
  { rewrite app_nil_r in Hj. elim Hk; auto. }
  assert (Hcons : J ((a, b) :: C ++ G) u v) by (apply J_mid; exact Hj). clear Hj.
  assert (Old : J (C ++ G) u v -> exists A x y B, (a, b) :: G = A ++ (x, y) :: B /\ ~ K x y /\
    ((J (C ++ A ++ B) u x /\ J (C ++ A ++ B) y v) \/ (J (C ++ A ++ B) u y /\ J (C ++ A ++ B) x v))).
  { intros Hj. destruct (IH u v Hj Hk) as (A & x & y & B & -> & Hx & HJ). exists ((a, b) :: A), x, y, B. split; [reflexivity|]. split; [auto|].
    assert (Hi : incl (C ++ A ++ B) (C ++ ((a, b) :: A) ++ B)) by (cbn [app]; apply incl_mid).
    destruct HJ as [[H1 H2]|[H1 H2]]; [left|right]; split; eapply J_incl; eauto. }
  apply J_cons in Hcons.
  assert (Gen : forall a' b', (a' = a /\ b' = b) \/ (a' = b /\ b' = a) -> J (C ++ G) u a' -> J (C ++ G) b' v ->
    exists A x y B, (a, b) :: G = A ++ (x, y) :: B /\ ~ K x y /\
    ((J (C ++ A ++ B) u x /\ J (C ++ A ++ B) y v) \/ (J (C ++ A ++ B) u y /\ J (C ++ A ++ B) x v))).
  { intros a' b' Hab Hu Hv. destruct (Kdec a b) as [Kab|Kab].
    2:{ exists [], a, b, G. cbn. split; [reflexivity|]. split; [auto|]. destruct Hab as [[-> ->]|[-> ->]]; auto. }
    assert (Kab' : K a' b') by (destruct Hab as [[-> ->]|[-> ->]]; auto).
    assert (Hcase : ~ K u a' \/ ~ K b' v).
    { destruct (Kdec u a') as [H1|]; auto. destruct (Kdec b' v) as [H2|]; auto. elim Hk. eapply Kt; [|exact H2]. eapply Kt; eauto. }
    assert (Hg : forall l, J ((a, b) :: l) a' b') by (intros l; destruct Hab as [[-> ->]|[-> ->]]; [|apply J_sym]; apply J_in; left; auto).
    destruct Hcase as [Hn|Hn].
    - destruct (IH u a' Hu Hn) as (A & x & y & B & EG & Hx & HJ). subst G.
      assert (Hi : incl (C ++ A ++ B) (C ++ ((a, b) :: A) ++ B)) by (cbn [app]; apply incl_mid).
      assert (Hg' : J (C ++ ((a, b) :: A) ++ B) a' b') by (eapply J_incl; [|apply (Hg (C ++ A ++ B))]; intros e [<-|He]; [apply in_app_iff; right; left; auto|apply Hi; auto]).
      assert (Hbv : J (C ++ A ++ B) b' v \/ (J (C ++ A ++ B) b' x /\ J (C ++ A ++ B) y v) \/ (J (C ++ A ++ B) b' y /\ J (C ++ A ++ B) x v)).
      { rewrite app_assoc in Hv. apply J_mid in Hv. apply J_cons in Hv. rewrite <- app_assoc in Hv. exact Hv. }
      (* going from u to x' and from y' to a' *)
      assert (Go : forall x' y', (x' = x /\ y' = y) \/ (x' = y /\ y' = x) -> J (C ++ A ++ B) u x' -> J (C ++ A ++ B) y' a' ->
        J (C ++ A ++ (x, y) :: B) u v \/ (J (C ++ ((a, b) :: A) ++ B) u x' /\ J (C ++ ((a, b) :: A) ++ B) y' v)).
      { intros x' y' Hxy H1 H2.
        assert (D : J (C ++ A ++ B) b' v \/ (J (C ++ A ++ B) b' x' /\ J (C ++ A ++ B) y' v) \/ (J (C ++ A ++ B) b' y' /\ J (C ++ A ++ B) x' v)).
        { destruct Hxy as [[-> ->]|[-> ->]]; tauto. }
        destruct D as [D|[[D1 D2]|[D1 D2]]].
        - right. split; [eapply J_incl; eauto|]. eapply J_trans; [eapply J_incl; [exact Hi|exact H2]|]. eapply J_trans; [exact Hg'|]. eapply J_incl; eauto.
        - right. split; eapply J_incl; eauto.
        - left. eapply J_incl; [|eapply J_trans; [exact H1|exact D2]]. intros e He. apply in_app_iff in He. apply in_app_iff. destruct He as [|He]; auto. right. apply incl_mid; auto. }
      destruct HJ as [[H1 H2]|[H1 H2]].
      + destruct (Go x y (or_introl (conj eq_refl eq_refl)) H1 H2) as [HO|HG]; [apply Old; exact HO|].
        exists ((a, b) :: A), x, y, B. split; [reflexivity|]. auto.
      + destruct (Go y x (or_intror (conj eq_refl eq_refl)) H1 H2) as [HO|HG]; [apply Old; exact HO|].
        exists ((a, b) :: A), x, y, B. split; [reflexivity|]. auto.
    - destruct (IH b' v Hv Hn) as (A & x & y & B & EG & Hx & HJ). subst G.
      assert (Hi : incl (C ++ A ++ B) (C ++ ((a, b) :: A) ++ B)) by (cbn [app]; apply incl_mid).
      assert (Hg' : J (C ++ ((a, b) :: A) ++ B) a' b') by (eapply J_incl; [|apply (Hg (C ++ A ++ B))]; intros e [<-|He]; [apply in_app_iff; right; left; auto|apply Hi; auto]).
      assert (Hua : J (C ++ A ++ B) u a' \/ (J (C ++ A ++ B) u x /\ J (C ++ A ++ B) y a') \/ (J (C ++ A ++ B) u y /\ J (C ++ A ++ B) x a')).
      { rewrite app_assoc in Hu. apply J_mid in Hu. apply J_cons in Hu. rewrite <- app_assoc in Hu. exact Hu. }
      assert (Go : forall x' y', (x' = x /\ y' = y) \/ (x' = y /\ y' = x) -> J (C ++ A ++ B) b' x' -> J (C ++ A ++ B) y' v ->
        J (C ++ A ++ (x, y) :: B) u v \/ (J (C ++ ((a, b) :: A) ++ B) u x' /\ J (C ++ ((a, b) :: A) ++ B) y' v)).
      { intros x' y' Hxy H1 H2.
        assert (D : J (C ++ A ++ B) u a' \/ (J (C ++ A ++ B) u x' /\ J (C ++ A ++ B) y' a') \/ (J (C ++ A ++ B) u y' /\ J (C ++ A ++ B) x' a')).
        { destruct Hxy as [[-> ->]|[-> ->]]; tauto. }
        destruct D as [D|[[D1 D2]|[D1 D2]]].
        - right. split; [|eapply J_incl; eauto]. eapply J_trans; [eapply J_incl; [exact Hi|exact D]|]. eapply J_trans; [exact Hg'|]. eapply J_incl; eauto.
        - right. split; eapply J_incl; eauto.
        - left. eapply J_incl; [|eapply J_trans; [exact D1|exact H2]]. intros e He. apply in_app_iff in He. apply in_app_iff. destruct He as [|He]; auto. right. apply incl_mid; auto. }
      destruct HJ as [[H1 H2]|[H1 H2]].
      + destruct (Go x y (or_introl (conj eq_refl eq_refl)) H1 H2) as [HO|HG]; [apply Old; exact HO|].
        exists ((a, b) :: A), x, y, B. split; [reflexivity|]. auto.
      + destruct (Go y x (or_intror (conj eq_refl eq_refl)) H1 H2) as [HO|HG]; [apply Old; exact HO|].
        exists ((a, b) :: A), x, y, B. split; [reflexivity|]. auto. }
  destruct Hcons as [H|[[H1 H2]|[H1 H2]]]; [apply Old; auto|apply (Gen a b); auto|apply (Gen b a); auto].
Qed.

(** [l] is a forest over the classes joined by [C]. *)
Definition acyc (C l : list edge) : Prop := forall A x y B, l = A ++ (x, y) :: B -> ~ J (C ++ A ++ B) x y.

Definition sum (wt : edge -> Z) (l : list edge) : Z := fold_right (fun e s => (wt e + s)%Z) 0%Z l.

Lemma sum_mid wt A e B : sum wt (A ++ e :: B) = (wt e + sum wt (A ++ B))%Z.
Proof.
  induction A as [|a A IH]; [reflexivity|]. change (sum wt ((a :: A) ++ e :: B)) with (wt a + sum wt (A ++ e :: B))%Z.
  change (sum wt ((a :: A) ++ B)) with (wt a + sum wt (A ++ B))%Z. rewrite IH. lia.
Qed.

Lemma acyc_mid C A x y B : acyc C (A ++ (x, y) :: B) -> acyc C (A ++ B).
Proof.
  intros H A' x' y' B' E Hj.
  assert (G : exists A1 B1, A ++ (x, y) :: B = A1 ++ (x', y') :: B1 /\ incl (A' ++ B') (A1 ++ B1)).
  { clear H Hj. revert A' E. induction A as [|a A IH]; intros A' E.
    - cbn in E. subst B. exists ((x, y) :: A'), B'. split; [reflexivity|]. intros e He; right; auto.
    - destruct A' as [|a' A']; cbn in E.
      + injection E as -> <-. exists [], (A ++ (x, y) :: B). split; [reflexivity|]. cbn. apply incl_mid.
      + injection E as -> E. destruct (IH A' E) as (A1 & B1 & E2 & Hi). exists (a' :: A1), B1. split; [cbn [app]; rewrite E2; reflexivity|].
        cbn. intros e [<-|He]; [left; auto|right; auto]. }
  destruct G as (A1 & B1 & E1 & Hi). apply (H A1 x' y' B1 E1). eapply J_incl; [|exact Hj].
  intros e He. apply in_app_iff in He. apply in_app_iff. destruct He; auto.
Qed.

(** Adding an edge between two classes to a forest. *)
Lemma acyc_cons C a b l : acyc C l -> ~ J (C ++ l) a b -> acyc ((a, b) :: C) l.
Proof.
  intros H Hn A x y B E Hj. apply (J_cons a b (C ++ A ++ B)) in Hj.
  assert (Hi : incl (C ++ A ++ B) (C ++ l)) by (subst l; intros e He; apply in_app_iff in He; apply in_app_iff; destruct He; [auto|right; apply incl_mid; auto]).
  assert (Hxy : J (C ++ l) x y) by (apply J_in; subst l; apply in_app_iff; right; apply in_app_iff; right; left; auto).
  destruct Hj as [Hj|[[H1 H2]|[H1 H2]]]; [apply (H A x y B E); auto| |].
  - apply Hn. eapply J_trans; [apply J_sym; eapply J_incl; [exact Hi|exact H1]|]. eapply J_trans; [exact Hxy|]. apply J_sym. eapply J_incl; eauto.
  - apply Hn. eapply J_trans; [eapply J_incl; [exact Hi|exact H2]|]. eapply J_trans; [apply J_sym; exact Hxy|]. eapply J_incl; eauto.
Qed.

(** A forest with the cycle property has the least weight. *)
Theorem exchange wt : forall F C G, acyc C F -> acyc C G ->
  (forall x y, In (x, y) F -> J (C ++ G) x y) ->
  (forall x y, In (x, y) G -> J (C ++ filter (fun f => (wt f <=? wt (x, y))%Z) F) x y) ->
  (sum wt F <= sum wt G)%Z.
Proof.
  induction F as [|[u v] F IH]; intros C G HF HG Hspan Hcyc.
  - destruct G as [|[x y] G]; [cbn; lia|]. exfalso. apply (HG [] x y G eq_refl).
    eapply J_incl; [|apply (Hcyc x y (or_introl eq_refl))]. cbn. rewrite app_nil_r. intros e He. apply in_app_iff; auto.
  - assert (Hnuv : ~ J (C ++ F) u v) by (apply (HF [] u v F eq_refl)).
    destruct (crossing C (J (C ++ F)) (J_dec (C ++ F)) (J_sym _) (J_trans _)
      (fun x y => J_incl C (C ++ F) x y (fun e He => proj2 (in_app_iff C F e) (or_introl He))) G u v (Hspan u v (or_introl eq_refl)) Hnuv)
      as (A & x & y & B & EG & Hx & HJ).
    assert (Hw : (wt (u, v) <= wt (x, y))%Z).
    { assert (Hc := Hcyc x y ltac:(subst G; apply in_app_iff; right; left; auto)). cbn [filter] in Hc.
      destruct (Z.leb_spec (wt (u, v)) (wt (x, y))) as [|Hgt]; auto. exfalso. apply Hx. eapply J_incl; [|exact Hc].
      intros e He. apply in_app_iff in He. apply in_app_iff. destruct He as [|He]; auto. apply filter_In in He. tauto. }
    assert (Hnxy : ~ J (C ++ A ++ B) x y) by (apply (HG A x y B EG)).
    assert (HAB : ~ J (C ++ A ++ B) u v).
    { intros Huv. apply Hnxy. destruct HJ as [[H1 H2]|[H1 H2]].
      - eapply J_trans; [apply J_sym; exact H1|]. eapply J_trans; [exact Huv|]. apply J_sym; auto.
      - eapply J_trans; [exact H2|]. eapply J_trans; [apply J_sym; exact Huv|]. auto. }
    subst G. rewrite sum_mid. cbn [sum fold_right]. fold (sum wt F).
    assert (IHs : (sum wt F <= sum wt (A ++ B))%Z); [|lia].
    assert (Hfx : J (((u, v) :: C) ++ A ++ B) x y).
    { cbn [app]. apply J_cons. destruct HJ as [[H1 H2]|[H1 H2]]; [right; left|right; right]; split; auto using J_sym. }
    apply (IH ((u, v) :: C)).
    + intros A' a b B' E. cbn [app]. intros Hj. apply (HF ((u, v) :: A') a b B'); [rewrite E; reflexivity|].
      eapply J_incl; [|exact Hj]. intros e [<-|He]; [apply in_app_iff; right; left; auto|]. apply in_app_iff in He. apply in_app_iff. cbn. tauto.
    + apply acyc_cons; auto. eapply acyc_mid; eauto.
    + intros a b Hab. assert (Hs := Hspan a b (or_intror Hab)). eapply J_sub; [|exact Hs]. intros p q Hpq.
      apply in_app_iff in Hpq. destruct Hpq as [Hpq|Hpq]; [apply J_in; right; apply in_app_iff; auto|].
      apply in_app_iff in Hpq. destruct Hpq as [Hpq|[E|Hpq]].
      * apply J_in. right. apply in_app_iff. right. apply in_app_iff. auto.
      * injection E as <- <-. exact Hfx.
      * apply J_in. right. apply in_app_iff. right. apply in_app_iff. auto.
    + intros a b Hab. assert (Hc := Hcyc a b (incl_mid A (x, y) B _ Hab)). eapply J_incl; [|exact Hc].
      intros e He. apply in_app_iff in He. cbn [app filter] in *. destruct He as [He|He]; [right; apply in_app_iff; auto|].
      destruct (wt (u, v) <=? wt (a, b))%Z; [destruct He as [<-|He]; [left; auto|]|]; right; apply in_app_iff; auto.
Qed.
