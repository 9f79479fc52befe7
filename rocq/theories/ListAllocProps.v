(** * C23: the list allocator *)
From Coq Require Import List Bool ZArith Lia Permutation Sorted.
From Verif Require Import ListAlloc.
Import ListNotations.
Local Open Scope Z_scope.

Ltac zb := repeat match goal with
  | |- context [Z.eqb ?a ?b] => destruct (Z.eqb_spec a b) | |- context [Z.ltb ?a ?b] => destruct (Z.ltb_spec a b) | |- context [Z.leb ?a ?b] => destruct (Z.leb_spec a b) end.

Lemma BIT_pos : 0 < BIT. Proof. reflexivity. Qed.
Lemma ext_small x : 0 <= x < BIT -> ext x = x. Proof. apply Z.mod_small. Qed.
Lemma ext_mark x : 0 <= x < BIT -> ext (x + BIT) = x.
Proof. intros H. unfold ext. replace (x + BIT) with (x + 1 * BIT) by lia. rewrite Z.mod_add by discriminate. apply Z.mod_small. exact H. Qed.
Lemma marked_small x : x < BIT -> marked x = false. Proof. intros H. unfold marked. apply Z.leb_gt. exact H. Qed.
Lemma marked_big x : 0 <= x -> marked (x + BIT) = true. Proof. intros H. unfold marked. apply Z.leb_le. lia. Qed.
Lemma ext_bounds v : 0 <= ext v < BIT. Proof. apply Z.mod_pos_bound. reflexivity. Qed.
Lemma decode v : 0 <= v < 2 * BIT -> v = ext v + (if marked v then BIT else 0).
Proof.
  intros H. unfold marked. destruct (Z.leb_spec BIT v) as [L|L].
  - replace v with ((v - BIT) + BIT) at 2 by lia. rewrite ext_mark by lia. lia.
  - rewrite ext_small by lia. lia.
Qed.
Lemma ceil_mult_spec x p : 0 < p -> x <= ceil_mult x p < x + p /\ (ceil_mult x p) mod p = 0.
Proof.
  intros Hp. unfold ceil_mult. pose proof (Z.div_mod (x + p - 1) p ltac:(lia)). pose proof (Z.mod_pos_bound (x + p - 1) p Hp).
  split; [nia|]. apply Z.mod_mul. lia.
Qed.
Lemma mod8_div x : x mod 8 = 0 -> exists q, x = 8 * q.
Proof. intros H. exists (x / 8). pose proof (Z.div_mod x 8 ltac:(lia)). lia. Qed.
Ltac m8 := repeat match goal with H : ?x mod 8 = 0 |- _ => apply mod8_div in H; let q := fresh "q" in destruct H as [q H] end.
Lemma mod8_intro q x : x = 8 * q -> x mod 8 = 0.
Proof. intros ->. rewrite Z.mul_comm. apply Z.mod_mul. lia. Qed.

Lemma mod8_add x y : x mod 8 = 0 -> y mod 8 = 0 -> (x + y) mod 8 = 0.
Proof. intros H1 H2. m8. subst. rewrite <- Z.mul_add_distr_l, Z.mul_comm. apply Z.mod_mul. lia. Qed.
Lemma mod8_sub x y : x mod 8 = 0 -> y mod 8 = 0 -> (x - y) mod 8 = 0.
Proof. intros H1 H2. m8. subst. rewrite <- Z.mul_sub_distr_l, Z.mul_comm. apply Z.mod_mul. lia. Qed.

Definition cend (c : Z * Z) : Z := fst c + ext (snd c).
Definition before (c d : Z * Z) : Prop := cend c <= fst d.
Definition dis (c d : Z * Z) : Prop := before c d \/ before d c.
Definition rdis (r q : Z * Z) : Prop := fst r + snd r <= fst q \/ fst q + snd q <= fst r.
Lemma dis_sym c d : dis c d -> dis d c. Proof. unfold dis. tauto. Qed.

Lemma fop_perm {A} (R : A -> A -> Prop) l l' : (forall a b, R a b -> R b a) -> Permutation l l' -> ForallOrdPairs R l -> ForallOrdPairs R l'.
Proof.
  intros Hs Hp. induction Hp as [|x l l' Hp IH|x y l|l l' l'' Hp1 IH1 Hp2 IH2]; intros H; auto.
  - inversion H; subst. constructor; [|auto]. eapply Permutation_Forall; eauto.
  - inversion H; subst. inversion H3; subst. inversion H2; subst. constructor; [constructor; auto|]. constructor; auto.
Qed.

Definition shape (c : Z * Z) : Prop := 0 <= snd c < 2 * BIT /\ fst c mod 8 = 0 /\ ext (snd c) mod 8 = 0 /\ 16 <= ext (snd c).
Record Tiling (R C : list (Z * Z)) : Prop := {
  t_shape : forall c, In c C -> shape c;
  t_dis : ForallOrdPairs dis C;
  t_in : forall c, In c C -> exists b n, In (b, n) R /\ b <= fst c /\ cend c <= b + n /\ (marked (snd c) = true <-> fst c = b);
  t_reg : forall b n, In (b, n) R -> 0 < n /\ 0 < b /\ b + n <= BIT;
  t_rdis : ForallOrdPairs rdis R;
  t_start : forall b n, In (b, n) R -> exists v, In (b, v) C;
  t_next : forall c, In c C -> (exists b n, In (b, n) R /\ b <= fst c < b + n /\ cend c = b + n) \/ exists w, In (cend c, w) C /\ marked w = false;
  t_prev : forall a w, In (a, w) C -> marked w = false -> exists c, In c C /\ cend c = a
}.
Lemma T_perm R C C' : Permutation C C' -> Tiling R C -> Tiling R C'.
Proof.
  intros Hp T. pose proof (Permutation_sym Hp) as Hp'. constructor.
  - intros c H. apply (t_shape _ _ T). eapply Permutation_in; eauto.
  - eapply fop_perm; [exact dis_sym|exact Hp|apply (t_dis _ _ T)].
  - intros c H. apply (t_in _ _ T). eapply Permutation_in; eauto.
  - apply (t_reg _ _ T).
  - apply (t_rdis _ _ T).
  - intros b n H. destruct (t_start _ _ T b n H) as [v Hv]. exists v. eapply Permutation_in; eauto.
  - intros c H. destruct (t_next _ _ T c) as [X|[w [X Y]]]; [eapply Permutation_in; eauto|left; exact X|]. right. exists w. split; [|exact Y]. eapply Permutation_in; eauto.
  - intros a w H M. destruct (t_prev _ _ T a w) as [c [X Y]]; [eapply Permutation_in; eauto|exact M|]. exists c. split; [|exact Y]. eapply Permutation_in; eauto.
Qed.
Lemma T_split R a v C first : Tiling R ((a, v) :: C) -> first mod 8 = 0 -> 16 <= first -> 16 <= ext v - first ->
  Tiling R ((a, first + (if marked v then BIT else 0)) :: (a + first, ext v - first) :: C).
Proof.
  intros T H8 Hf Hr. set (v1 := first + (if marked v then BIT else 0)). pose proof (ext_bounds v) as Bv.
  pose proof (t_shape _ _ T (a, v) (or_introl eq_refl)) as [S1 [S2 [S3 S4]]]. cbn [fst snd] in *.
  assert (E1 : ext v1 = first) by (unfold v1; destruct (marked v); [apply ext_mark; lia|rewrite Z.add_0_r; apply ext_small; lia]).
  assert (M1 : marked v1 = marked v) by (unfold v1; destruct (marked v); [apply marked_big; lia|rewrite Z.add_0_r; apply marked_small; lia]).
  assert (E2 : ext (ext v - first) = ext v - first) by (apply ext_small; lia).
  assert (M2 : marked (ext v - first) = false) by (apply marked_small; lia).
  assert (V1 : 0 <= v1 < 2 * BIT) by (unfold v1; destruct (marked v); lia).
  pose proof (t_dis _ _ T) as D. assert (D1 : Forall (dis (a, v)) C) by (inversion D; assumption). assert (D2 : ForallOrdPairs dis C) by (inversion D; assumption). clear D. rewrite Forall_forall in D1.
  assert (End2 : cend (a + first, ext v - first) = cend (a, v)) by (unfold cend; cbn [fst snd]; rewrite E2; lia).
  assert (End1 : cend (a, v1) = a + first) by (unfold cend; cbn [fst snd]; rewrite E1; lia).
  constructor.
  - intros c [<-|[<-|Hc]]; [| |apply (t_shape _ _ T); right; exact Hc]; unfold shape; cbn [fst snd].
    + rewrite E1. auto.
    + rewrite E2. split; [lia|]. split; [apply mod8_add; assumption|]. split; [apply mod8_sub; assumption|]. lia.
  - constructor; [|constructor; [|exact D2]].
    + constructor.
      * left. unfold before. rewrite End1. cbn [fst]. lia.
      * apply Forall_forall. intros d Hd. destruct (D1 d Hd) as [X|X]; unfold before in X; [left|right]; unfold before.
        -- rewrite End1. unfold cend in X. cbn [fst snd] in X. lia.
        -- cbn [fst] in *. exact X.
    + apply Forall_forall. intros d Hd. destruct (D1 d Hd) as [X|X]; unfold before in X; [left|right]; unfold before.
      * rewrite End2. exact X.
      * cbn [fst] in *. lia.
  - destruct (t_in _ _ T (a, v) (or_introl eq_refl)) as [b [n [I1 [I2 [I3 I4]]]]]. cbn [fst snd] in *.
    intros c [<-|[<-|Hc]]; [| |apply (t_in _ _ T); right; exact Hc]; exists b, n; cbn [fst snd].
    + rewrite End1. unfold cend in I3. cbn [fst snd] in I3. repeat split; auto; try lia; rewrite M1; apply I4.
    + rewrite End2, M2. repeat split; auto; try lia; discriminate.
  - apply (t_reg _ _ T).
  - apply (t_rdis _ _ T).
  - intros b n H. destruct (t_start _ _ T b n H) as [w [E|Hw]]; [injection E as -> <-; exists v1; left; reflexivity|exists w; right; right; exact Hw].
  - intros c [<-|[<-|Hc]].
    + right. exists (ext v - first). rewrite End1. split; [right; left; reflexivity|exact M2].
    + destruct (t_next _ _ T (a, v) (or_introl eq_refl)) as [[b [n [X1 [X2 X3]]]]|[w [X Y]]].
      * left. exists b, n. rewrite End2. split; [exact X1|]. split; [|exact X3]. cbn [fst] in *. unfold cend in X3. cbn [fst snd] in X3. lia.
      * right. exists w. rewrite End2. split; [|exact Y]. destruct X as [X|X]; [|right; right; exact X]. exfalso. injection X as X _. unfold cend in X. cbn [fst snd] in X. lia.
    + destruct (t_next _ _ T c (or_intror Hc)) as [X|[w [X Y]]]; [left; exact X|right].
      destruct X as [X|X]; [|exists w; split; [right; right; exact X|exact Y]].
      injection X as -> ->. exists v1. split; [left; reflexivity|]. rewrite M1. exact Y.
  - intros a' w [E|[E|Hw]] Mw.
    + injection E as <- <-. rewrite M1 in Mw. destruct (t_prev _ _ T a v (or_introl eq_refl) Mw) as [c [[<-|Hc] Y]].
      * exfalso. unfold cend in Y. cbn [fst snd] in Y. lia.
      * exists c. split; [right; right; exact Hc|exact Y].
    + injection E as <- <-. exists (a, v1). split; [left; reflexivity|exact End1].
    + destruct (t_prev _ _ T a' w (or_intror Hw) Mw) as [c [[<-|Hc] Y]].
      * exists (a + first, ext v - first). split; [right; left; reflexivity|]. rewrite End2. exact Y.
      * exists c. split; [right; right; exact Hc|exact Y].
Qed.
Lemma fop_in {A} (R : A -> A -> Prop) l x y : (forall a b, R a b -> R b a) -> ForallOrdPairs R l -> In x l -> In y l -> x = y \/ R x y.
Proof.
  intros Hs H. induction H as [|a l Ha H IH]; intros Hx Hy; [destruct Hx|]. rewrite Forall_forall in Ha.
  destruct Hx as [<-|Hx], Hy as [<-|Hy]; auto.
Qed.
Lemma T_merge R a v b w C : Tiling R ((a, v) :: (b, w) :: C) -> a + ext v = b -> marked w = false -> Tiling R ((a, v + ext w) :: C).
Proof.
  intros T Hb Mw. subst b.
  pose proof (t_shape _ _ T (a, v) (or_introl eq_refl)) as [S1 [S2 [S3 S4]]]. pose proof (t_shape _ _ T (a + ext v, w) (or_intror (or_introl eq_refl))) as [U1 [U2 [U3 U4]]]. cbn [fst snd] in *.
  pose proof (ext_bounds v) as Bv. pose proof (ext_bounds w) as Bw.
  destruct (t_in _ _ T (a, v) (or_introl eq_refl)) as [b [n [I1 [I2 [I3 I4]]]]]. destruct (t_in _ _ T (a + ext v, w) (or_intror (or_introl eq_refl))) as [b' [n' [J1 [J2 [J3 J4]]]]].
  unfold cend in I3, J3. cbn [fst snd] in *.
  assert (Er : (b', n') = (b, n)).
  { destruct (fop_in rdis R (b', n') (b, n) ltac:(unfold rdis; tauto) (t_rdis _ _ T) J1 I1) as [E|X]; [exact E|exfalso].
    assert (b' <> a + ext v) by (intros E; symmetry in E; apply J4 in E; congruence). unfold rdis in X. cbn [fst snd] in X. lia. }
  injection Er as -> ->.
  destruct (t_reg _ _ T b n I1) as [Rn [Rb Rm]].
  assert (Ev : v = ext v + (if marked v then BIT else 0)) by (apply decode; exact S1).
  set (v1 := v + ext w).
  assert (Hv1 : v1 = (ext v + ext w) + (if marked v then BIT else 0)) by (unfold v1; lia).
  assert (E1 : ext v1 = ext v + ext w) by (rewrite Hv1; destruct (marked v); [apply ext_mark; lia|rewrite Z.add_0_r; apply ext_small; lia]).
  assert (M1 : marked v1 = marked v) by (rewrite Hv1; destruct (marked v); [apply marked_big; lia|rewrite Z.add_0_r; apply marked_small; lia]).
  assert (V1 : 0 <= v1 < 2 * BIT) by (rewrite Hv1; destruct (marked v); lia).
  assert (End1 : cend (a, v1) = cend (a + ext v, w)) by (unfold cend; cbn [fst snd]; rewrite E1; lia).
  pose proof (t_dis _ _ T) as D. assert (D1 : Forall (dis (a, v)) ((a + ext v, w) :: C)) by (inversion D; assumption). assert (D2 : ForallOrdPairs dis ((a + ext v, w) :: C)) by (inversion D; assumption). assert (D3 : Forall (dis (a + ext v, w)) C) by (inversion D2; assumption). assert (D4 : ForallOrdPairs dis C) by (inversion D2; assumption). clear D D2. rewrite Forall_forall in D1, D3.
  clearbody v1.
  constructor.
  - intros c [<-|Hc]; [|apply (t_shape _ _ T); right; right; exact Hc]. unfold shape. cbn [fst snd]. rewrite E1. split; [exact V1|].
    split; [exact S2|]. split; [apply mod8_add; assumption|]. lia.
  - constructor; [|exact D4]. apply Forall_forall. intros d Hd. pose proof (D1 d (or_intror Hd)) as X. pose proof (D3 d Hd) as Y.
    pose proof (t_shape _ _ T d (or_intror (or_intror Hd))) as [_ [_ [_ Sd]]].
    unfold dis, before in *. rewrite End1. unfold cend in *. cbn [fst snd] in *. lia.
  - intros c [<-|Hc]; [|apply (t_in _ _ T); right; right; exact Hc]. exists b, n. rewrite End1. unfold cend. cbn [fst snd]. rewrite M1. repeat split; auto; try lia; apply I4.
  - apply (t_reg _ _ T).
  - apply (t_rdis _ _ T).
  - intros b1 n1 H. destruct (t_start _ _ T b1 n1 H) as [u [E|[E|Hu]]].
    + injection E as -> ->. exists v1. left. reflexivity.
    + exfalso. injection E as E ->. destruct (t_reg _ _ T b1 n1 H) as [Q1 Q2].
      destruct (fop_in rdis R (b1, n1) (b, n) ltac:(unfold rdis; tauto) (t_rdis _ _ T) H I1) as [E'|X].
      * injection E' as -> ->. symmetry in E. symmetry in E. apply J4 in E. congruence.
      * unfold rdis in X. cbn [fst snd] in X. lia.
    + exists u. right. exact Hu.
  - intros c [<-|Hc].
    + rewrite End1. destruct (t_next _ _ T (a + ext v, w) (or_intror (or_introl eq_refl))) as [[b1 [n1 [X1 [X2 X3]]]]|[u [X Y]]].
      * left. exists b, n. cbn [fst] in *. split; [exact I1|]. split; [lia|]. rewrite X3.
        destruct (fop_in rdis R (b1, n1) (b, n) ltac:(unfold rdis; tauto) (t_rdis _ _ T) X1 I1) as [E|X]; [injection E as -> ->; reflexivity|exfalso].
        unfold rdis in X. cbn [fst snd] in X. lia.
      * right. exists u. split; [|exact Y]. unfold cend in *. cbn [fst snd] in *. destruct X as [X|[X|X]]; [injection X as X _; lia|injection X as X _; lia|right; exact X].
    + destruct (t_next _ _ T c (or_intror (or_intror Hc))) as [X|[u [X Y]]]; [left; exact X|right].
      destruct X as [X|[X|X]]; [| |exists u; split; [right; exact X|exact Y]].
      * injection X as Xa Xu. subst u. exists v1. rewrite <- Xa. split; [left; reflexivity|]. rewrite M1. exact Y.
      * exfalso. injection X as Xa Xu. pose proof (D1 c (or_intror Hc)) as Z1. pose proof (t_shape _ _ T c (or_intror (or_intror Hc))) as [_ [_ [_ Sc]]].
        unfold dis, before, cend in *. cbn [fst snd] in *. lia.
  - intros a' u [E|Hu] Mu.
    + injection E as <- <-. rewrite M1 in Mu. destruct (t_prev _ _ T a v (or_introl eq_refl) Mu) as [c [[<-|[<-|Hc]] Y]].
      * exfalso. unfold cend in Y. cbn [fst snd] in Y. lia.
      * exfalso. unfold cend in Y. cbn [fst snd] in Y. lia.
      * exists c. split; [right; exact Hc|exact Y].
    + destruct (t_prev _ _ T a' u (or_intror (or_intror Hu)) Mu) as [c [[<-|[<-|Hc]] Y]].
      * exfalso. pose proof (D3 _ Hu) as Z1. pose proof (t_shape _ _ T _ (or_intror (or_intror Hu))) as [_ [_ [_ Sc]]]. unfold dis, before, cend in *. cbn [fst snd] in *. lia.
      * exists (a, v1). split; [left; reflexivity|]. rewrite End1. exact Y.
      * exists c. split; [right; exact Hc|exact Y].
Qed.
Lemma T_fresh R C a n : Tiling R C -> a mod 8 = 0 -> n mod 8 = 0 -> 16 <= n -> 0 < a -> a + n <= BIT -> (forall b m, In (b, m) R -> a + n <= b \/ b + m <= a) ->
  Tiling ((a, n) :: R) ((a, n + BIT) :: C).
Proof.
  intros T Ha Hn Hm Hp Hb Hd.
  assert (E1 : ext (n + BIT) = n) by (apply ext_mark; lia). assert (M1 : marked (n + BIT) = true) by (apply marked_big; lia).
  assert (Out : forall c, In c C -> a + n <= fst c \/ cend c <= a).
  { intros c Hc. destruct (t_in _ _ T c Hc) as [b [m [I1 [I2 [I3 _]]]]]. pose proof (t_shape _ _ T c Hc) as [_ [_ [_ Sc]]]. destruct (Hd b m I1) as [X|X]; [left; lia|right; lia]. }
  constructor.
  - intros c [<-|Hc]; [|apply (t_shape _ _ T); exact Hc]. unfold shape. cbn [fst snd]. rewrite E1. repeat split; auto; lia.
  - constructor; [|apply (t_dis _ _ T)]. apply Forall_forall. intros d Hin. destruct (Out d Hin) as [X|X]; [left|right]; unfold before; [|exact X]. unfold cend. cbn [fst snd]. rewrite E1. exact X.
  - intros c [<-|Hc].
    + exists a, n. unfold cend. cbn [fst snd]. rewrite E1, M1. repeat split; auto; try lia; left; reflexivity.
    + destruct (t_in _ _ T c Hc) as [b [m [I1 I2]]]. exists b, m. split; [right; exact I1|exact I2].
  - intros b m [E|H]; [injection E as <- <-; lia|apply (t_reg _ _ T); exact H].
  - constructor; [|apply (t_rdis _ _ T)]. apply Forall_forall. intros [b m] H. unfold rdis. cbn [fst snd]. apply (Hd b m H).
  - intros b m [E|H]; [injection E as <- <-; eexists; left; reflexivity|]. destruct (t_start _ _ T b m H) as [v Hv]. exists v. right. exact Hv.
  - intros c [<-|Hc].
    + left. exists a, n. unfold cend. cbn [fst snd]. rewrite E1. repeat split; try lia; left; reflexivity.
    + destruct (t_next _ _ T c Hc) as [[b [m [X1 X2]]]|[w [X Y]]]; [left; exists b, m; split; [right; exact X1|exact X2]|right; exists w; split; [right; exact X|exact Y]].
  - intros a' w [E|Hw] Mw; [injection E as <- <-; congruence|]. destruct (t_prev _ _ T a' w Hw Mw) as [c [X Y]]. exists c. split; [right; exact X|exact Y].
Qed.

(** ** The list of unused chunks *)
Definition sorted (l : list (Z * Z)) : Prop := StronglySorted before l.
Definition nomerge (l : list (Z * Z)) : Prop := forall c d, In c l -> In d l -> marked (snd d) = false -> cend c <> fst d.

Lemma sorted_app l1 l2 : sorted (l1 ++ l2) <-> sorted l1 /\ sorted l2 /\ forall c d, In c l1 -> In d l2 -> before c d.
Proof.
  unfold sorted. induction l1 as [|x l1 IH]; cbn [app].
  - split; [intros H; split; [constructor|split; [exact H|intros c d []]]|intros [_ [H _]]; exact H].
  - split.
    + intros H. inversion H; subst. apply IH in H2. destruct H2 as [A [B C]]. rewrite Forall_forall in H3. split; [|split; [exact B|]].
      * constructor; [exact A|]. apply Forall_forall. intros d Hd. apply H3. apply in_or_app. auto.
      * intros c d [<-|Hc] Hd; [apply H3; apply in_or_app; auto|auto].
    + intros [A [B C]]. inversion A; subst. constructor.
      * apply IH. split; [assumption|]. split; [exact B|]. intros c d Hc Hd. apply C; [right; exact Hc|exact Hd].
      * apply Forall_forall. intros d Hd. apply in_app_or in Hd. destruct Hd as [Hd|Hd]; [rewrite Forall_forall in H2; auto|]. apply C; [left; reflexivity|exact Hd].
Qed.
Lemma sorted_cons x l : sorted (x :: l) <-> sorted l /\ forall d, In d l -> before x d.
Proof.
  unfold sorted. split.
  - intros H. inversion H; subst. split; [assumption|]. rewrite Forall_forall in H3. exact H3.
  - intros [A B]. constructor; [exact A|]. apply Forall_forall. exact B.
Qed.

Lemma insert_pos_app l a : let '(p, q) := insert_pos l a in l = p ++ q.
Proof. induction l as [|[b v] l IH]; cbn [insert_pos]; [reflexivity|]. destruct (b + 8 <? a); [|reflexivity]. destruct (insert_pos l a) as [p q]. cbn. congruence. Qed.
Lemma insert_pos_spec l a v : sorted l -> (forall c, In c l -> shape c) -> (forall c, In c l -> dis c (a, v)) -> 16 <= ext v ->
  let '(p, q) := insert_pos l a in (forall c, In c p -> before c (a, v)) /\ (forall c, In c q -> before (a, v) c).
Proof.
  intros Hs Hsh Hd He. induction l as [|[b w] l IH]; cbn [insert_pos]; [split; intros c []|].
  apply sorted_cons in Hs. destruct Hs as [Hs Hb].
  pose proof (Hsh (b, w) (or_introl eq_refl)) as [_ [_ [_ Sw]]]. pose proof (Hd (b, w) (or_introl eq_refl)) as D. cbn [fst snd] in *.
  destruct (Z.ltb_spec (b + 8) a) as [L|L].
  - destruct (insert_pos l a) as [p q]. destruct IH as [P Q]; auto. { intros c Hc. apply Hsh. right. exact Hc. } { intros c Hc. apply Hd. right. exact Hc. }
    split; [|exact Q]. intros c [<-|Hc]; [|auto]. unfold dis, before, cend in *. cbn [fst snd] in *. lia.
  - split; [intros c []|]. assert (B : before (a, v) (b, w)) by (unfold dis, before, cend in *; cbn [fst snd] in *; lia).
    intros c [<-|Hc]; [exact B|]. specialize (Hb c Hc). unfold before, cend in *. cbn [fst snd] in *. lia.
Qed.

(** ** The invariant *)
Definition used (m : Z -> Z) (b : Z * Z * Z) : Z * Z := let '(ptr, size, _) := b in (ptr, m (size_addr ptr size)).
Definition chunks_of (s : lst) (live : list (Z * Z * Z)) : list (Z * Z) := fl s ++ map (used (mem s)) live.
Record Inv (PG : Z) (s : lst) (live : list (Z * Z * Z)) : Prop := {
  i_tile : Tiling (regions s) (chunks_of s live);
  i_sorted : sorted (fl s);
  i_nomerge : nomerge (fl s);
  i_live : forall ptr size al, In (ptr, size, al) live -> 0 < size /\ size + 8 <= ext (mem s (size_addr ptr size)) /\ (al = 0 \/ ptr mod al = 0);
  i_min : 0 < min_size s /\ min_size s mod PG = 0
}.
Lemma size_cell ptr size v : ptr mod 8 = 0 -> ext v mod 8 = 0 -> size + 8 <= ext v -> 0 < size ->
  size_addr ptr size mod 8 = 0 /\ ptr + size <= size_addr ptr size < ptr + size + 8 /\ ptr + 8 <= size_addr ptr size /\ size_addr ptr size + 8 <= ptr + ext v.
Proof.
  intros H1 H2 H3 H4. unfold size_addr. pose proof (ceil_mult_spec (ptr + size) 8 ltac:(lia)) as [A B]. split; [exact B|]. m8. lia.
Qed.

Lemma fop_cross {A} (R : A -> A -> Prop) l1 l2 x y : ForallOrdPairs R (l1 ++ l2) -> In x l1 -> In y l2 -> R x y.
Proof.
  induction l1 as [|a l1 IH]; intros H Hx Hy; [destruct Hx|]. cbn [app] in H. inversion H; subst. destruct Hx as [<-|Hx]; [|auto].
  rewrite Forall_forall in H2. apply H2. apply in_or_app. auto.
Qed.
(** the size cell of a used chunk lies inside the chunk *)
Lemma live_cell PG s live ptr size al : Inv PG s live -> In (ptr, size, al) live ->
  let x := size_addr ptr size in let c := (ptr, mem s x) in
  In c (map (used (mem s)) live) /\ In c (chunks_of s live) /\ shape c /\ x mod 8 = 0 /\ ptr + size <= x /\ ptr + 8 <= x /\ x + 8 <= cend c.
Proof.
  intros I Hin x c. assert (Hc : In c (map (used (mem s)) live)) by (apply in_map_iff; exists (ptr, size, al); split; [reflexivity|exact Hin]).
  assert (Hc' : In c (chunks_of s live)) by (apply in_or_app; right; exact Hc).
  pose proof (t_shape _ _ (i_tile _ _ _ I) c Hc') as Sh. destruct (i_live _ _ _ I ptr size al Hin) as [L1 [L2 _]].
  destruct Sh as [S1 [S2 [S3 S4]]]. destruct (size_cell ptr size (mem s x) S2 S3 L2 L1) as [A [B [C D]]].
  repeat split; auto; try apply S1; unfold cend; cbn [fst snd]; fold x in B, C, D |- *; lia.
Qed.
Lemma inv_mem PG s live f : Inv PG s live -> (forall ptr size al, In (ptr, size, al) live -> f (size_addr ptr size) = mem s (size_addr ptr size)) ->
  Inv PG (mkL (fl s) (min_size s) (expo s) f (regions s)) live.
Proof.
  intros I H. constructor; cbn [fl min_size expo mem regions]; try apply I.
  - unfold chunks_of in *. cbn [fl mem]. replace (map (used f) live) with (map (used (mem s)) live); [apply (i_tile _ _ _ I)|].
    apply map_ext_in. intros [[p z] al] Hin. cbn [used]. rewrite (H p z al Hin). reflexivity.
  - intros ptr size al Hin. rewrite (H ptr size al Hin). apply (i_live _ _ _ I ptr size al Hin).
Qed.
(** Two chunks at different places of the tiling: a word inside one is not inside the other. *)
Lemma dis_words c d x : dis c d -> fst c <= x < cend c -> ~ (fst d <= x < cend d).
Proof. unfold dis, before. lia. Qed.

Lemma map_used_upd m x v live : (forall ptr size al, In (ptr, size, al) live -> size_addr ptr size <> x) -> map (used (upd m x v)) live = map (used m) live.
Proof.
  intros H. apply map_ext_in. intros [[p z] al] Hin. cbn [used]. unfold upd. destruct (Z.eqb_spec (size_addr p z) x) as [E|]; [|reflexivity]. exfalso. exact (H p z al Hin E).
Qed.

Lemma take_inv PG s live pre a v post size al s' ptr :
  Inv PG (mkL (pre ++ (a, v) :: post) (min_size s) (expo s) (mem s) (regions s)) live ->
  0 < size -> size + 8 <= ext v -> (al = 0 \/ a mod al = 0) -> take s pre (a, v) post size = (s', ptr) ->
  ptr = a /\ Inv PG s' ((a, size, al) :: live) /\ regions s' = regions s.
Proof.
  intros I Hsz Hfit Hal Ht. set (s0 := mkL (pre ++ (a, v) :: post) (min_size s) (expo s) (mem s) (regions s)) in I.
  pose proof (i_tile _ _ _ I) as T. pose proof (i_sorted _ _ _ I) as So. pose proof (i_nomerge _ _ _ I) as Nm. unfold chunks_of in T. cbn [fl mem regions s0] in T, So, Nm.
  assert (Hc : In (a, v) (pre ++ (a, v) :: post)) by apply in_elt.
  pose proof (t_shape _ _ T (a, v) (in_or_app _ _ _ (or_introl Hc))) as [S1 [S2 [S3 S4]]]. cbn [fst snd] in *.
  destruct (size_cell a size v S2 S3 Hfit Hsz) as [X1 [X2 [X3 X4]]].
  assert (Hother : forall p z l, In (p, z, l) live -> size_addr p z <> size_addr a size).
  { intros p z l Hin E. destruct (live_cell PG s0 live p z l I Hin) as [C1 [_ [_ [_ [_ [C2 C3]]]]]]. cbn [mem s0] in *.
    pose proof (fop_cross dis _ _ _ _ (t_dis _ _ T) Hc C1) as D. apply (dis_words _ _ (size_addr a size) D); unfold cend in *; cbn [fst snd] in *; lia. }
  assert (Hu : forall w, map (used (upd (mem s) (size_addr a size) w)) ((a, size, al) :: live) = (a, w) :: map (used (mem s)) live).
  { intros w. cbn [map]. rewrite (map_used_upd _ _ _ _ Hother). cbn [used]. unfold upd at 1. rewrite Z.eqb_refl. reflexivity. }
  assert (Perm : Permutation ((pre ++ (a, v) :: post) ++ map (used (mem s)) live) ((a, v) :: (pre ++ post) ++ map (used (mem s)) live)).
  { rewrite <- !app_assoc. cbn [app]. symmetry. apply Permutation_middle. }
  pose proof (T_perm _ _ _ Perm T) as T1.
  apply sorted_app in So. destruct So as [So1 [So2 So3]]. apply sorted_cons in So2. destruct So2 as [So2 So4].
  assert (Hlive : forall w, size + 8 <= ext w -> forall p z l, In (p, z, l) ((a, size, al) :: live) -> 0 < z /\ z + 8 <= ext (upd (mem s) (size_addr a size) w (size_addr p z)) /\ (l = 0 \/ p mod l = 0)).
  { intros w Hw p z l [E|Hin].
    - injection E as <- <- <-. unfold upd. rewrite Z.eqb_refl. auto.
    - destruct (i_live _ _ _ I p z l Hin) as [A [B C]]. cbn [mem s0] in B. unfold upd. destruct (Z.eqb_spec (size_addr p z) (size_addr a size)) as [E|]; [exfalso; exact (Hother _ _ _ Hin E)|auto]. }
  unfold take in Ht. unfold size_of_header in Ht.
  destruct ((16 + size + 8 <=? ext v) && (size * 2 <=? ext v - 8)) eqn:Ec; injection Ht as <- <-; (split; [reflexivity|split; [|reflexivity]]).
  - apply andb_true_iff in Ec. destruct Ec as [Ec1 Ec2]. apply Z.leb_le in Ec1, Ec2.
    set (first := ceil_mult (Z.max (size + 8) 16) 8) in *.
    pose proof (ceil_mult_spec (Z.max (size + 8) 16) 8 ltac:(lia)) as [F1 F2]. fold first in F1, F2.
    assert (Hrest : 16 <= ext v - first). { clear - F1 F2 S3 Ec1 Hsz. m8. lia. }
    set (w := first + (if marked v then BIT else 0)). pose proof (ext_bounds v) as Bv.
    assert (Ew : ext w = first) by (unfold w; destruct (marked v); [apply ext_mark; lia|rewrite Z.add_0_r; apply ext_small; lia]).
    pose proof (T_split _ _ _ _ first T1 F2 ltac:(lia) Hrest) as T2. fold w in T2.
    constructor; cbn [fl min_size expo mem regions].
    + unfold chunks_of. cbn [fl mem]. rewrite Hu. eapply T_perm; [|exact T2].
      set (c2 := (a + first, ext v - first)). set (L := map (used (mem s)) live).
      transitivity (c2 :: (a, w) :: (pre ++ post) ++ L); [apply perm_swap|].
      rewrite <- !app_assoc. cbn [app]. apply Permutation_cons_app.
      apply (Permutation_trans (l' := pre ++ (a, w) :: post ++ L)); [apply Permutation_middle|]. apply Permutation_app_head. apply Permutation_middle.
    + apply sorted_app. split; [exact So1|]. split.
      * apply sorted_cons. split; [exact So2|]. intros d Hd. specialize (So4 d Hd). unfold before, cend in *. cbn [fst snd] in *. rewrite ext_small by lia. lia.
      * intros c d Hc1 [<-|Hd]; [specialize (So3 c (a, v) Hc1 (or_introl eq_refl)); unfold before in *; cbn [fst] in *; lia|apply So3; [exact Hc1|right; exact Hd]].
    + assert (E2 : cend (a + first, ext v - first) = cend (a, v)) by (unfold cend; cbn [fst snd]; rewrite ext_small by lia; lia).
      intros c d Hc1 Hd1 Md. apply in_app_or in Hc1, Hd1.
      assert (Pc : forall c, In c pre \/ In c post -> In c (pre ++ (a, v) :: post)) by (intros c0 [Z0|Z0]; apply in_or_app; [left; exact Z0|right; right; exact Z0]).
      destruct Hc1 as [Hc1|[<-|Hc1]], Hd1 as [Hd1|[<-|Hd1]]; try (apply Nm; auto; fail).
      * specialize (So3 c (a, v) Hc1 (or_introl eq_refl)). unfold before in So3. cbn [fst] in *. lia.
      * rewrite E2. apply Nm; auto.
      * unfold cend. cbn [fst snd]. rewrite ext_small by lia. lia.
      * rewrite E2. apply Nm; auto.
      * specialize (So4 c Hc1). pose proof (t_shape _ _ T c (in_or_app _ _ _ (or_introl (Pc c (or_intror Hc1))))) as [_ [_ [_ Sc]]]. unfold before, cend in *. cbn [fst snd] in *. lia.
    + apply Hlive. lia.
    + apply (i_min _ _ _ I).
  - constructor; cbn [fl min_size expo mem regions].
    + unfold chunks_of. cbn [fl mem]. rewrite Hu. eapply T_perm; [|exact T1]. apply Permutation_middle.
    + apply sorted_app. split; [exact So1|]. split; [exact So2|]. intros c d Hc1 Hd. apply So3; [exact Hc1|right; exact Hd].
    + intros c d Hc1 Hd1. apply Nm; apply in_app_or in Hc1, Hd1; apply in_or_app; [destruct Hc1; [left|right; right]|destruct Hd1; [left|right; right]]; assumption.
    + apply Hlive. exact Hfit.
    + apply (i_min _ _ _ I).
Qed.

Lemma find_fit_spec l size al pre c post : find_fit l size al = Some (pre, c, post) ->
  l = pre ++ c :: post /\ size + 8 <= ext (snd c) /\ (al = 0 \/ fst c mod al = 0).
Proof.
  revert pre c post. induction l as [|[a v] l IH]; intros pre c post H; cbn [find_fit] in H; [discriminate|].
  destruct ((ext v - 8 <? size) || is_unaligned a al) eqn:E.
  - destruct (find_fit l size al) as [[[p d] q]|] eqn:Ef; [|discriminate]. injection H as <- <- <-. destruct (IH p d q eq_refl) as [-> X]. auto.
  - injection H as <- <- <-. apply orb_false_iff in E. destruct E as [E1 E2]. apply Z.ltb_ge in E1. cbn [fst snd app]. split; [reflexivity|]. split; [lia|].
    unfold is_unaligned in E2. destruct (Z.eqb_spec al 0); [left; assumption|right]. apply negb_false_iff, Z.eqb_eq in E2. exact E2.
Qed.

(** Inserting a fresh region keeps the list of unused chunks free of mergeable neighbours. *)
Lemma T_cross R C c b n : Tiling R C -> In c C -> marked (snd c) = false -> (forall b' m, In (b', m) R -> b + n <= b' \/ b' + m <= b) -> 0 < n -> fst c <> b + n.
Proof.
  intros T Hc Mc Hd Hn E. destruct (t_in _ _ T c Hc) as [b' [m [I1 [I2 [I3 I4]]]]]. pose proof (t_shape _ _ T c Hc) as [_ [_ [_ S]]].
  destruct (Z.eq_dec (fst c) b') as [X|X]; [apply I4 in X; congruence|]. unfold cend in I3. destruct (Hd b' m I1); lia.
Qed.
Lemma fresh_inv PG s live a n pre post : Inv PG s live -> a mod 8 = 0 -> n mod 8 = 0 -> 16 <= n -> 0 < a -> a + n <= BIT ->
  (forall b m, In (b, m) (regions s) -> a + n <= b \/ b + m <= a) -> insert_pos (fl s) a = (pre, post) ->
  Inv PG (mkL (pre ++ (a, n + BIT) :: post) (min_size s) (expo s) (mem s) ((a, n) :: regions s)) live.
Proof.
  intros I Ha Hn Hn16 Hp Hb Hd Hi. pose proof (i_tile _ _ _ I) as T. pose proof (T_fresh _ _ a n T Ha Hn Hn16 Hp Hb Hd) as T'.
  pose proof (insert_pos_app (fl s) a) as Ha'. rewrite Hi in Ha'.
  assert (E1 : ext (n + BIT) = n) by (apply ext_mark; lia).
  assert (InC : forall c, In c (fl s) -> In c (chunks_of s live)) by (intros c Hc; apply in_or_app; left; exact Hc).
  pose proof (insert_pos_spec (fl s) a (n + BIT) (i_sorted _ _ _ I) (fun c Hc => t_shape _ _ T c (InC c Hc))) as Sp. rewrite Hi in Sp.
  destruct Sp as [Sp1 Sp2].
  { intros c Hc. pose proof (t_dis _ _ T') as D. inversion D as [|? ? D1 D2 Z1]. rewrite Forall_forall in D1. apply dis_sym. apply D1. apply InC. exact Hc. }
  { rewrite E1. exact Hn16. }
  pose proof (i_sorted _ _ _ I) as So. rewrite Ha' in So. apply sorted_app in So. destruct So as [So1 [So2 So3]].
  constructor; cbn [fl min_size expo mem regions].
  - unfold chunks_of. cbn [fl mem]. eapply T_perm; [|exact T']. unfold chunks_of. rewrite Ha', <- !app_assoc. cbn [app]. apply Permutation_middle.
  - apply sorted_app. split; [exact So1|]. split; [apply sorted_cons; split; [exact So2|exact Sp2]|]. intros c d Hc [<-|Hd1]; [apply Sp1; exact Hc|apply So3; assumption].
  - intros c d Hc Hd1 Md.
    assert (InF : forall x, In x (pre ++ (a, n + BIT) :: post) -> x = (a, n + BIT) \/ In x (fl s)).
    { intros x Hx. apply in_app_or in Hx. destruct Hx as [Hx|[<-|Hx]]; [right|left; reflexivity|right]; rewrite Ha'; apply in_or_app; auto. }
    destruct (InF d Hd1) as [->|Hd2]; [cbn [snd] in Md; rewrite marked_big in Md by lia; discriminate|].
    destruct (InF c Hc) as [->|Hc2]; [|apply (i_nomerge _ _ _ I); assumption].
    unfold cend. cbn [fst snd]. rewrite E1. intros E. symmetry in E. revert E. apply (T_cross _ _ d a n T (InC d Hd2) Md Hd). lia.
  - apply (i_live _ _ _ I).
  - apply (i_min _ _ _ I).
Qed.

(** ** Freeing *)
Lemma nomerge_app_s l1 l2 : sorted (l1 ++ l2) -> (forall c, In c (l1 ++ l2) -> shape c) -> nomerge l1 -> nomerge l2 ->
  (forall c d, In c l1 -> In d l2 -> marked (snd d) = false -> cend c <> fst d) -> nomerge (l1 ++ l2).
Proof.
  intros So Sh N1 N2 Hx c d Hc Hd Md. apply sorted_app in So. destruct So as [_ [_ So]].
  pose proof (Sh c Hc) as [_ [_ [_ Sc]]]. pose proof (Sh d Hd) as [_ [_ [_ Sd]]].
  apply in_app_or in Hc, Hd. destruct Hc as [Hc|Hc], Hd as [Hd|Hd]; auto.
  specialize (So d c Hd Hc). unfold before, cend in *. lia.
Qed.
Lemma ext_add R a v b w C : Tiling R ((a, v) :: (b, w) :: C) -> a + ext v = b -> ext (v + ext w) = ext v + ext w /\ marked (v + ext w) = marked v.
Proof.
  intros T E. pose proof (t_shape _ _ T (a, v) (or_introl eq_refl)) as [S1 _]. cbn [fst snd] in S1.
  destruct (t_in _ _ T (a, v) (or_introl eq_refl)) as [b1 [n1 [I1 [I2 _]]]]. destruct (t_in _ _ T (b, w) (or_intror (or_introl eq_refl))) as [b2 [n2 [J1 [_ [J2 _]]]]].
  destruct (t_reg _ _ T _ _ I1) as [_ [I3 _]]. destruct (t_reg _ _ T _ _ J1) as [_ [_ J3]]. unfold cend in J2. cbn [fst snd] in *.
  pose proof (ext_bounds v) as Bv. pose proof (ext_bounds w) as Bw. pose proof (decode v S1) as Ev.
  assert (L : ext v + ext w < BIT) by lia.
  destruct (marked v) eqn:M.
  - replace (v + ext w) with ((ext v + ext w) + BIT) by lia. rewrite ext_mark, marked_big by lia. auto.
  - replace (v + ext w) with (ext v + ext w) by lia. rewrite ext_small, marked_small by lia. auto.
Qed.
Lemma coalesce_spec R c post K c' rest : Tiling R (c :: post ++ K) -> sorted (c :: post) -> nomerge post -> coalesce c post = (c', rest) ->
  Tiling R (c' :: rest ++ K) /\ fst c' = fst c /\ marked (snd c') = marked (snd c) /\ sorted (c' :: rest) /\ nomerge rest /\
  (forall d, In d rest -> marked (snd d) = false -> cend c' <> fst d).
Proof.
  intros T So Nm E. destruct post as [|[b w] post]; cbn [coalesce] in E.
  { injection E as <- <-. split; [exact T|]. split; [reflexivity|]. split; [reflexivity|]. split; [exact So|]. split; [exact Nm|]. intros d []. }
  apply sorted_cons in So. destruct So as [So Sb]. pose proof So as So0. apply sorted_cons in So. destruct So as [So Sc].
  pose proof (t_shape _ _ T (b, w) (or_intror (or_introl eq_refl))) as [_ [_ [_ Sw]]]. cbn [snd] in Sw.
  assert (Far : forall d, In d post -> cend c <> fst d).
  { intros d Hd. specialize (Sc d Hd). specialize (Sb (b, w) (or_introl eq_refl)). unfold before, cend in *. cbn [fst snd] in *. lia. }
  destruct (marked w) eqn:Mw.
  { injection E as <- <-. split; [exact T|]. split; [reflexivity|]. split; [reflexivity|]. split; [apply sorted_cons; auto|]. split; [exact Nm|].
    intros d [<-|Hd] Md; [cbn [snd] in Md; congruence|apply Far; exact Hd]. }
  destruct c as [a v]. cbn [fst snd] in *. destruct (Z.eqb_spec (a + ext v) b) as [Eb|Nb]; injection E as <- <-.
  - cbn [app] in T. destruct (ext_add _ _ _ _ _ _ T Eb) as [E1 E2].
    assert (Ec : cend (a, v + ext w) = cend (b, w)) by (unfold cend; cbn [fst snd]; rewrite E1; lia).
    split; [eapply T_merge; eauto|]. split; [reflexivity|]. split; [exact E2|]. split.
    + apply sorted_cons. split; [exact So|]. intros d Hd. unfold before. rewrite Ec. apply Sc. exact Hd.
    + split; [intros x y Hx Hy; apply Nm; right; assumption|]. intros d Hd Md. rewrite Ec. apply Nm; [left; reflexivity|right; exact Hd|exact Md].
  - split; [exact T|]. split; [reflexivity|]. split; [reflexivity|]. split; [apply sorted_cons; auto|]. split; [exact Nm|].
    intros d [<-|Hd] Md; [unfold cend; cbn [fst snd]; exact Nb|apply Far; exact Hd].
Qed.
Lemma coalesce_last_app pre p c rest : coalesce_last (pre ++ [p]) c rest = pre ++ (let '(p', r) := coalesce p (c :: rest) in p' :: r).
Proof.
  induction pre as [|x pre IH]; [reflexivity|]. cbn [app]. rewrite <- IH. destruct pre; reflexivity.
Qed.
Lemma reclaim_inv R l a v U : Tiling R ((a, v) :: l ++ U) -> sorted l -> nomerge l ->
  Tiling R (reclaim l a v ++ U) /\ sorted (reclaim l a v) /\ nomerge (reclaim l a v).
Proof.
  intros T So Nm. unfold reclaim.
  pose proof (t_dis _ _ T) as D. assert (D1 : Forall (dis (a, v)) (l ++ U)) by (inversion D; assumption). rewrite Forall_forall in D1.
  pose proof (t_shape _ _ T (a, v) (or_introl eq_refl)) as [_ [_ [_ Sv]]]. cbn [snd] in Sv.
  pose proof (insert_pos_app l a) as Ha. pose proof (insert_pos_spec l a v So) as Sp. destruct (insert_pos l a) as [pre post].
  destruct Sp as [Sp1 Sp2]; auto. { intros c Hc. apply (t_shape _ _ T). right. apply in_or_app. auto. } { intros c Hc. apply dis_sym. apply D1. apply in_or_app. auto. }
  subst l. apply sorted_app in So. destruct So as [So1 [So2 So3]].
  assert (Npre : nomerge pre) by (intros x y Hx Hy; apply Nm; apply in_or_app; auto).
  assert (Npost : nomerge post) by (intros x y Hx Hy; apply Nm; apply in_or_app; auto).
  destruct (coalesce (a, v) post) as [c rest] eqn:Ec.
  assert (T1 : Tiling R ((a, v) :: post ++ pre ++ U)). { eapply T_perm; [|exact T]. constructor. rewrite (app_assoc post pre U). apply Permutation_app_tail. apply Permutation_app_comm. }
  destruct (coalesce_spec _ _ _ _ _ _ T1 ltac:(apply sorted_cons; auto) Npost Ec) as [T2 [F2 [M2 [So4 [N2 C2]]]]]. cbn [fst snd] in *.
  destruct (rev pre) as [|p rp] eqn:Er.
  - assert (pre = []) by (rewrite <- (rev_involutive pre), Er; reflexivity). subst pre. cbn [coalesce_last]. cbn [app] in T2. split; [exact T2|]. split; [exact So4|].
    apply (nomerge_app_s [c] rest); auto.
    + intros x Hx. apply (t_shape _ _ T2). cbn [app In] in Hx. destruct Hx as [<-|Hx]; [left; reflexivity|right; apply in_or_app; auto].
    + intros x y [<-|[]] [<-|[]] _. pose proof (t_shape _ _ T2 c (or_introl eq_refl)) as [_ [_ [_ S]]]. unfold cend. lia.
    + intros x y [<-|[]] Hy. apply C2. exact Hy.
  - assert (Hpre : pre = rev rp ++ [p]) by (rewrite <- (rev_involutive pre), Er; reflexivity). set (q := rev rp) in *. clearbody q. clear Er rp. subst pre.
    rewrite coalesce_last_app. destruct (coalesce p (c :: rest)) as [p' r] eqn:Ep.
    apply sorted_app in So1. destruct So1 as [Sq [_ Sqp]].
    assert (T3 : Tiling R (p :: (c :: rest) ++ q ++ U)).
    { eapply T_perm; [|exact T2]. cbn [app]. transitivity (c :: p :: rest ++ q ++ U); [|apply perm_swap]. constructor.
      rewrite <- !app_assoc. cbn [app]. rewrite (app_assoc rest q (p :: U)), (app_assoc rest q U). symmetry. apply Permutation_middle. }
    assert (Sc : sorted (p :: c :: rest)).
    { apply sorted_cons. split; [exact So4|]. apply sorted_cons in So4. destruct So4 as [_ So4].
      assert (Bpa : before p (a, v)) by (apply Sp1; apply in_or_app; right; left; reflexivity).
      pose proof (t_shape _ _ T2 c (or_introl eq_refl)) as [_ [_ [_ S]]].
      intros d [<-|Hd]; [unfold before in *; rewrite F2; exact Bpa|]. specialize (So4 d Hd). unfold before, cend in *. cbn [fst] in Bpa. lia. }
    assert (Nc : nomerge (c :: rest)).
    { apply (nomerge_app_s [c] rest); auto.
      - intros x Hx. apply (t_shape _ _ T2). cbn [app In] in Hx. destruct Hx as [<-|Hx]; [left; reflexivity|right; apply in_or_app; auto].
      - intros x y [<-|[]] [<-|[]] _. pose proof (t_shape _ _ T2 c (or_introl eq_refl)) as [_ [_ [_ S]]]. unfold cend. lia.
      - intros x y [<-|[]] Hy. apply C2. exact Hy. }
    destruct (coalesce_spec _ _ _ _ _ _ T3 Sc Nc Ep) as [T4 [F4 [M4 [So5 [N4 C4]]]]].
    assert (Shp : forall x, In x (p' :: r) -> shape x) by (intros x Hx; apply (t_shape _ _ T4); destruct Hx as [<-|Hx]; [left; reflexivity|right; apply in_or_app; auto]).
    assert (Bq : forall x y, In x q -> In y (p' :: r) -> cend x <= fst p' /\ fst p' <= fst y).
    { intros x y Hx Hy. specialize (Sqp x p Hx (or_introl eq_refl)). unfold before in Sqp. rewrite F4. split; [exact Sqp|].
      destruct Hy as [<-|Hy]; [lia|]. pose proof (proj2 (proj1 (sorted_cons _ _) So5) y Hy) as B. pose proof (Shp p' (or_introl eq_refl)) as [_ [_ [_ S]]]. unfold before, cend in B. lia. }
    assert (Sall : sorted (q ++ p' :: r)). { apply sorted_app. split; [exact Sq|]. split; [exact So5|]. intros x y Hx Hy. specialize (Bq x y Hx Hy). unfold before. lia. }
    split; [|split; [exact Sall|]].
    + eapply T_perm; [|exact T4]. rewrite <- app_assoc. cbn [app]. transitivity (p' :: q ++ r ++ U); [|apply Permutation_middle]. constructor.
      rewrite !app_assoc. apply Permutation_app_tail. apply Permutation_app_comm.
    + apply nomerge_app_s; auto.
      * intros x Hx. apply (t_shape _ _ T4). apply in_app_or in Hx. destruct Hx as [Hx|[<-|Hx]]; [right|left; reflexivity|right]; apply in_or_app; [right; apply in_or_app|]; auto.
      * intros x y Hx Hy. apply Npre; apply in_or_app; auto.
      * apply (nomerge_app_s [p'] r); auto.
        -- intros x y [<-|[]] [<-|[]] _. pose proof (Shp p' (or_introl eq_refl)) as [_ [_ [_ S]]]. unfold cend. lia.
        -- intros x y [<-|[]] Hy. apply C4. exact Hy.
      * intros x y Hx Hy My. destruct (Bq x y Hx Hy) as [B1 B2]. destruct Hy as [<-|Hy].
        -- rewrite F4. rewrite M4 in My. apply Npre; [apply in_or_app; auto|apply in_or_app; right; left; reflexivity|exact My].
        -- pose proof (proj2 (proj1 (sorted_cons _ _) So5) y Hy) as B. pose proof (Shp p' (or_introl eq_refl)) as [_ [_ [_ S]]]. unfold before, cend in *. lia.
Qed.

(** ** Every reachable state satisfies the invariant *)
Definition page_size (PG : Z) : Prop := exists k, 4 <= k /\ PG = 2 ^ k.
Lemma pow2_mod x i j : 0 <= i <= j -> x mod 2 ^ j = 0 -> x mod 2 ^ i = 0.
Proof.
  intros H E. apply Z.mod_divide in E; [|pose proof (Z.pow_pos_nonneg 2 j); lia]. apply Z.mod_divide; [pose proof (Z.pow_pos_nonneg 2 i); lia|].
  apply Z.divide_trans with (2 ^ j); [|exact E]. exists (2 ^ (j - i)). rewrite <- Z.pow_add_r by lia. f_equal. lia.
Qed.
Lemma page_mod8 PG x : page_size PG -> x mod PG = 0 -> x mod 8 = 0.
Proof. intros [k [Hk ->]] H. change 8 with (2 ^ 3). apply (pow2_mod x 3 k); [lia|exact H]. Qed.
Lemma page_pos PG : page_size PG -> 16 <= PG.
Proof. intros [k [Hk ->]]. change 16 with (2 ^ 4). apply Z.pow_le_mono_r; lia. Qed.
Lemma double_mod x p : 0 < p -> x mod p = 0 -> (2 * x) mod p = 0.
Proof. intros Hp H. apply Z.mod_divide in H; [|lia]. apply Z.mod_divide; [lia|]. apply Z.divide_mul_r. exact H. Qed.

Lemma aligned_addr_spec PG al p n : page_size PG -> (al = 0 \/ exists k, 0 <= k /\ al = 2 ^ k) -> p mod PG = 0 ->
  let a := aligned_addr PG al p in
  a mod 8 = 0 /\ (al = 0 \/ a mod al = 0) /\ p <= a /\ a + n <= p + (if Z.max al PG =? PG then n else n + Z.max al PG).
Proof.
  intros HP Hal Hp a. pose proof (page_pos PG HP) as P16. unfold a, aligned_addr. destruct (Z.eqb_spec (Z.max al PG) PG) as [E|E].
  - split; [eapply page_mod8; eauto|]. split; [|lia]. destruct Hal as [Hal|[i [Hi ->]]]; [left; exact Hal|right].
    destruct HP as [k [Hk ->]]. apply (pow2_mod p i k); [|exact Hp]. split; [exact Hi|]. apply (Z.pow_le_mono_r_iff 2); lia.
  - assert (L : PG < al) by lia. replace (Z.max al PG) with al by lia. pose proof (ceil_mult_spec p al ltac:(lia)) as [C1 C2].
    split; [|split; [right; exact C2|lia]]. destruct Hal as [Hal|[i [Hi ->]]]; [lia|].
    change 8 with (2 ^ 3). apply (pow2_mod _ 3 i); [|exact C2]. split; [lia|]. apply Z.lt_le_incl. apply (Z.pow_lt_mono_r_iff 2); [lia|lia|]. change (2 ^ 3) with 8. lia.
Qed.
Lemma fresh_size_spec PG s size : page_size PG -> 0 < size -> 0 < min_size s ->
  let n := fresh_size PG s size in n mod PG = 0 /\ n mod 8 = 0 /\ 16 <= n /\ size + 8 <= n.
Proof.
  intros HP Hs Hm n. pose proof (page_pos PG HP) as P16. unfold n, fresh_size. set (x := Z.max (size + 8) (min_size s)). pose proof (ceil_mult_spec x PG ltac:(lia)) as [C1 C2].
  split; [exact C2|]. split; [eapply page_mod8; eauto|]. split; [|lia].
  apply Z.mod_divide in C2; [|lia]. destruct C2 as [q C2]. assert (0 < q) by nia. nia.
Qed.
Lemma alloc_inv PG s live size al p s' ptr : page_size PG -> Inv PG s live -> 0 < size -> (al = 0 \/ exists k, 0 <= k /\ al = 2 ^ k) ->
  (find_fit (fl s) size al = None -> granted PG s p (mmap_len PG s size al)) -> allocate PG s size al p = (s', ptr) -> Inv PG s' ((ptr, size, al) :: live).
Proof.
  intros HP I Hs Hal Hg E. unfold allocate in E. destruct (find_fit (fl s) size al) as [[[pre [a v]] post]|] eqn:Ef.
  - destruct (find_fit_spec _ _ _ _ _ _ Ef) as [F1 [F2 F3]]. cbn [fst snd] in *.
    assert (I' : Inv PG (mkL (pre ++ (a, v) :: post) (min_size s) (expo s) (mem s) (regions s)) live) by (rewrite <- F1; destruct s; exact I).
    destruct (take_inv _ _ _ _ _ _ _ _ al _ _ I' Hs F2 F3 E) as [-> [R _]]. exact R.
  - specialize (Hg eq_refl). destruct Hg as [G1 [G2 [G3 G4]]]. pose proof (i_min _ _ _ I) as [M1 M2].
    destruct (fresh_size_spec PG s size HP Hs M1) as [N1 [N2 [N3 N4]]].
    destruct (aligned_addr_spec PG al p (fresh_size PG s size) HP Hal G2) as [A1 [A2 [A3 A4]]]. fold (mmap_len PG s size al) in A4.
    set (a := aligned_addr PG al p) in *. set (n := fresh_size PG s size) in *. clearbody a n.
    destruct (insert_pos (fl s) a) as [pre post] eqn:Ei.
    assert (I' := fresh_inv PG s live a n pre post I A1 N2 N3 ltac:(lia) ltac:(lia) ltac:(intros b m Hb; specialize (G4 b m Hb); lia) Ei).
    set (s1 := mkL (fl s) (if expo s then 2 * min_size s else min_size s) (expo s) (mem s) ((a, n) :: regions s)) in E.
    assert (I2 : Inv PG (mkL (pre ++ (a, n + BIT) :: post) (min_size s1) (expo s1) (mem s1) (regions s1)) live).
    { constructor; try apply I'. cbn [min_size s1]. destruct (expo s); [|split; assumption]. split; [lia|]. apply double_mod; [pose proof (page_pos PG HP); lia|exact M2]. }
    destruct (take_inv PG s1 live pre a (n + BIT) post size al s' ptr I2 Hs) as [-> [R _]]; auto. rewrite ext_mark by lia. exact N4.
Qed.
Lemma inv_perm PG s live live' : Permutation live live' -> Inv PG s live -> Inv PG s live'.
Proof.
  intros Hp I. constructor; try apply I.
  - eapply T_perm; [|apply (i_tile _ _ _ I)]. unfold chunks_of. apply Permutation_app_head. apply Permutation_map. exact Hp.
  - intros ptr size al Hin. apply (i_live _ _ _ I). eapply Permutation_in; [symmetry; exact Hp|exact Hin].
Qed.
Lemma free_inv PG s live ptr size al : Inv PG s ((ptr, size, al) :: live) -> Inv PG (deallocate s ptr size) live.
Proof.
  intros I. pose proof (i_tile _ _ _ I) as T. unfold chunks_of in T. cbn [map used] in T.
  assert (T1 : Tiling (regions s) ((ptr, mem s (size_addr ptr size)) :: fl s ++ map (used (mem s)) live)) by (eapply T_perm; [|exact T]; symmetry; apply Permutation_middle).
  destruct (reclaim_inv _ _ _ _ _ T1 (i_sorted _ _ _ I) (i_nomerge _ _ _ I)) as [R1 [R2 R3]].
  unfold deallocate. constructor; cbn [fl min_size expo mem regions]; auto.
  - intros p z l Hin. apply (i_live _ _ _ I). right. exact Hin.
  - apply (i_min _ _ _ I).
Qed.
Lemma header_safe PG s live p z l : Inv PG s live -> In (p, z, l) live -> ~ header_word (fl s) (size_addr p z).
Proof.
  intros I Hin [a [v [Ha Hw]]]. destruct (live_cell PG s live p z l I Hin) as [C1 [_ [_ [_ [_ [C2 C3]]]]]]. unfold size_of_header in Hw.
  pose proof (t_shape _ _ (i_tile _ _ _ I) (a, v) (in_or_app _ _ _ (or_introl Ha))) as [_ [_ [_ S]]].
  pose proof (fop_cross dis _ _ _ _ (t_dis _ _ (i_tile _ _ _ I)) Ha C1) as D. apply (dis_words _ _ (size_addr p z) D); unfold cend in *; cbn [fst snd] in *; lia.
Qed.
Lemma front_dis PG s live ptr size al : Inv PG s ((ptr, size, al) :: live) -> forall p z l, In (p, z, l) live ->
  dis (ptr, mem s (size_addr ptr size)) (p, mem s (size_addr p z)).
Proof.
  intros I p z l Hin. pose proof (t_dis _ _ (i_tile _ _ _ I)) as D. unfold chunks_of in D. cbn [map used] in D.
  apply (fop_perm dis _ ((ptr, mem s (size_addr ptr size)) :: fl s ++ map (used (mem s)) live) dis_sym) in D; [|symmetry; apply Permutation_middle].
  inversion D as [|? ? D1 D2 Z1]. rewrite Forall_forall in D1. apply D1. apply in_or_app. right. apply in_map_iff. exists (p, z, l). split; [reflexivity|exact Hin].
Qed.
Lemma front_safe PG s live ptr size al : Inv PG s ((ptr, size, al) :: live) -> forall p z l, In (p, z, l) live ->
  forall x, ptr <= x < cend (ptr, mem s (size_addr ptr size)) -> x <> size_addr p z.
Proof.
  intros I p z l Hin x Hx ->. pose proof (front_dis _ _ _ _ _ _ I p z l Hin) as D.
  destruct (live_cell PG s _ p z l I (or_intror Hin)) as [_ [_ [_ [_ [_ [C2 C3]]]]]].
  apply (dis_words _ _ (size_addr p z) D); [exact Hx|]. cbn [fst] in *. lia.
Qed.
Lemma front_header PG s live ptr size al : Inv PG s ((ptr, size, al) :: live) -> 16 <= ext (mem s (size_addr ptr size)).
Proof. intros I. destruct (live_cell PG s _ ptr size al I (or_introl eq_refl)) as [_ [_ [[_ [_ [_ S]]] _]]]. exact S. Qed.
Lemma in_split_perm {A} (x : A) l : In x l -> exists l', Permutation l (x :: l').
Proof. intros H. apply in_split in H. destruct H as [l1 [l2 ->]]. exists (l1 ++ l2). symmetry. apply Permutation_middle. Qed.

Lemma reach_inv PG s live : page_size PG -> lreach PG s live -> Inv PG s live.
Proof.
  intros HP H. pose proof (page_pos PG HP) as P16. induction H as
    [m Hm Hmod e f|m p Hm Hmod e f Hg|s live size al p s' ptr f H IH Hs Hal Hg E Hf Hcell|s l1 ptr size al l2 s' f H IH E Hf|s live ptr size al f H IH Hin Hf].
  - constructor; cbn [fl min_size expo mem regions]; auto.
    + constructor; cbn; try (intros; contradiction); constructor.
    + constructor.
    + intros c d [].
    + intros ? ? ? [].
  - set (s0 := mkL [] m e f []) in *. destruct (fresh_size_spec PG s0 1 HP ltac:(lia) Hm) as [N1 [N2 [N3 N4]]]. set (n := fresh_size PG s0 1) in *. clearbody n.
    destruct Hg as [G1 [G2 [G3 _]]].
    assert (I0 : Inv PG s0 []).
    { constructor; cbn [fl min_size expo mem regions s0]; auto.
      + constructor; cbn; try (intros; contradiction); constructor.
      + constructor.
      + intros c d [].
      + intros ? ? ? []. }
    pose proof (fresh_inv PG s0 [] p n [] [] I0 (page_mod8 _ _ HP G2) N2 N3 G1 ltac:(lia) ltac:(intros b k []) eq_refl) as I1. cbn [app expo mem regions s0] in I1.
    constructor; try apply I1. cbn [min_size]. destruct e; [|split; assumption]. split; [lia|]. apply double_mod; [lia|exact Hmod].
  - pose proof (alloc_inv PG s live size al p s' ptr HP IH (proj1 Hs) Hal Hg E) as I. apply inv_mem; [exact I|].
    intros q z l [Eq|Hin]; [injection Eq as -> -> ->; apply Hcell; reflexivity|].
    destruct (Hf (size_addr q z)) as [X|[X|[X|X]]]; [exact X| | |]; exfalso.
    + exact (header_safe _ _ _ _ _ _ IH Hin X).
    + exact (header_safe _ _ _ _ _ _ I (or_intror Hin) X).
    + apply (front_safe _ _ _ _ _ _ I q z l Hin (size_addr q z)); [|reflexivity]. pose proof (front_header _ _ _ _ _ _ I). unfold cend, size_of_header in *. cbn [fst snd]. lia.
  - assert (I0 : Inv PG s ((ptr, size, al) :: l1 ++ l2)) by (eapply inv_perm; [|exact IH]; symmetry; apply Permutation_middle).
    pose proof (free_inv _ _ _ _ _ _ I0) as I. rewrite E in I. apply inv_mem; [exact I|].
    intros q z l Hin. destruct (Hf (size_addr q z)) as [X|[X|[X|X]]]; [exact X| | |]; exfalso.
    + exact (header_safe _ _ _ _ _ _ I0 (or_intror Hin) X).
    + exact (header_safe _ _ _ _ _ _ I Hin X).
    + apply (front_safe _ _ _ _ _ _ I0 q z l Hin (size_addr q z)); [|reflexivity]. pose proof (front_header _ _ _ _ _ _ I0). unfold cend, size_of_header in *. cbn [fst snd]. lia.
  - apply inv_mem; [exact IH|]. intros q z l Hq. destruct (Hf (size_addr q z)) as [X|[X1 [X2 X3]]]; [exact X|exfalso].
    destruct (in_split_perm _ _ Hin) as [live' P]. pose proof (inv_perm _ _ _ _ P IH) as I.
    destruct (live_cell PG s live ptr size al IH Hin) as [_ [_ [S [C1 [C2 [_ C3]]]]]].
    apply (Permutation_in _ P) in Hq. destruct Hq as [Eq|Hq]; [injection Eq as <- <- <-; lia|].
    destruct S as [_ [S2 _]]. cbn [fst] in S2. assert (Lx : ptr <= size_addr q z) by (clear - X1 X2 S2; m8; lia).
    apply (front_safe _ _ _ _ _ _ I q z l Hq (size_addr q z)); [|reflexivity]. lia.
Qed.

(** ** The claims *)
Lemma fop_map_inv {A B} (f : A -> B) (R : B -> B -> Prop) l : ForallOrdPairs R (map f l) -> ForallOrdPairs (fun x y => R (f x) (f y)) l.
Proof. induction l as [|x l IH]; intros H; [constructor|]. inversion H; subst. constructor; [apply Forall_map; assumption|auto]. Qed.
Lemma fop_app_r {A} (R : A -> A -> Prop) l1 l2 : ForallOrdPairs R (l1 ++ l2) -> ForallOrdPairs R l2.
Proof. induction l1 as [|x l1 IH]; intros H; [exact H|]. inversion H; subst. auto. Qed.
Lemma fop_impl_in {A} (R Q : A -> A -> Prop) l : (forall x y, In x l -> In y l -> R x y -> Q x y) -> ForallOrdPairs R l -> ForallOrdPairs Q l.
Proof.
  induction l as [|x l IH]; intros Hi H; [constructor|]. inversion H; subst. constructor.
  - rewrite Forall_forall in *. intros y Hy. apply Hi; [left; reflexivity|right; exact Hy|auto].
  - apply IH; [|assumption]. intros a b Ha Hb. apply Hi; right; assumption.
Qed.

(** Address ranges [\[a, a+n)] that share no byte *)
Definition apart (a n b m : Z) : Prop := a + n <= b \/ b + m <= a.

(** Blocks in use share no byte, lie in memory obtained from the system, and have the requested alignment. *)
Theorem C23_live_disjoint PG s live : page_size PG -> lreach PG s live ->
  ForallOrdPairs (fun x y => let '(p, n, _) := x in let '(q, m, _) := y in apart p n q m) live /\
  (forall ptr size al, In (ptr, size, al) live -> (exists b n, In (b, n) (regions s) /\ b <= ptr /\ ptr + size <= b + n) /\ (al = 0 \/ ptr mod al = 0)).
Proof.
  intros HP H. pose proof (reach_inv PG s live HP H) as I. split.
  - pose proof (fop_map_inv _ _ _ (fop_app_r _ _ _ (t_dis _ _ (i_tile _ _ _ I)))) as D. revert D. apply fop_impl_in.
    intros [[p n] k] [[q m] j] Hx Hy D. cbn [used] in D. unfold apart.
    destruct (live_cell PG s live p n k I Hx) as [_ [_ [_ [_ [A1 [_ A2]]]]]]. destruct (live_cell PG s live q m j I Hy) as [_ [_ [_ [_ [B1 [_ B2]]]]]].
    destruct D as [D|D]; unfold before in D; cbn [fst] in D; [left|right]; lia.
  - intros ptr size al Hin. destruct (live_cell PG s live ptr size al I Hin) as [_ [C [_ [_ [A1 [_ A2]]]]]].
    destruct (t_in _ _ (i_tile _ _ _ I) _ C) as [b [n [J1 [J2 [J3 _]]]]]. cbn [fst] in J2. split; [exists b, n; split; [exact J1|split; [exact J2|lia]]|].
    apply (i_live _ _ _ I ptr size al Hin).
Qed.
(** The allocator's own words never overlap the bytes of a block in use: neither the list node of an unused chunk, nor the size cell
    kept behind a block. *)
Theorem C23_bookkeeping_apart PG s live : page_size PG -> lreach PG s live -> forall ptr size al, In (ptr, size, al) live ->
  (forall a v, In (a, v) (fl s) -> apart a size_of_header ptr size) /\
  (forall q m j, In (q, m, j) live -> apart (size_addr q m) 8 ptr size).
Proof.
  intros HP H ptr size al Hin. pose proof (reach_inv PG s live HP H) as I. destruct (live_cell PG s live ptr size al I Hin) as [C0 [C [_ [_ [A1 [_ A2]]]]]]. split.
  - intros a v Ha. pose proof (fop_cross dis _ _ _ _ (t_dis _ _ (i_tile _ _ _ I)) Ha C0) as D. pose proof (t_shape _ _ (i_tile _ _ _ I) (a, v) (in_or_app _ _ _ (or_introl Ha))) as [_ [_ [_ S]]].
    unfold apart, size_of_header, dis, before in *. unfold cend at 1 in D. cbn [fst snd] in *. lia.
  - intros q m j Hq. unfold apart. destruct (live_cell PG s live q m j I Hq) as [_ [_ [_ [_ [B1 [B2 B3]]]]]].
    destruct (in_split_perm _ _ Hin) as [live' P]. pose proof (inv_perm _ _ _ _ P I) as I'. apply (Permutation_in _ P) in Hq. destruct Hq as [E|Hq]; [injection E as <- <- <-; lia|].
    pose proof (front_dis _ _ _ _ _ _ I' q m j Hq) as D. unfold dis, before in D. cbn [fst] in D. lia.
Qed.
(** When no block is in use, every region obtained from the system is one unused chunk again, and the destructor returns exactly the
    regions obtained. *)
Theorem C23_all_freed PG s : page_size PG -> lreach PG s [] ->
  length (fl s) = length (regions s) /\ Permutation (unmapped s) (regions s).
Proof.
  intros HP H. pose proof (reach_inv PG s [] HP H) as I. pose proof (i_tile _ _ _ I) as T. unfold chunks_of in T. cbn [map] in T. rewrite app_nil_r in T.
  pose proof (i_nomerge _ _ _ I) as Nm.
  assert (Uniq : forall b n b' n' x, In (b, n) (regions s) -> In (b', n') (regions s) -> b <= x < b + n -> b' <= x < b' + n' -> (b, n) = (b', n')).
  { intros b n b' n' x H1 H2 X1 X2. destruct (fop_in rdis _ _ _ ltac:(unfold rdis; tauto) (t_rdis _ _ T) H1 H2) as [E|X]; [exact E|]. unfold rdis in X. cbn [fst snd] in X. lia. }
  assert (Full : forall b n v, In (b, n) (regions s) -> In (b, v) (fl s) -> v = n + BIT).
  { intros b n v Hr Hc. destruct (t_reg _ _ T b n Hr) as [R1 [R2 R3]]. pose proof (t_shape _ _ T _ Hc) as [S1 [_ [_ S4]]].
    destruct (t_in _ _ T _ Hc) as [b1 [n1 [J1 [J2 [J3 J4]]]]]. unfold cend in J3. cbn [fst snd] in *.
    assert (E := Uniq b n b1 n1 b Hr J1 ltac:(lia) ltac:(lia)). injection E as <- <-. assert (M : marked v = true) by (apply J4; reflexivity).
    destruct (t_next _ _ T _ Hc) as [[b2 [n2 [K1 [K2 K3]]]]|[w [K1 K2]]].
    - cbn [fst] in K2. assert (E := Uniq b n b2 n2 b Hr K1 ltac:(lia) ltac:(lia)). injection E as <- <-. unfold cend in K3. cbn [fst snd] in K3.
      pose proof (decode v S1) as Dv. rewrite M in Dv. lia.
    - exfalso. exact (Nm _ _ Hc K1 K2 eq_refl). }
  assert (Nd : NoDup (regions s)).
  { pose proof (t_rdis _ _ T) as D. pose proof (t_reg _ _ T) as Rg. clear - D Rg. induction D as [|r l D1 D IH]; [constructor|]. constructor; [|apply IH; intros b n Hb; apply Rg; right; exact Hb].
    intros Hin. rewrite Forall_forall in D1. specialize (D1 r Hin). destruct r as [b n]. destruct (Rg b n (or_introl eq_refl)). unfold rdis in D1. cbn [fst snd] in D1. lia. }
  assert (Nf : NoDup (fl s)).
  { pose proof (i_sorted _ _ _ I) as So. pose proof (t_shape _ _ T) as Sh. clear - So Sh. induction So as [|r l So IH D1]; [constructor|]. constructor; [|apply IH; intros c Hc; apply Sh; right; exact Hc].
    intros Hin. rewrite Forall_forall in D1. specialize (D1 r Hin). destruct (Sh r (or_introl eq_refl)) as [_ [_ [_ S]]]. unfold before, cend in D1. lia. }
  assert (P : Permutation (fl s) (map (fun r => (fst r, snd r + BIT)) (regions s))).
  { apply NoDup_Permutation; [exact Nf| |].
    - apply FinFun.Injective_map_NoDup; [|exact Nd]. intros [x y] [x' y'] E. cbn [fst snd] in E. injection E as -> E. f_equal. lia.
    - intros [a v]. split.
      + intros Hc. destruct (marked v) eqn:M.
        * destruct (t_in _ _ T _ Hc) as [b [n [J1 [_ [_ J4]]]]]. apply J4 in M. cbn [fst] in M. subst b. apply in_map_iff. exists (a, n). split; [|exact J1]. cbn [fst snd]. f_equal. symmetry. apply (Full a n); assumption.
        * destruct (t_prev _ _ T _ _ Hc M) as [c [Hc1 Hc2]]. exfalso. exact (Nm _ _ Hc1 Hc M Hc2).
      + intros Hm. apply in_map_iff in Hm. destruct Hm as [[b n] [E Hr]]. cbn [fst snd] in E. injection E as <- <-. destruct (t_start _ _ T b n Hr) as [w Hw]. rewrite <- (Full b n w Hr Hw). exact Hw. }
  split; [rewrite (Permutation_length P); apply map_length|]. unfold unmapped.
  assert (Ef : filter (fun c => marked (snd c)) (fl s) = fl s).
  { clear - P T. assert (A : forall c, In c (fl s) -> marked (snd c) = true).
    { intros c Hc. apply (Permutation_in _ P) in Hc. apply in_map_iff in Hc. destruct Hc as [[b n] [<- Hr]]. cbn [snd]. apply marked_big. destruct (t_reg _ _ T b n Hr). lia. }
    induction (fl s) as [|x l IH]; [reflexivity|]. cbn [filter]. rewrite (A x (or_introl eq_refl)). f_equal. clear IH P T. induction l as [|y l IH]; [reflexivity|]. cbn [filter]. rewrite (A y) by (right; left; reflexivity). f_equal. apply IH. intros c [<-|Hc]; apply A; [left; reflexivity|right; right; exact Hc]. }
  rewrite Ef. apply (Permutation_trans (Permutation_map _ P)). rewrite map_map. cbn [fst snd].
  replace (map (fun x : Z * Z => (fst x, ext (snd x + BIT))) (regions s)) with (regions s); [reflexivity|].
  rewrite <- (map_id (regions s)) at 1. apply map_ext_in. intros [b n] Hr. cbn [fst snd]. destruct (t_reg _ _ T b n Hr). rewrite ext_mark by lia. reflexivity.
Qed.

Lemma find_fit_some l size al a v : In (a, v) l -> size + 8 <= ext v -> (al = 0 \/ a mod al = 0) -> find_fit l size al <> None.
Proof.
  intros Hin Hs Ha. induction l as [|[b w] l IH]; [destruct Hin|]. cbn [find_fit]. destruct Hin as [E|Hin].
  - injection E as -> ->. replace (ext v - 8 <? size) with false by (symmetry; apply Z.ltb_ge; lia).
    replace (is_unaligned a al) with false; [cbn; discriminate|]. unfold is_unaligned. destruct (Z.eqb_spec al 0); [reflexivity|].
    destruct Ha as [|Ha]; [contradiction|]. rewrite Ha. reflexivity.
  - destruct ((ext w - 8 <? size) || is_unaligned b al); [|discriminate]. specialize (IH Hin). destruct (find_fit l size al) as [[[? ?] ?]|]; [discriminate|contradiction].
Qed.
Lemma take_regions s pre c post size : regions (fst (take s pre c post size)) = regions s /\ min_size (fst (take s pre c post size)) = min_size s.
Proof. unfold take. destruct c as [a v]. destruct ((size_of_header + size + 8 <=? ext v) && (size * 2 <=? ext v - 8)); cbn; auto. Qed.
(** Released memory is used again: if no block is in use, a request that fits a region obtained earlier (with the eight bytes of the
    size cell) does not go to the system. *)
Theorem C23_reuse PG s b n size al p : page_size PG -> lreach PG s [] -> In (b, n) (regions s) -> size + 8 <= n -> (al = 0 \/ b mod al = 0) ->
  regions (fst (allocate PG s size al p)) = regions s.
Proof.
  intros HP H Hr Hs Ha. destruct (C23_all_freed PG s HP H) as [_ P]. apply (Permutation_in _ (Permutation_sym P)) in Hr.
  unfold unmapped in Hr. apply in_map_iff in Hr. destruct Hr as [[a v] [E Hr]]. cbn [fst snd] in E. injection E as -> <-. apply filter_In in Hr. destruct Hr as [Hr _].
  pose proof (find_fit_some (fl s) size al b v Hr Hs Ha) as F. unfold allocate. destruct (find_fit (fl s) size al) as [[[pre c] post]|]; [|contradiction].
  apply take_regions.
Qed.
(** A request goes to the system at most once; what is obtained holds the request and at least the current minimal size, in whole pages;
    the minimal size doubles under the exponential strategy and stays otherwise. *)
Theorem C23_growth PG s live size al p : page_size PG -> lreach PG s live -> 0 < size ->
  let s' := fst (allocate PG s size al p) in
  (regions s' = regions s /\ min_size s' = min_size s) \/
  exists b n, regions s' = (b, n) :: regions s /\ size + 8 <= n /\ min_size s <= n /\ n mod PG = 0 /\ min_size s' = (if expo s then 2 * min_size s else min_size s).
Proof.
  intros HP H Hs. cbn zeta. unfold allocate. destruct (find_fit (fl s) size al) as [[[pre c] post]|].
  - left. apply take_regions.
  - right. destruct (insert_pos (fl s) (aligned_addr PG al p)) as [pre post].
    match goal with |- context [take ?x ?y ?z ?w size] => destruct (take_regions x y z w size) as [E1 E2]; rewrite E1, E2 end. cbn [regions min_size].
    exists (aligned_addr PG al p), (fresh_size PG s size). split; [reflexivity|]. unfold fresh_size.
    destruct (ceil_mult_spec (Z.max (size + 8) (min_size s)) PG) as [A B].
    { destruct HP. lia. }
    split; [lia|]. split; [lia|]. split; [exact B|reflexivity].
Qed.

Lemma step_alloc PG s live size al p : lreach PG s live -> 0 < size < BIT -> (al = 0 \/ exists k, 0 <= k /\ al = 2 ^ k) ->
  (find_fit (fl s) size al = None -> granted PG s p (mmap_len PG s size al)) ->
  lreach PG (fst (allocate PG s size al p)) ((snd (allocate PG s size al p), size, al) :: live).
Proof.
  intros H H1 H2 H3. destruct (allocate PG s size al p) as [s' ptr] eqn:E. cbn [fst snd].
  replace s' with (mkL (fl s') (min_size s') (expo s') (mem s') (regions s')) by (destruct s'; reflexivity).
  eapply l_alloc; eauto.
Qed.
Lemma step_free PG s l1 ptr size al l2 : lreach PG s (l1 ++ (ptr, size, al) :: l2) -> lreach PG (deallocate s ptr size) (l1 ++ l2).
Proof.
  intros H. replace (deallocate s ptr size) with (let s' := deallocate s ptr size in mkL (fl s') (min_size s') (expo s') (mem s') (regions s')) by reflexivity.
  cbn zeta. eapply l_free; eauto.
Qed.
(** A run: two allocations from one page (the first splits the page), then both are freed in the "wrong" order. *)
Example C23_example : exists s1 s2,
  lreach 4096 s1 [(4208, 200, 8); (4096, 100, 16)] /\ fl s1 = (4416, 3776) :: nil /\ lreach 4096 s2 [] /\ fl s2 = (4096, 4096 + BIT) :: nil /\ unmapped s2 = [(4096, 4096)].
Proof.
  set (s0 := mkL [] 4096 false (fun _ => 0) []).
  assert (H0 : lreach 4096 s0 []) by (apply l_init; reflexivity).
  assert (H1 := step_alloc 4096 s0 [] 100 16 4096 H0 ltac:(split; reflexivity) ltac:(right; exists 4; split; [discriminate|reflexivity])
    ltac:(intros _; split; [reflexivity|split; [reflexivity|split; [vm_compute; discriminate|intros b n []]]])).
  replace (snd (allocate 4096 s0 100 16 4096)) with 4096 in H1 by (vm_compute; reflexivity).
  set (s1 := fst (allocate 4096 s0 100 16 4096)) in H1.
  assert (H2 := step_alloc 4096 s1 _ 200 8 0 H1 ltac:(split; reflexivity) ltac:(right; exists 3; split; [discriminate|reflexivity])
    ltac:(intros E; vm_compute in E; discriminate)).
  replace (snd (allocate 4096 s1 200 8 0)) with 4208 in H2 by (vm_compute; reflexivity).
  set (s2 := fst (allocate 4096 s1 200 8 0)) in H2.
  assert (H3 := step_free 4096 s2 [(4208, 200, 8)] 4096 100 16 [] H2). cbn [app] in H3.
  assert (H4 := step_free 4096 _ [] 4208 200 8 [] H3). cbn [app] in H4.
  exists s2, (deallocate (deallocate s2 4096 100) 4208 200). split; [exact H2|]. split; [vm_compute; reflexivity|]. split; [exact H4|].
  split; vm_compute; reflexivity.
Qed.
