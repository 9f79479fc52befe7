(** * The generator walks through all cuts of the tree *)
From Coq Require Import NArith List Bool Permutation Lia Arith.
From Verif Require Import ArithProps PartialPlan PartialPlanSpec.
Local Open Scope nat_scope.
Import ListNotations.

Inductive tree := Leaf (i : N) | Node (l r : tree).
Fixpoint root (t : tree) : N := match t with Leaf i => (2 ^ i)%N | Node l r => N.lor (root l) (root r) end.
Fixpoint wf (t : tree) : Prop := match t with Leaf _ => True | Node l r => N.land (root l) (root r) = 0%N /\ wf l /\ wf r end.
Fixpoint of_PT (PT : N -> N * N) (t : tree) : Prop := match t with Leaf _ => True | Node l r => PT (root t) = (root l, root r) /\ of_PT PT l /\ of_PT PT r end.
(** The cuts, in the order in which they are found: the right part first. *)
Fixpoint cuts (t : tree) : list (list N) :=
  [root t] :: match t with Leaf _ => [] | Node l r => flat_map (fun cr => map (fun cl => cr ++ cl) (cuts l)) (cuts r) end.
Fixpoint cuts_list (ts : list tree) : list (list N) :=
  match ts with [] => [[]] | t :: ts => flat_map (fun c => map (fun c' => c ++ c') (cuts_list ts)) (cuts t) end.
Fixpoint size (t : tree) : nat := match t with Leaf _ => 1 | Node l r => S (size l + size r) end.

Lemma NoDup_app : forall {A} (a b : list A), NoDup a -> NoDup b -> (forall x, In x a -> ~ In x b) -> NoDup (a ++ b).
Proof.
  intros A a b Na Nb D. induction Na as [|x a NI Na IH]; cbn; [auto|]. constructor.
  - intros I. apply in_app_or in I. destruct I as [I|I]; [auto|]. exact (D x (or_introl eq_refl) I).
  - apply IH. intros y I. apply D. now right.
Qed.
Lemma plan_tree : forall PT s, plan PT s -> exists t, wf t /\ of_PT PT t /\ root t = s.
Proof.
  intros PT s. induction 1 as [i|s l r E U D _ IHl _ IHr].
  - exists (Leaf i). cbn. auto.
  - destruct IHl as (tl & Wl & Pl & <-), IHr as (tr & Wr & Pr & <-). exists (Node tl tr). cbn. subst s. auto.
Qed.
Lemma root_nonzero : forall t, root t <> 0%N.
Proof. induction t; cbn; [apply N.pow_nonzero; lia|]. intros E. apply N.lor_eq_0_iff in E. tauto. Qed.
Lemma testbit_ex : forall s, s <> 0%N -> exists i, N.testbit s i = true.
Proof. intros s N. exists (N.log2 s). now apply N.bit_log2. Qed.
Lemma land_zero : forall a b, N.land a b = 0%N <-> forall i, N.testbit a i = true -> N.testbit b i = false.
Proof.
  intros a b. split.
  - intros E i A. pose proof (N.land_spec a b i) as L. rewrite E, N.bits_0, A in L. now symmetry.
  - intros H. apply N.bits_inj. intros i. rewrite N.land_spec, N.bits_0. destruct (N.testbit a i) eqn:A; [now rewrite (H i A)|auto].
Qed.
Lemma singleton_leaf : forall i, is_singleton (2 ^ i)%N = true.
Proof.
  intros i. assert (N : (2 ^ i <> 0)%N) by (apply N.pow_nonzero; lia). unfold is_singleton. apply andb_true_iff. split.
  - apply negb_true_iff. now apply N.eqb_neq.
  - apply N.eqb_eq. apply (land_pred_pow2 _ N). now exists i.
Qed.
Lemma node_not_pow : forall l r i, wf (Node l r) -> root (Node l r) <> (2 ^ i)%N.
Proof.
  intros l r i (D & _ & _) E. cbn [root] in E. destruct (testbit_ex _ (root_nonzero l)) as (a & A). destruct (testbit_ex _ (root_nonzero r)) as (b & B).
  assert (Ea : N.testbit (2 ^ i)%N a = true) by (rewrite <- E, N.lor_spec, A; auto). assert (Eb : N.testbit (2 ^ i)%N b = true) by (rewrite <- E, N.lor_spec, B; apply orb_true_r).
  rewrite N.pow2_bits_eqb in Ea, Eb. apply N.eqb_eq in Ea, Eb. subst. rewrite land_zero in D. rewrite (D _ A) in B. discriminate.
Qed.
Lemma singleton_node : forall l r, wf (Node l r) -> is_singleton (root (Node l r)) = false.
Proof.
  intros l r W. unfold is_singleton. destruct (N.land _ _ =? 0)%N eqn:E; [|apply andb_false_r]. apply N.eqb_eq in E. apply (land_pred_pow2 _ (root_nonzero _)) in E.
  destruct E as (i & E). exfalso. exact (node_not_pow l r i W E).
Qed.

(** ** The run *)
Inductive steps (PT : N -> N * N) : state -> state -> Prop :=
  | steps_refl s : steps PT s s
  | steps_step s s' s'' : step PT s = Next s' -> steps PT s' s'' -> steps PT s s''.
Lemma steps_trans : forall PT s s' s'', steps PT s s' -> steps PT s' s'' -> steps PT s s''.
Proof. induction 1; auto. intros H'. econstructor; eauto. Qed.
Lemma steps_eq : forall PT s s', s = s' -> steps PT s s'.
Proof. intros PT s s' ->. constructor. Qed.
Lemma cuts_list_cons2 : forall l r ts, cuts_list (r :: l :: ts) = flat_map (fun c => map (fun c' => c ++ c') (cuts_list ts)) (flat_map (fun cr => map (fun cl => cr ++ cl) (cuts l)) (cuts r)).
Proof.
  intros l r ts. cbn [cuts_list]. generalize (cuts_list ts) as X. intros X. generalize (cuts r) as R, (cuts l) as L. clear. induction R as [|c R IH]; intros L; cbn [flat_map]; [auto|].
  rewrite flat_map_app, IH. f_equal. clear. induction L as [|d L IH]; cbn [flat_map map]; [auto|]. rewrite map_app, IH, map_map. f_equal. apply map_ext. intros x. apply app_assoc.
Qed.
Lemma run_forest : forall PT n ts, list_sum (map size ts) <= n -> Forall wf ts -> Forall (of_PT PT) ts -> forall pp ds cs,
  steps PT (mkState Loop pp (map root ts) ds cs) (mkState Unwind pp (map root ts) ds (cs ++ map (fun c => rev pp ++ c) (cuts_list ts))).
Proof.
  intros PT. induction n as [|n IH]; intros ts Sz W O pp ds cs.
  - destruct ts as [|[i|l r] ts]; [|cbn in Sz; lia..]. cbn. eapply steps_step; [reflexivity|]. rewrite app_nil_r. constructor.
  - destruct ts as [|t ts]; [cbn; eapply steps_step; [reflexivity|]; rewrite app_nil_r; constructor|]. inversion W as [|? ? Wt Wts]; subst. inversion O as [|? ? Ot Ots]; subst.
    cbn [map]. eapply steps_step; [reflexivity|]. cbn [map list_sum fold_right] in Sz. fold (list_sum (map size ts)) in Sz.
    assert (Sz' : list_sum (map size ts) <= n) by (destruct t; cbn [size] in Sz; lia).
    eapply steps_trans; [exact (IH ts Sz' Wts Ots (root t :: pp) (true :: ds) cs)|]. destruct t as [i|l r].
    + eapply steps_step; [cbn [step root]; rewrite singleton_leaf; reflexivity|]. cbn [cuts_list cuts flat_map root rev]. rewrite app_nil_r, map_map.
      rewrite (map_ext (fun x => rev pp ++ [(2 ^ i)%N] ++ x) (fun c => (rev pp ++ [(2 ^ i)%N]) ++ c)) by (intros x; apply app_assoc). constructor.
    + eapply steps_step; [cbn [step]; rewrite (singleton_node l r Wt); reflexivity|]. cbn [wf] in Wt. cbn [of_PT] in Ot. destruct Wt as (D & Wl & Wr), Ot as (E & Ol & Or). rewrite E. cbn [fst snd].
      assert (Sz2 : list_sum (map size (r :: l :: ts)) <= n) by (cbn [map list_sum fold_right size] in *; fold (list_sum (map size ts)) in *; lia).
      eapply steps_trans; [exact (IH (r :: l :: ts) Sz2 ltac:(auto) ltac:(auto) pp (false :: ds) _)|]. cbn [map]. eapply steps_step; [reflexivity|].
      apply steps_eq.
      f_equal. rewrite <- app_assoc. f_equal. rewrite cuts_list_cons2. cbn [cuts_list cuts flat_map]. rewrite map_app, map_map. f_equal. apply map_ext. intros x. cbn [rev]. now rewrite <- app_assoc.
Qed.
Lemma steps_run : forall PT s s', steps PT s s' -> forall cs, step PT s' = Finished cs -> exists fuel, forall n, fuel <= n -> run PT n s = Some cs.
Proof.
  induction 1 as [s|s s' s'' E H IH]; intros cs F.
  - exists 1. intros [|n] L; [lia|]. cbn [run]. now rewrite F.
  - destruct (IH cs F) as (fuel & R). exists (S fuel). intros [|n] L; [lia|]. cbn [run]. rewrite E. apply R. lia.
Qed.
Lemma run_tree : forall PT t, wf t -> of_PT PT t -> exists fuel, forall n, fuel <= n -> run PT n (mkState Loop [root t] [] [true] []) = Some (cuts t).
Proof.
  intros PT t W O. pose proof (run_forest PT (list_sum (map size [t])) [t] (le_n _) (Forall_cons _ W (Forall_nil _)) (Forall_cons _ O (Forall_nil _)) [] [] []) as H.
  cbn [map] in H. destruct (steps_run _ _ _ H (cuts t)) as (fuel & R).
  - cbn [step app rev]. rewrite map_id. f_equal. cbn [cuts_list]. clear. induction (cuts t) as [|c l IH]; [auto|]. cbn [flat_map map app]. rewrite app_nil_r. f_equal. exact IH.
  - exists fuel. intros n L. specialize (R (S n) ltac:(lia)). cbn [run step] in R. exact R.
Qed.

(** ** The cuts are the complete partial plans *)
Section Cuts.
  Variable PT : N -> N * N.
  Notation subplan := (subplan PT).
  Notation cpp := (complete_partial_plan PT).
  Definition sub (a b : N) : Prop := forall i, N.testbit a i = true -> N.testbit b i = true.
  Lemma subplan_tree : forall t x, wf t -> of_PT PT t -> subplan (root t) x -> x = root t \/ match t with Leaf _ => False | Node l r => subplan (root l) x \/ subplan (root r) x end.
  Proof.
    intros t x W O H. inversion H as [|? l r ? NP E S|? l r ? NP E S]; subst; [auto| |]; (destruct t as [i|tl tr]; [exfalso; now apply (NP i)|]); destruct O as (E' & _); rewrite E in E'; injection E' as -> ->; auto.
  Qed.
  Lemma subplan_sub : forall t x, wf t -> of_PT PT t -> subplan (root t) x -> sub x (root t) /\ x <> 0%N.
  Proof.
    induction t as [i|l IHl r IHr]; intros x W O H; destruct (subplan_tree _ _ W O H) as [->|H']; try (split; [intros j J; exact J|apply root_nonzero]); [destruct H'|].
    destruct W as (_ & Wl & Wr), O as (_ & Ol & Or). destruct H' as [H'|H']; [destruct (IHl x Wl Ol H') as [S Z]|destruct (IHr x Wr Or H') as [S Z]]; (split; [|exact Z]); intros j J; cbn [root]; rewrite N.lor_spec, (S j J); auto using orb_true_r.
  Qed.
  Lemma subplan_l : forall l r x, wf (Node l r) -> of_PT PT (Node l r) -> subplan (root l) x -> subplan (root (Node l r)) x.
  Proof. intros l r x W (E & _) H. eapply sub_left; [|exact E|exact H]. intros i. now apply node_not_pow. Qed.
  Lemma subplan_r : forall l r x, wf (Node l r) -> of_PT PT (Node l r) -> subplan (root r) x -> subplan (root (Node l r)) x.
  Proof. intros l r x W (E & _) H. eapply sub_right; [|exact E|exact H]. intros i. now apply node_not_pow. Qed.
  Lemma disj : forall l r x y, wf (Node l r) -> of_PT PT (Node l r) -> subplan (root l) x -> subplan (root r) y -> x <> y /\ forall i, N.testbit x i = true -> N.testbit y i = false.
  Proof.
    intros l r x y (D & Wl & Wr) (_ & Ol & Or) X Y. destruct (subplan_sub l x Wl Ol X) as [Sx Zx]. destruct (subplan_sub r y Wr Or Y) as [Sy Zy]. rewrite land_zero in D.
    assert (H : forall i, N.testbit x i = true -> N.testbit y i = false).
    { intros i Xi. destruct (N.testbit y i) eqn:Yi; [|auto]. pose proof (D i (Sx i Xi)) as F. rewrite (Sy i Yi) in F. discriminate. }
    split; [|exact H]. intros ->. destruct (testbit_ex y Zy) as (i & I). rewrite (H i I) in I. discriminate.
  Qed.
  Lemma in_node_cuts : forall l r c, In c (flat_map (fun cr => map (fun cl => cr ++ cl) (cuts l)) (cuts r)) <-> exists cr cl, In cr (cuts r) /\ In cl (cuts l) /\ c = cr ++ cl.
  Proof.
    intros. rewrite in_flat_map. split.
    - intros (cr & I & J). apply in_map_iff in J. destruct J as (cl & <- & J). eauto.
    - intros (cr & cl & I & J & ->). exists cr. split; [auto|]. apply in_map_iff. eauto.
  Qed.
  Lemma cuts_sound : forall t c, wf t -> of_PT PT t -> In c (cuts t) -> cpp (root t) c.
  Proof.
    assert (One : forall t, cpp (root t) [root t]).
    { intros t. split; [repeat constructor; intros []|]. split; [intros x [<-|[]]; constructor|]. intros i I. exists (root t). split; [now left|]. split; [auto|]. now intros y [<-|[]]. }
    induction t as [i|l IHl r IHr]; intros c W O I.
    - destruct I as [<-|[]]. apply One.
    - cbn [cuts] in I. destruct I as [<-|I]; [exact (One (Node l r))|]. apply in_node_cuts in I. destruct I as (cr & cl & Ir & Il & ->). pose proof W as W'. pose proof O as O'. destruct W' as (_ & Wl & Wr), O' as (_ & Ol & Or).
      destruct (IHr cr Wr Or Ir) as (Nr & Sr & Xr), (IHl cl Wl Ol Il) as (Nl & Sl & Xl). split; [|split].
      + apply NoDup_app; auto. intros x A B. destruct (disj l r x x W O) as [N _]; auto.
      + intros x J. apply in_app_or in J. destruct J as [J|J]; [apply subplan_r; auto|apply subplan_l; auto].
      + intros i I. cbn [root] in I. rewrite N.lor_spec in I. apply orb_true_iff in I. destruct I as [I|I].
        * destruct (Xl i I) as (x & J & B & U). exists x. split; [apply in_or_app; auto|]. split; [auto|]. intros y K Y. apply in_app_or in K. destruct K as [K|K]; [|auto].
          destruct (disj l r x y W O (Sl x J) (Sr y K)) as [_ F]. rewrite (F i B) in Y. discriminate.
        * destruct (Xr i I) as (x & J & B & U). exists x. split; [apply in_or_app; auto|]. split; [auto|]. intros y K Y. apply in_app_or in K. destruct K as [K|K]; [auto|].
          destruct (disj l r y x W O (Sl y K) (Sr x J)) as [_ F]. rewrite (F i Y) in B. discriminate.
  Qed.

  Definition subb (s x : N) : bool := (N.ldiff x s =? 0)%N.
  Lemma subb_iff : forall s x, subb s x = true <-> sub x s.
  Proof.
    intros s x. unfold subb. rewrite N.eqb_eq. split.
    - intros E i X. pose proof (N.ldiff_spec x s i) as L. rewrite E, N.bits_0, X in L. cbn in L. destruct (N.testbit s i); [auto|discriminate].
    - intros S. apply N.bits_inj. intros i. rewrite N.ldiff_spec, N.bits_0. destruct (N.testbit x i) eqn:X; [now rewrite (S i X)|auto].
  Qed.
  Lemma side_l : forall l r x, wf (Node l r) -> of_PT PT (Node l r) -> subplan (root l) x -> subb (root r) x = false.
  Proof.
    intros l r x W O X. destruct (subb (root r) x) eqn:E; [|auto]. apply subb_iff in E. pose proof W as (D & Wl & _). pose proof O as (_ & Ol & _). destruct (subplan_sub l x Wl Ol X) as [S Z].
    destruct (testbit_ex x Z) as (i & I). rewrite land_zero in D. pose proof (D i (S i I)) as F. rewrite (E i I) in F. discriminate.
  Qed.
  Lemma side_r : forall l r x, wf (Node l r) -> of_PT PT (Node l r) -> subplan (root r) x -> subb (root r) x = true.
  Proof. intros l r x (_ & _ & Wr) (_ & _ & Or) X. apply subb_iff. exact (proj1 (subplan_sub r x Wr Or X)). Qed.
  Lemma filter_partition : forall (f : N -> bool) l, Permutation l (filter f l ++ filter (fun x => negb (f x)) l).
  Proof.
    induction l as [|x l IH]; cbn; [auto|]. destruct (f x); cbn; [now constructor|]. rewrite IH at 1. apply Permutation_middle.
  Qed.
  Lemma cuts_complete : forall t p, wf t -> of_PT PT t -> cpp (root t) p -> exists c, In c (cuts t) /\ Permutation p c.
  Proof.
    induction t as [i|l IHl r IHr]; intros p W O (Nd & Sp & Cv).
    - exists [root (Leaf i)]. split; [now left|]. destruct (Cv i) as (x & I & _ & U); [cbn; apply N.pow2_bits_true|].
      assert (A : forall y, In y p -> y = root (Leaf i)). { intros y J. destruct (subplan_tree _ _ W O (Sp y J)) as [E|[]]. exact E. }
      apply NoDup_Permutation; [auto|repeat constructor; intros []|]. intros y. split; [intros J; left; symmetry; auto|]. intros [<-|[]]. rewrite <- (A x I). exact I.
    - destruct (in_dec N.eq_dec (root (Node l r)) p) as [I|NI].
      + exists [root (Node l r)]. split; [now left|]. apply NoDup_Permutation; [auto|repeat constructor; intros []|]. intros y. split; [|intros [<-|[]]; auto].
        intros J. left. destruct (subplan_sub _ _ W O (Sp y J)) as [Sy Zy]. destruct (testbit_ex y Zy) as (b & B). destruct (Cv b (Sy b B)) as (x & _ & _ & U).
        rewrite (U y J B). now apply U; [|apply Sy].
      + assert (Sd : forall x, In x p -> subplan (root l) x \/ subplan (root r) x).
        { intros x I. destruct (subplan_tree _ _ W O (Sp x I)) as [->|H]; [now destruct NI|exact H]. }
        pose proof W as (D & Wl & Wr). pose proof O as (_ & Ol & Or). set (f := subb (root r)).
        destruct (IHl (filter (fun x => negb (f x)) p) Wl Ol) as (cl & Il & Pl).
        { split; [now apply NoDup_filter|]. split.
          - intros x I. apply filter_In in I. destruct I as [I F]. destruct (Sd x I) as [H|H]; [auto|]. unfold f in F. rewrite (side_r l r x W O H) in F. discriminate.
          - intros i I. destruct (Cv i) as (x & J & B & U); [cbn [root]; now rewrite N.lor_spec, I|]. exists x. split; [|split; [auto|]].
            + apply filter_In. split; [auto|]. destruct (Sd x J) as [H|H]; [unfold f; now rewrite (side_l l r x W O H)|]. destruct (subplan_sub r x Wr Or H) as [S _]. rewrite land_zero in D.
              pose proof (D i I) as F. rewrite (S i B) in F. discriminate.
            + intros y K. apply filter_In in K. apply U. tauto. }
        destruct (IHr (filter f p) Wr Or) as (cr & Ir & Pr).
        { split; [now apply NoDup_filter|]. split.
          - intros x I. apply filter_In in I. destruct I as [I F]. destruct (Sd x I) as [H|H]; [|auto]. unfold f in F. rewrite (side_l l r x W O H) in F. discriminate.
          - intros i I. destruct (Cv i) as (x & J & B & U); [cbn [root]; now rewrite N.lor_spec, I, orb_true_r|]. exists x. split; [|split; [auto|]].
            + apply filter_In. split; [auto|]. destruct (Sd x J) as [H|H]; [|exact (side_r l r x W O H)]. destruct (subplan_sub l x Wl Ol H) as [S _]. rewrite land_zero in D.
              pose proof (D i (S i B)) as F. rewrite I in F. discriminate.
            + intros y K. apply filter_In in K. apply U. tauto. }
        exists (cr ++ cl). split; [cbn [cuts]; right; apply in_node_cuts; eauto|]. rewrite (filter_partition f p). now apply Permutation_app.
  Qed.

  Lemma filter_all : forall (f : N -> bool) l, (forall x, In x l -> f x = true) -> filter f l = l.
  Proof. induction l as [|x l IH]; intros H; cbn; [auto|]. rewrite (H x (or_introl eq_refl)), IH; auto. intros y I. apply H. now right. Qed.
  Lemma filter_none : forall (f : N -> bool) l, (forall x, In x l -> f x = false) -> filter f l = [].
  Proof. induction l as [|x l IH]; intros H; cbn; [auto|]. rewrite (H x (or_introl eq_refl)), IH; auto. intros y I. apply H. now right. Qed.
  Lemma Permutation_filter : forall (f : N -> bool) l l', Permutation l l' -> Permutation (filter f l) (filter f l').
  Proof. induction 1; cbn; [auto| | |eauto using Permutation_trans]; repeat destruct (f _); auto. constructor. Qed.
  Lemma root_not_in : forall l r c, wf (Node l r) -> of_PT PT (Node l r) -> In c (flat_map (fun cr => map (fun cl => cr ++ cl) (cuts l)) (cuts r)) -> ~ In (root (Node l r)) c.
  Proof.
    intros l r c W O I J. apply in_node_cuts in I. destruct I as (cr & cl & Ir & Il & ->). pose proof W as (D & Wl & Wr). pose proof O as (_ & Ol & Or).
    destruct (cuts_sound r cr Wr Or Ir) as (_ & Sr & _), (cuts_sound l cl Wl Ol Il) as (_ & Sl & _). rewrite land_zero in D. apply in_app_or in J. destruct J as [J|J].
    - destruct (testbit_ex _ (root_nonzero l)) as (i & I). destruct (subplan_sub r _ Wr Or (Sr _ J)) as [S _]. pose proof (D i I) as F. rewrite (S i) in F; [discriminate|]. cbn [root]. now rewrite N.lor_spec, I.
    - destruct (testbit_ex _ (root_nonzero r)) as (i & I). destruct (subplan_sub l _ Wl Ol (Sl _ J)) as [S _]. assert (B : N.testbit (root l) i = true) by (apply S; cbn [root]; now rewrite N.lor_spec, I, orb_true_r). rewrite (D i B) in I. discriminate.
  Qed.
  Lemma cuts_split : forall l r cr cl, wf (Node l r) -> of_PT PT (Node l r) -> In cr (cuts r) -> In cl (cuts l) ->
    filter (subb (root r)) (cr ++ cl) = cr /\ filter (fun x => negb (subb (root r) x)) (cr ++ cl) = cl.
  Proof.
    intros l r cr cl W O Ir Il. pose proof W as (D & Wl & Wr). pose proof O as (_ & Ol & Or).
    destruct (cuts_sound r cr Wr Or Ir) as (_ & Sr & _), (cuts_sound l cl Wl Ol Il) as (_ & Sl & _). rewrite !filter_app. split.
    - rewrite filter_all, filter_none, app_nil_r; [auto| |]; intros x I; [apply side_l with l|apply side_r with l]; auto.
    - rewrite filter_none, filter_all; [auto| |]; intros x I; [rewrite side_l with (l := l)|rewrite side_r with (l := l)]; auto.
  Qed.
  Lemma cuts_perm : forall t c c', wf t -> of_PT PT t -> In c (cuts t) -> In c' (cuts t) -> Permutation c c' -> c = c'.
  Proof.
    induction t as [i|l IHl r IHr]; intros c c' W O I I' P.
    - destruct I as [<-|[]], I' as [<-|[]]. reflexivity.
    - cbn [cuts] in I, I'. destruct I as [<-|I], I' as [<-|I'].
      + reflexivity.
      + exfalso. apply (root_not_in l r c' W O I'). eapply Permutation_in; [exact P|now left].
      + exfalso. apply (root_not_in l r c W O I). eapply Permutation_in; [apply Permutation_sym; exact P|now left].
      + apply in_node_cuts in I, I'. destruct I as (cr & cl & Ir & Il & ->), I' as (cr' & cl' & Ir' & Il' & ->). pose proof W as (_ & Wl & Wr). pose proof O as (_ & Ol & Or).
        destruct (cuts_split l r cr cl W O Ir Il) as [A B], (cuts_split l r cr' cl' W O Ir' Il') as [A' B'].
        pose proof (Permutation_filter (subb (root r)) _ _ P) as Pr. rewrite A, A' in Pr. pose proof (Permutation_filter (fun x => negb (subb (root r) x)) _ _ P) as Pl. rewrite B, B' in Pl.
        now rewrite (IHr _ _ Wr Or Ir Ir' Pr), (IHl _ _ Wl Ol Il Il' Pl).
  Qed.
  Lemma NoDup_flat_map : forall (A B : Type) (f : A -> list B) l, NoDup l -> (forall x, In x l -> NoDup (f x)) -> (forall x y z, In x l -> In y l -> In z (f x) -> In z (f y) -> x = y) -> NoDup (flat_map f l).
  Proof.
    intros A B f l N. induction N as [|x l NI N IH]; intros H D; cbn; [constructor|]. apply NoDup_app.
    - apply H. now left.
    - apply IH; [intros y I; apply H; now right|intros a b z Ia Ib; apply D; now right].
    - intros z I J. apply in_flat_map in J. destruct J as (y & Iy & J). apply NI. rewrite (D x y z (or_introl eq_refl) (or_intror Iy) I J). exact Iy.
  Qed.
  Lemma cuts_NoDup : forall t, wf t -> of_PT PT t -> NoDup (cuts t).
  Proof.
    induction t as [i|l IHl r IHr]; intros W O; [repeat constructor; intros []|]. pose proof W as (_ & Wl & Wr). pose proof O as (_ & Ol & Or). cbn [cuts]. constructor.
    - intros I. apply (root_not_in l r _ W O I). now left.
    - apply NoDup_flat_map; [auto| |].
      + intros cr _. apply FinFun.Injective_map_NoDup; [|auto]. intros a b. apply app_inv_head.
      + intros cr cr' z I I' Z Z'. apply in_map_iff in Z, Z'. destruct Z as (cl & <- & Il), Z' as (cl' & E & Il'). destruct (cuts_split l r cr cl W O I Il) as [A _], (cuts_split l r cr' cl' W O I' Il') as [A' _].
        rewrite <- A, <- A'. now rewrite E.
  Qed.
End Cuts.
