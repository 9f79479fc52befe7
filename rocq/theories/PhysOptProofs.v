(** * The dynamic program finds the cheapest covering for each post-condition *)
From Coq Require Import Arith List Bool Permutation Lia.
From Verif Require Import PhysOpt PhysOptSpec.
Import ListNotations.

Section Proofs.
  Variables D Cond Cost : Type.
  Variable implied_by : Cond -> Cond -> bool.
  Variable ceqb : Cond -> Cond -> bool.
  Variable cempty : Cond.
  Variable is_empty : Cond -> bool.
  Variable ltb : Cost -> Cost -> bool.
  Variable add : Cost -> Cost -> Cost.
  Variable available : list (PhysOp D Cond Cost).
  Notation Op := (Op D).
  Notation PhysOp := (PhysOp D Cond Cost).
  Notation entry := (entry D Cond Cost).
  Notation table := (table D Cond Cost).
  Notation covers := (covers implied_by cempty is_empty add available).
  Notation inputs := (inputs implied_by cempty is_empty add available).
  Definition le (a b : Cost) : Prop := ltb b a = false.
  Hypothesis ceqb_spec : forall c c', ceqb c c' = true <-> c = c'.
  Hypothesis le_refl : forall a, le a a.
  Hypothesis le_trans : forall a b c, le a b -> le b c -> le a c.
  Hypothesis lt_le : forall a b, ltb a b = true -> le a b.
  Hypothesis add_mono : forall a a' b b', le a a' -> le b b' -> le (add a b) (add a' b').
  Notation matches := (matches implied_by cempty).
  Notation new_child_list := (new_child_list implied_by).
  Notation new_children_list := (new_children_list implied_by).
  Notation handle_match := (handle_match ceqb cempty is_empty ltb add).
  Notation improve := (improve ceqb ltb).
  Notation match_operator := (match_operator implied_by ceqb cempty is_empty ltb add).
  Notation visit := (visit implied_by ceqb cempty is_empty ltb add available).
  Notation visit_all := (visit_all implied_by ceqb cempty is_empty ltb add available).

  (** ** Slots *)
  Lemma length_set_slot : forall (T : table) i es, length (set_slot T i es) = length T.
  Proof. induction T; intros [|i] es; cbn; auto. Qed.
  Lemma slot_set_eq : forall (T : table) i es, i < length T -> slot (set_slot T i es) i = es.
  Proof. induction T; intros [|i] es L; cbn in *; try lia; auto. unfold slot in *. cbn. apply IHT. lia. Qed.
  Lemma slot_set_neq : forall (T : table) i j es, i <> j -> slot (set_slot T i es) j = slot T j.
  Proof.
    induction T; intros [|i] [|j] es L; cbn in *; try lia; auto. unfold slot in *. cbn. apply IHT. lia.
  Qed.
  Lemma improve_in : forall (es : list entry) new e, In e (improve es new) -> In e es \/ e = new.
  Proof.
    induction es as [|x es IH]; intros new e; cbn; [intuition|]. destruct (ceqb _ _) eqn:E.
    - apply ceqb_spec in E. destruct (ltb _ _); [|cbn; intuition]. cbn. intros [<-|H]; [|intuition]. right. rewrite E. now destruct new.
    - cbn. intros [<-|H]; [auto|]. apply IH in H. intuition.
  Qed.
  Definition better (es es' : list entry) : Prop := forall e, In e es -> exists e', In e' es' /\ condition e' = condition e /\ le (ecost e') (ecost e).
  Lemma improve_better : forall (es : list entry) new, better es (improve es new).
  Proof.
    induction es as [|x es IH]; intros new e; cbn; [tauto|]. destruct (ceqb _ _) eqn:E.
    - intros [<-|H]; [|exists e; cbn; auto]. destruct (ltb _ _) eqn:L; eexists; (split; [now left|]); cbn; auto.
    - intros [<-|H]; [exists x; cbn; auto|]. destruct (IH new e H) as (e' & I & C). exists e'. cbn. auto.
  Qed.
  Lemma improve_new : forall (es : list entry) new, exists e', In e' (improve es new) /\ condition e' = condition new /\ le (ecost e') (ecost new).
  Proof.
    induction es as [|x es IH]; intros new; cbn; [exists new; auto|]. destruct (ceqb _ _) eqn:E.
    - apply ceqb_spec in E. eexists; split; [now left|]. destruct (ltb _ _) eqn:L; cbn; auto.
    - destruct (IH new) as (e' & I & C). exists e'. cbn. auto.
  Qed.

  Definition sound_slot (o : Op) (es : list entry) : Prop := forall e, In e es -> covers o (match_ e) (condition e) (ecost e).
  Definition complete_slot (o : Op) (es : list entry) : Prop := forall m c k, covers o m c k -> exists e, In e es /\ condition e = c /\ le (ecost e) k.

  (** ** One operator *)
  Section Root.
    Variable o0 : Op.
    Variable T0 : table.
    Let r := id o0.
    Hypothesis r_in : r < length T0.
    Definition ext (T T' : table) : Prop :=
      length T' = length T /\ (forall j, j <> r -> slot T' j = slot T j) /\ better (slot T r) (slot T' r) /\ (sound_slot o0 (slot T r) -> sound_slot o0 (slot T' r)).
    Lemma ext_refl : forall T, ext T T.
    Proof. intros T. split; [|split; [|split]]; auto. intros e I. exists e. auto. Qed.
    Lemma ext_trans : forall T T' T'', ext T T' -> ext T' T'' -> ext T T''.
    Proof.
      intros T T' T'' (L & J & B & S) (L' & J' & B' & S'). split; [congruence|]. split; [intros j N; rewrite J' by auto; auto|]. split; [|auto].
      intros e I. destruct (B e I) as (e' & I' & C & Le). destruct (B' e' I') as (e'' & I'' & C' & Le'). exists e''. split; [auto|]. split; [congruence|]. eapply le_trans; eauto.
    Qed.
    Variable P : PhysOp.

    Inductive sat : nat -> list (option Op * list Op) -> list entry -> Prop :=
      | sat_nil i : sat i [] []
      | sat_none i ns ins es : implied_by (pre_condition P i ns) cempty = true -> sat i ins es -> sat i ((None, ns) :: ins) es
      | sat_some i o ns ins e es : In e (new_child_list P i ns o T0) -> sat (S i) ins es -> sat i ((Some o, ns) :: ins) (e :: es).
    Fixpoint count (ins : list (option Op * list Op)) : nat := match ins with [] => 0 | (Some _, _) :: r => S (count r) | (None, _) :: r => count r end.
    Lemma sat_length : forall i ins es, sat i ins es -> length es = count ins.
    Proof. induction 1; cbn; auto. Qed.
    Lemma count_app : forall a b, count (a ++ b) = count a + count b.
    Proof. induction a as [|[[x|] n] a IH]; intros b; cbn; rewrite ?IH; reflexivity. Qed.
    Lemma sat_app : forall i ins es ins' es', sat i ins es -> sat (i + count ins) ins' es' -> sat i (ins ++ ins') (es ++ es').
    Proof.
      intros i ins es ins' es' S. revert ins' es'. induction S; intros ins' es' S'; cbn in *.
      - now rewrite Nat.add_0_r in S'.
      - apply sat_none; [assumption|]. now apply IHS.
      - apply sat_some; [assumption|]. apply IHS. rewrite Nat.add_succ_r in S'. exact S'.
    Qed.
    Lemma sat_app_inv : forall ins i ins' es, sat i (ins ++ ins') es -> exists es1 es2, es = es1 ++ es2 /\ sat i ins es1 /\ sat (i + count ins) ins' es2.
    Proof.
      induction ins as [|[[x|] n] ins IH]; intros i ins' es S; cbn in *.
      - exists [], es. rewrite Nat.add_0_r. split; [auto|]. split; [constructor|auto].
      - inversion S; subst. destruct (IH _ _ _ H5) as (e1 & e2 & -> & A & B). exists (e :: e1), e2. split; [auto|]. split; [constructor; auto|].
        rewrite Nat.add_succ_r. exact B.
      - inversion S; subst. destruct (IH _ _ _ H4) as (e1 & e2 & -> & A & B). exists e1, e2. split; [auto|]. split; [constructor; auto|auto].
    Qed.

    Definition ok (x : Op) : Prop := id x <> r /\ id x < length T0 /\ sound_slot x (slot T0 (id x)) /\ complete_slot x (slot T0 (id x)).
    Inductive desc : Op -> Op -> Prop :=
      | desc_refl o : desc o o
      | desc_child x c o : desc x c -> In c (children o) -> desc x o.
    Definition okp (p : Pattern) (o : Op) : Prop := match p with Wildcard => ok o | _ => forall c x, In c (children o) -> desc x c -> ok x end.
    Lemma ok_okp : forall p o, (forall x, desc x o -> ok x) -> okp p o.
    Proof. intros p o H. destruct p; cbn; [apply H; constructor| | |]; intros c' x I De; apply H; eapply desc_child; eauto. Qed.
    Lemma fits_ok : forall p o ns ns' ins, fits p o ns ns' ins -> okp p o -> forall x n, In (Some x, n) ins -> ok x.
    Proof.
      induction 1; intros O x n I; cbn [okp] in O.
      - cbn in I. destruct I as [I|[]]. injection I as <- <-. exact O.
      - cbn in I. destruct I as [I|[]]. discriminate.
      - apply in_map_iff in I. destruct I as (y & E & I). injection E as <- <-. apply (O y); [auto|constructor].
      - refine (IHfits _ _ _ I). apply ok_okp. intros y De. apply (O a); [rewrite H0; now left|auto].
      - apply in_app_iff in I. destruct I as [I|I].
        + refine (IHfits1 _ _ _ I). apply ok_okp. intros y De. apply (O a); [|auto]. eapply Permutation_in; [eassumption|]. now left.
        + refine (IHfits2 _ _ _ I). apply ok_okp. intros y De. apply (O b); [|auto]. eapply Permutation_in; [eassumption|]. right; now left.
    Qed.

    Lemma sat_inputs : forall i ins es, sat i ins es -> (forall x n, In (Some x, n) ins -> ok x) ->
      inputs P i ins (map match_ es) (map condition es) (map ecost es).
    Proof.
      induction 1; intros O; cbn.
      - constructor.
      - constructor; auto. apply IHsat. intros x n I. apply (O x n). now right.
      - unfold PhysOpt.new_child_list in H. apply filter_In in H. destruct H as [I Im]. destruct (O o ns) as (_ & _ & So & _); [now left|].
        apply in_some; auto. apply IHsat. intros x n J. apply (O x n). now right.
    Qed.
    Lemma inputs_sat : forall i ins ms cs ks, inputs P i ins ms cs ks -> (forall x n, In (Some x, n) ins -> ok x) ->
      exists es, sat i ins es /\ map condition es = cs /\ Forall2 le (map ecost es) ks.
    Proof.
      intros i ins. revert i. induction ins as [|[[x|] n] ins IH]; intros i ms cs ks H O; inversion H; subst.
      - exists []. split; [constructor|]. split; constructor.
      - destruct (O x n) as (_ & _ & _ & Co); [now left|]. match goal with C : covers x _ _ _ |- _ => destruct (Co _ _ _ C) as (e & I & E & Le) end.
        match goal with N : PhysOptSpec.inputs _ _ _ _ _ _ _ ins _ _ _ |- _ => destruct (IH _ _ _ _ N) as (es & Sa & Mc & Fk) end; [intros y z J; apply (O y z); now right|].
        exists (e :: es). split; [|split; cbn; [congruence|constructor; auto]]. constructor; [|auto]. unfold PhysOpt.new_child_list. apply filter_In. split; [auto|]. now rewrite E.
      - match goal with N : PhysOptSpec.inputs _ _ _ _ _ _ _ ins _ _ _ |- _ => destruct (IH _ _ _ _ N) as (es & Sa & Mc & Fk) end; [intros y z J; apply (O y z); now right|].
        exists es. split; [constructor; auto|auto].
    Qed.

    Definition R (T : table) : Prop := ext T0 T.
    Lemma R_child : forall T i ns x, R T -> id x <> r -> new_child_list P i ns x T = new_child_list P i ns x T0.
    Proof. intros T i ns x (_ & J & _) N. unfold PhysOpt.new_child_list. now rewrite (J _ N). Qed.
    Lemma R_length : forall T, R T -> length T = length T0.
    Proof. now intros T (L & _). Qed.

    Lemma in_product : forall A B C (f : A -> B -> C) ls new c, In c (product f ls new) <-> exists l e, In l ls /\ In e new /\ c = f l e.
    Proof.
      intros. unfold product. rewrite in_flat_map. split.
      - intros (l & I & J). apply in_map_iff in J. destruct J as (e & <- & J). eauto.
      - intros (l & e & I & J & ->). exists l. split; [auto|]. apply in_map_iff. eauto.
    Qed.
    Lemma new_children : forall os T i ns acc, R T -> (forall x, In x os -> ok x) -> acc <> [] ->
      let ins := map (fun x => (Some x, ns)) os in
      match new_children_list P i ns os acc T with
      | Some new => new <> [] /\ forall l', In l' new <-> exists l es, In l acc /\ sat i ins es /\ l' = l ++ es
      | None => forall es, ~ sat i ins es
      end.
    Proof.
      induction os as [|o os IH]; intros T i ns acc RT O Ne ins; cbn [PhysOpt.new_children_list].
      - split; [auto|]. intros l'. split.
        + intros I. exists l', []. split; [auto|]. split; [constructor|now rewrite app_nil_r].
        + intros (l & es & I & S & ->). inversion S; subst. now rewrite app_nil_r.
      - assert (Oo : ok o) by (apply O; now left). destruct Oo as (Nr & Lo & _). rewrite (R_length T RT). destruct (length T0 <=? id o) eqn:L; [apply Nat.leb_le in L; lia|].
        rewrite (R_child T i ns o RT Nr). destruct (new_child_list P i ns o T0) as [|e0 new0] eqn:E.
        + intros es S. inversion S; subst. rewrite E in *. match goal with F : In _ [] |- _ => destruct F end.
        + rewrite <- E. assert (Ne' : product (fun l e => l ++ [e]) acc (new_child_list P i ns o T0) <> []).
          { rewrite E. destruct acc; [congruence|]. discriminate. }
          assert (Oos : forall x, In x os -> ok x) by (intros x I; apply O; now right).
          specialize (IH T (S i) ns _ RT Oos Ne'). cbv zeta in IH. destruct (new_children_list P (S i) ns os _ T) as [new|].
          * destruct IH as [Nn Hn]. split; [auto|]. intros l'. rewrite Hn. split.
            -- intros (l & es & I & S & ->). apply in_product in I. destruct I as (l0 & e & I & J & ->). exists l0, (e :: es). split; [auto|]. split; [|now rewrite <- app_assoc].
               subst ins. cbn. constructor; auto.
            -- intros (l & es & I & S & ->). subst ins. cbn in S. inversion S; subst. exists (l ++ [e]), es0. split; [|split; [auto|now rewrite <- app_assoc]].
               apply in_product. eauto.
          * intros es S. subst ins. cbn in S. inversion S; subst. eapply IH; eauto.
    Qed.

    Definition uniform (n : nat) (ls : list (list entry)) : Prop := ls <> [] /\ forall l, In l ls -> length l = n.
    Lemma uniform_hd : forall n ls, uniform n ls -> length (hd [] ls) = n.
    Proof. intros n [|l ls] [Ne U]; [congruence|]. apply U. now left. Qed.
    (** The calls of the continuation that can happen. *)
    Definition call (p : Pattern) (o : Op) (ns : list Op) (n : nat) (ls : list (list entry)) (ns' : list Op) (ls' : list (list entry)) : Prop :=
      exists ins, fits p o ns ns' ins /\ uniform (n + count ins) ls' /\ (forall l', In l' ls' -> exists l es, In l ls /\ l' = l ++ es /\ sat n ins es).
    Definition good_k (C : list Op -> list (list entry) -> Prop) (k : list Op -> list (list entry) -> table -> table) : Prop :=
      forall ns ls, C ns ls -> forall T, R T -> ext T (k ns ls T).

    Lemma call_two : forall c p q o a b ns n ls ns1 ls1 ns2 ls2, is_a (cls o) c = true -> Permutation [a; b] (children o) ->
      call p a (ns ++ [o]) n ls ns1 ls1 -> (exists m, uniform m ls1 /\ call q b ns1 m ls1 ns2 ls2) -> call (P2 c p q) o ns n ls ns2 ls2.
    Proof.
      intros c p q o a b ns n ls ns1 ls1 ns2 ls2 A Pm (i1 & F1 & U1 & C1) (m & U1' & i2 & F2 & U2 & C2).
      assert (m = n + count i1) by (rewrite <- (uniform_hd _ _ U1), <- (uniform_hd _ _ U1'); reflexivity). subst m.
      exists (i1 ++ i2). split; [econstructor; eauto|]. split.
      - rewrite count_app, Nat.add_assoc. exact U2.
      - intros l' I. destruct (C2 l' I) as (l1 & e2 & I1 & -> & S2). destruct (C1 l1 I1) as (l & e1 & I0 & -> & S1). exists l, (e1 ++ e2).
        split; [auto|]. split; [now rewrite app_assoc|]. apply sat_app; auto.
    Qed.

    Lemma call_wildcard : forall o ns n ls, producer (cls o) = true -> uniform n ls -> new_child_list P n (ns ++ [o]) o T0 <> [] ->
      call Wildcard o ns n ls (ns ++ [o]) (product (fun l e => l ++ [e]) ls (new_child_list P n (ns ++ [o]) o T0)).
    Proof.
      intros o ns n ls Pr [Ne U] Nn. eexists. split; [constructor; exact Pr|]. split.
      - split; [destruct ls; [congruence|]; destruct (new_child_list P n (ns ++ [o]) o T0); [congruence|discriminate]|].
        intros l I. apply in_product in I. destruct I as (l0 & e & I & _ & ->). rewrite app_length, (U l0 I). cbn. lia.
      - intros l' I. apply in_product in I. destruct I as (l0 & e & I & J & ->). exists l0, [e]. split; [auto|]. split; [auto|]. constructor; [auto|constructor].
    Qed.
    Lemma call_inner : forall c o ns n ls new, is_a (cls o) c = true -> consumer c = true -> uniform n ls -> new <> [] ->
      (forall l', In l' new <-> exists l es, In l [[]] /\ sat n (map (fun x => (Some x, ns ++ [o])) (children o)) es /\ l' = l ++ es) ->
      call (PClass c) o ns n ls (ns ++ [o]) (product (fun l l' => l ++ l') ls new).
    Proof.
      intros c o ns n ls new A Co [Ne U] Nn Hn. eexists. split; [now apply fits_inner|].
      assert (S : forall l', In l' new -> sat n (map (fun x => (Some x, ns ++ [o])) (children o)) l').
      { intros l' I. apply Hn in I. destruct I as (l & es & [<-|[]] & Sa & ->). exact Sa. }
      split.
      - split; [destruct ls; [congruence|]; destruct new; [congruence|discriminate]|].
        intros l I. apply in_product in I. destruct I as (l0 & e & I & J & ->). rewrite app_length, (U l0 I). f_equal. exact (sat_length _ _ _ (S e J)).
      - intros l' I. apply in_product in I. destruct I as (l0 & e & I & J & ->). exists l0, e. split; [auto|]. split; [auto|]. auto.
    Qed.

    Lemma matches_ext : forall p o ns n ls k, okp p o -> uniform n ls -> good_k (call p o ns n ls) k -> forall T, R T -> ext T (matches P p o ns ls k T).
    Proof.
      induction p as [|c|c q IHq|c q IHq r' IHr]; intros o ns n ls k O U G T RT; cbn [PhysOpt.matches]; rewrite ?(uniform_hd _ _ U).
      - destruct (producer (cls o)) eqn:Pr; [|apply ext_refl]. cbn [negb]. destruct O as (Nr & Lo & _). rewrite (R_length T RT).
        destruct (length T0 <=? id o) eqn:L; [apply ext_refl|]. rewrite (R_child T _ _ o RT Nr).
        destruct (new_child_list P n (ns ++ [o]) o T0) as [|e0 new0] eqn:E; [apply ext_refl|]. rewrite <- E.
        apply G; [|auto]. apply call_wildcard; [auto|auto|rewrite E; discriminate].
      - destruct (is_a (cls o) c) eqn:A; [|apply ext_refl]. cbn [negb]. destruct (consumer c) eqn:Co.
        + pose proof (new_children (children o) T n (ns ++ [o]) [[]] RT) as N. cbv zeta in N.
          assert (Oc : forall x, In x (children o) -> ok x) by (intros x I; apply (O x); [auto|constructor]).
          specialize (N Oc). destruct (new_children_list P n (ns ++ [o]) (children o) [[]] T) as [new|]; [|apply ext_refl].
          destruct N as [Nn Hn]; [discriminate|]. apply G; [|auto]. now apply call_inner.
        + destruct (implied_by _ _) eqn:I; [|apply ext_refl]. apply G; [|auto]. eexists. split; [now apply fits_leaf|]. cbn [count]. rewrite Nat.add_0_r. split; [auto|].
          intros l' J. exists l', []. split; [auto|]. split; [now rewrite app_nil_r|]. constructor; [auto|constructor].
      - destruct (is_a (cls o) c) eqn:A; [|apply ext_refl]. cbn [negb]. destruct (children o) as [|a [|]] eqn:Ch; try apply ext_refl.
        apply (IHq a (ns ++ [o]) n ls k); auto.
        + apply ok_okp. intros x De. apply (O a); [rewrite Ch; now left|auto].
        + intros ns' ls' (ins & F & H). apply G. exists ins. split; [|auto]. econstructor; eauto.
      - destruct (is_a (cls o) c) eqn:A; [|apply ext_refl]. cbn [negb]. destruct (children o) as [|a [|b [|]]] eqn:Ch; try apply ext_refl.
        assert (Oa : forall y x, In y [a; b] -> desc x y -> ok x) by (intros y x I De; apply (O y); [rewrite Ch; auto|auto]).
        assert (two : forall x y T, Permutation [x; y] [a; b] -> R T -> ext T (matches P q x (ns ++ [o]) ls (fun nodes ls => matches P r' y nodes ls k) T)).
        { intros x y T' Pm RT'. assert (Ix : In x [a; b]) by (apply (Permutation_in _ Pm); now left). assert (Iy : In y [a; b]) by (apply (Permutation_in _ Pm); right; now left).
          apply (IHq x (ns ++ [o]) n ls); auto.
          - apply ok_okp. intros z De. exact (Oa x z Ix De).
          - intros ns1 ls1 C1 T1 RT1. destruct C1 as (i1 & F1 & U1 & H1). eapply IHr; [apply ok_okp; intros z De; exact (Oa y z Iy De)|exact U1| |auto].
            intros ns2 ls2 C2. apply G. eapply call_two; [exact A|rewrite Ch; exact Pm|exists i1; eauto|]. eexists. split; [exact U1|exact C2]. }
        eapply ext_trans; [apply (two a b); auto|]. apply (two b a); [apply perm_swap|]. eapply ext_trans; [exact RT|]. apply (two a b); auto.
    Qed.

    Lemma matches_complete : forall p o ns ns' ins, fits p o ns ns' ins -> forall n ls k, okp p o -> uniform n ls -> good_k (call p o ns n ls) k ->
      forall T l es, R T -> In l ls -> sat n ins es ->
      exists ls' T', call p o ns n ls ns' ls' /\ In (l ++ es) ls' /\ R T' /\ ext (k ns' ls' T') (matches P p o ns ls k T).
    Proof.
      induction 1; intros n ls k O U G T l es RT Il S; cbn [PhysOpt.matches]; rewrite ?(uniform_hd _ _ U).
      - rewrite H. cbn [negb]. destruct O as (Nr & Lo & _). rewrite (R_length T RT). destruct (length T0 <=? id o) eqn:L; [apply Nat.leb_le in L; lia|].
        rewrite (R_child T _ _ o RT Nr). inversion S; subst. match goal with N : sat _ [] _ |- _ => inversion N; subst end.
        assert (Nn : new_child_list P n (ns ++ [o]) o T0 <> []) by (intros E; rewrite E in *; match goal with F : In _ [] |- _ => destruct F end).
        pose proof (call_wildcard o ns n ls H U Nn) as Ca.
        destruct (new_child_list P n (ns ++ [o]) o T0) as [|e0 new0] eqn:E; [congruence|]. rewrite <- E in *.
        eexists _, T. split; [exact Ca|]. split; [apply in_product; eauto|]. split; [auto|]. apply ext_refl.
      - rewrite H. cbn [negb]. rewrite H0. inversion S; subst. match goal with I : implied_by _ _ = true |- _ => rewrite I end. match goal with N : sat _ [] _ |- _ => inversion N; subst end. exists ls, T. split.
        + eexists. split; [now apply fits_leaf|]. cbn [count]. rewrite Nat.add_0_r. split; [auto|]. intros l' J. exists l', []. split; [auto|]. split; [now rewrite app_nil_r|]. constructor; [auto|constructor].
        + rewrite app_nil_r. split; [auto|]. split; [auto|]. apply ext_refl.
      - rewrite H. cbn [negb]. rewrite H0. pose proof (new_children (children o) T n (ns ++ [o]) [[]] RT) as N. cbv zeta in N.
        assert (Oc : forall x, In x (children o) -> ok x) by (intros x I; apply (O x); [auto|constructor]).
        specialize (N Oc). destruct (new_children_list P n (ns ++ [o]) (children o) [[]] T) as [new|]; [|exfalso; eapply N; [discriminate|exact S]].
        destruct N as [Nn Hn]; [discriminate|]. eexists _, T. split; [now apply (call_inner c o ns n ls new)|]. split; [|split; [auto|apply ext_refl]].
        apply in_product. exists l, es. split; [auto|]. split; [|auto]. apply Hn. exists [], es. split; [now left|auto].
      - rewrite H. cbn [negb]. rewrite H0. destruct (IHfits n ls k) with (T := T) (l := l) (es := es) as (ls' & T' & C & I & RT' & Ex); auto.
        + apply ok_okp. intros x De. apply (O a); [rewrite H0; now left|auto].
        + intros m ls' (i & F & Hc). apply G. exists i. split; [|auto]. econstructor; eauto.
        + exists ls', T'. split; [|auto]. destruct C as (i & F & Hc). exists i. split; [|auto]. econstructor; eauto.
      - rewrite H. cbn [negb]. destruct (children o) as [|x [|y [|]]] eqn:Ch; try (apply Permutation_length in H0; discriminate H0).
        assert (Oa : forall z w, In z [x; y] -> desc w z -> ok w) by (intros z w I De; apply (O z); [rewrite Ch; auto|auto]).
        assert (Gi : forall u v, Permutation [u; v] [x; y] -> good_k (call p u (ns ++ [o]) n ls) (fun nodes ls => matches P q v nodes ls k)).
        { intros u v Pm ns1 ls1 C1 T1 RT1. assert (Iv : In v [x; y]) by (apply (Permutation_in _ Pm); right; now left). destruct C1 as (i1 & F1 & U1 & H3).
          eapply matches_ext; [apply ok_okp; intros z De; exact (Oa v z Iv De)|exact U1| |auto].
          intros ns2 ls2 C2. apply G. eapply call_two; [exact H|rewrite Ch; exact Pm|exists i1; eauto|]. eexists. split; [exact U1|exact C2]. }
        assert (two : forall u v T, Permutation [u; v] [x; y] -> R T -> ext T (matches P p u (ns ++ [o]) ls (fun nodes ls => matches P q v nodes ls k) T)).
        { intros u v T' Pm RT'. assert (Iu : In u [x; y]) by (apply (Permutation_in _ Pm); now left). eapply matches_ext; eauto. apply ok_okp. intros z De. exact (Oa u z Iu De). }
        apply sat_app_inv in S. destruct S as (e1 & e2 & -> & S1 & S2).
        assert (Ia : In a [x; y]) by (apply (Permutation_in _ H0); now left). assert (Ib : In b [x; y]) by (apply (Permutation_in _ H0); right; now left).
        assert (main : forall T, R T -> exists ls' T', call (P2 c p q) o ns n ls ns'' ls' /\ In (l ++ e1 ++ e2) ls' /\ R T' /\
          ext (k ns'' ls' T') (matches P p a (ns ++ [o]) ls (fun nodes ls => matches P q b nodes ls k) T)).
        { intros T1 RT1. destruct (IHfits1 n ls (fun nodes ls => matches P q b nodes ls k)) with (T := T1) (l := l) (es := e1) as (ls1 & T2 & C1 & I1 & RT2 & Ex1); auto.
          { apply ok_okp. intros z De. exact (Oa a z Ia De). }
          pose proof C1 as (i1 & F1 & U1 & Hc1).
          assert (Ei : count i1 = count ins).
          { destruct (Hc1 _ I1) as (l' & es' & Il' & E & Sa). pose proof (f_equal (@length _) E) as El. rewrite !app_length in El. destruct U as [_ Ul]. pose proof (Ul l Il) as E1. pose proof (Ul l' Il') as E2.
            rewrite E1, E2 in El. rewrite (sat_length _ _ _ S1), (sat_length _ _ _ Sa) in El. lia. }
          rewrite Ei in U1.
          destruct (IHfits2 (n + count ins) ls1 k) with (T := T2) (l := l ++ e1) (es := e2) as (ls2 & T3 & C2 & I2 & RT3 & Ex2); auto.
          { apply ok_okp. intros z De. exact (Oa b z Ib De). }
          { intros ns2 ls2 C2. apply G. eapply call_two; [exact H|rewrite Ch; exact H0|exact C1|]. eexists. split; [exact U1|exact C2]. }
          exists ls2, T3. split; [|split; [now rewrite app_assoc|split; [auto|eapply ext_trans; eauto]]].
          eapply call_two; [exact H|rewrite Ch; exact H0|exact C1|]. eexists. split; [exact U1|exact C2]. }
        assert (Cs : (a = x /\ b = y) \/ (a = y /\ b = x)).
        { apply Permutation_length_2 in H0. intuition. }
        destruct Cs as [[-> ->]|[-> ->]].
        + destruct (main T RT) as (ls' & T' & C & I & RT' & Ex). exists ls', T'. split; [auto|]. split; [auto|]. split; [auto|]. eapply ext_trans; [exact Ex|]. cbv zeta.
          apply (two y x); [apply perm_swap|]. eapply ext_trans; [exact RT|]. now apply two.
        + cbv zeta. apply main. eapply ext_trans; [exact RT|]. apply (two x y); auto.
    Qed.

    (** ** [handle_match] *)
    Lemma handle_ext : forall nodes ch, (exists ins, fits (pattern P) o0 [] nodes ins /\ sat 0 ins ch /\ (forall x n, In (Some x, n) ins -> ok x)) -> In P available ->
      forall T, R T -> ext T (handle_match P o0 nodes ch T) /\
        exists e, In e (slot (handle_match P o0 nodes ch T) r) /\ condition e = delivers cempty is_empty P nodes (map condition ch) /\
                  le (ecost e) (fold_left add (map ecost ch) (cost P nodes)).
    Proof.
      intros nodes ch (ins & F & Sa & Ok) Av T RT. unfold PhysOpt.handle_match. fold r. pose proof (R_length T RT) as Lt. assert (Lr : r < length T) by (rewrite Lt; exact r_in).
      assert (Ec : forall c, fold_left (fun c child => add c (ecost child)) ch c = fold_left add (map ecost ch) c).
      { clear. induction ch as [|e ch IH]; intros c; cbn; auto. }
      assert (Ed : (if is_empty (post_condition P nodes) then
        if length ch <=? 1 then adapt_post_condition P nodes (match ch with [] => cempty | e :: _ => condition e end)
        else adapt_post_conditions P nodes (map condition ch) else post_condition P nodes) = delivers cempty is_empty P nodes (map condition ch)).
      { unfold delivers. destruct (is_empty _); [|auto]. destruct ch as [|e [|e' ch']]; reflexivity. }
      rewrite Ec, Ed. set (new := mkEntry _ _ _). split.
      - split; [apply length_set_slot|]. split; [intros j N; now apply slot_set_neq, not_eq_sym|]. rewrite slot_set_eq by exact Lr. split; [apply improve_better|].
        intros So e I. apply improve_in in I. destruct I as [I| ->]; [auto|]. cbn [match_ condition ecost new]. eapply covers_by; [exact Av|exact F|]. exact (sat_inputs _ _ _ Sa Ok).
      - rewrite slot_set_eq by exact Lr. destruct (improve_new (slot T r) new) as (e & I & C & Le). exists e. auto.
    Qed.

    Hypothesis below : forall c x, In c (children o0) -> desc x c -> ok x.
    Hypothesis no_wildcard : pattern P <> Wildcard.
    Hypothesis P_in : In P available.
    Lemma root_okp : okp (pattern P) o0.
    Proof. destruct (pattern P); [congruence|exact below..]. Qed.
    Let final := fun (nodes : list Op) (ls : list (list entry)) (T : table) => fold_left (fun T ch => handle_match P o0 nodes ch T) ls T.
    Lemma start_uniform : uniform 0 [[]].
    Proof. split; [discriminate|]. intros l [<-|[]]. reflexivity. Qed.
    Lemma call_final : forall nodes ls, call (pattern P) o0 [] 0 [[]] nodes ls -> forall ch, In ch ls ->
      exists ins, fits (pattern P) o0 [] nodes ins /\ sat 0 ins ch /\ (forall x n, In (Some x, n) ins -> ok x).
    Proof.
      intros nodes ls (ins & F & _ & C) ch I. exists ins. split; [auto|]. destruct (C ch I) as (l & es & [<-|[]] & -> & Sa). split; [exact Sa|]. eapply fits_ok; [exact F|exact root_okp].
    Qed.
    Lemma final_ext : forall nodes ls, (forall ch, In ch ls -> exists ins, fits (pattern P) o0 [] nodes ins /\ sat 0 ins ch /\ (forall x n, In (Some x, n) ins -> ok x)) ->
      forall T, R T -> ext T (final nodes ls T) /\ forall ch, In ch ls ->
        exists e, In e (slot (final nodes ls T) r) /\ condition e = delivers cempty is_empty P nodes (map condition ch) /\
                  le (ecost e) (fold_left add (map ecost ch) (cost P nodes)).
    Proof.
      intros nodes. induction ls as [|ch0 ls IH]; intros H T RT; unfold final; cbn [fold_left].
      - split; [apply ext_refl|intros ch []].
      - destruct (handle_ext nodes ch0 (H ch0 (or_introl eq_refl)) P_in T RT) as [Ex (e & I & C & Le)].
        destruct (IH (fun ch J => H ch (or_intror J)) (handle_match P o0 nodes ch0 T)) as [Ex' Cs]; [eapply ext_trans; eauto|]. fold (final nodes ls (handle_match P o0 nodes ch0 T)).
        split; [eapply ext_trans; eauto|]. intros ch [<-|J]; [|auto]. destruct Ex' as (_ & _ & B & _). destruct (B e I) as (e' & I' & C' & Le'). exists e'. split; [auto|]. split; [congruence|]. eapply le_trans; eauto.
    Qed.
    Lemma good_final : good_k (call (pattern P) o0 [] 0 [[]]) final.
    Proof. intros ns ls C T RT. exact (proj1 (final_ext ns ls (call_final ns ls C) T RT)). Qed.

    Lemma match_operator_ext : forall T, R T -> ext T (match_operator P o0 T).
    Proof. intros T RT. unfold PhysOpt.match_operator. exact (matches_ext (pattern P) o0 [] 0 [[]] final root_okp start_uniform good_final T RT). Qed.

    Lemma add_all_mono : forall ks ks' a a', Forall2 le ks ks' -> le a a' -> le (fold_left add ks a) (fold_left add ks' a').
    Proof. intros ks ks' a a' F. revert a a'. induction F; intros a a' L; cbn; auto. Qed.
    Lemma match_operator_complete : forall T ns ins ms cs ks, R T -> fits (pattern P) o0 [] ns ins -> inputs P 0 ins ms cs ks ->
      exists e, In e (slot (match_operator P o0 T) r) /\ condition e = delivers cempty is_empty P ns cs /\ le (ecost e) (fold_left add ks (cost P ns)).
    Proof.
      intros T ns ins ms cs ks RT F In_. destruct (inputs_sat _ _ _ _ _ In_ (fits_ok _ _ _ _ _ F root_okp)) as (es & Sa & <- & Fk).
      destruct (matches_complete _ _ _ _ _ F 0 [[]] final root_okp start_uniform good_final T [] es RT (or_introl eq_refl) Sa) as (ls & T' & C & I & RT' & Ex). cbn [app] in I.
      destruct (final_ext ns ls (call_final ns ls C) T' RT') as [_ Cs]. destruct (Cs es I) as (e & J & Cd & Le).
      destruct Ex as (_ & _ & B & _). destruct (B e J) as (e' & J' & Cd' & Le'). exists e'. split; [exact J'|]. split; [congruence|].
      eapply le_trans; [exact Le'|]. eapply le_trans; [exact Le|]. apply add_all_mono; auto.
    Qed.
  End Root.

  (** ** The whole plan *)
  Lemma Op_ind' : forall Q : Op -> Prop, (forall i c d l, (forall x, In x l -> Q x) -> Q (mkOp i c d l)) -> forall o, Q o.
  Proof.
    intros Q H. fix IH 1. intros [i c d l]. apply H. induction l as [|x l IHl]; intros y; [intros []|]. intros [<-|I]; [apply IH|exact (IHl y I)].
  Qed.
  (** Numbered in post-order, starting with [lo]. *)
  Inductive numbered : nat -> Op -> Prop := num_op lo i c d l : numbered_list lo l i -> numbered lo (mkOp i c d l)
  with numbered_list : nat -> list Op -> nat -> Prop :=
    | num_nil n : numbered_list n [] n
    | num_cons lo x l hi : numbered lo x -> numbered_list (id x + 1) l hi -> numbered_list lo (x :: l) hi.
  Lemma assign_numbered : forall o lo, numbered lo (assign_post_order_ids lo o).
  Proof.
    induction o as [i c d l IH] using Op_ind'. intros lo. cbn [assign_post_order_ids].
    set (go := fix go (next : nat) (l : list Op) : list Op * nat := match l with [] => ([], next) | x :: r => let x := assign_post_order_ids next x in let (r, n) := go (id x + 1) r in (x :: r, n) end).
    assert (G : forall l, (forall x, In x l -> forall lo, numbered lo (assign_post_order_ids lo x)) -> forall next, numbered_list next (fst (go next l)) (snd (go next l))).
    { clear. induction l as [|x l IHl]; intros H next; [constructor|]. cbn [go]. specialize (IHl (fun y I => H y (or_intror I)) (id (assign_post_order_ids next x) + 1)).
      destruct (go (id (assign_post_order_ids next x) + 1) l) as [r n]. cbn [fst snd] in *. constructor; [|exact IHl]. apply H. now left. }
    specialize (G l IH lo). destruct (go lo l) as [l' next]. cbn [fst snd] in G. now constructor.
  Qed.
  Lemma numbered_bounds : forall o lo, numbered lo o -> lo <= id o /\ forall x, desc x o -> lo <= id x <= id o.
  Proof.
    induction o as [i c d l IH] using Op_ind'. intros lo N. inversion N; subst.
    assert (G : forall l lo, (forall x, In x l -> forall lo, numbered lo x -> lo <= id x /\ forall y, desc y x -> lo <= id y <= id x) -> numbered_list lo l i ->
      lo <= i /\ forall x, In x l -> forall y, desc y x -> lo <= id y < i).
    { clear. induction l as [|x l IHl]; intros lo H N; inversion N; subst.
      - split; [auto|]. intros x [].
      - destruct (H x (or_introl eq_refl) lo) as [L B]; [auto|]. destruct (IHl (id x + 1)) as [L' B']; [intros y I; apply H; now right|auto|]. split; [lia|].
        intros y [<-|I] z De; [specialize (B z De); lia|specialize (B' y I z De); lia]. }
    match goal with N' : numbered_list lo l i |- _ => destruct (G l lo IH N') as [L B] end. cbn [id]. split; [auto|]. intros x De. inversion De as [|? c0 ? De' I']; subst; [cbn; lia|]. specialize (B _ I' x De'). lia.
  Qed.

  Hypothesis no_wildcard : forall P, In P available -> pattern P <> Wildcard.
  Definition done (T : table) (x : Op) : Prop := sound_slot x (slot T (id x)) /\ complete_slot x (slot T (id x)).
  Lemma visit_done : forall o T, id o < length T -> slot T (id o) = [] ->
    (forall c x, In c (children o) -> desc x c -> id x < id o /\ done T x) ->
    let T' := visit o T in length T' = length T /\ (forall j, j <> id o -> slot T' j = slot T j) /\ done T' o.
  Proof.
    intros o T Lo Em Ch. cbv zeta. unfold PhysOpt.visit.
    assert (Ok : forall c x, In c (children o) -> desc x c -> ok o T x).
    { intros c x I De. destruct (Ch c x I De) as [L [So Co]]. split; [lia|]. split; [lia|]. auto. }
    assert (G : forall l T1, (forall P, In P l -> In P available) -> ext o T T1 ->
      ext o T1 (fold_left (fun T P => match_operator P o T) l T1) /\
      forall P ns ins ms cs ks, In P l -> fits (pattern P) o [] ns ins -> inputs P 0 ins ms cs ks ->
        exists e, In e (slot (fold_left (fun T P => match_operator P o T) l T1) (id o)) /\ condition e = delivers cempty is_empty P ns cs /\ le (ecost e) (fold_left add ks (cost P ns))).
    { induction l as [|P l IH]; intros T1 Av Ex; cbn [fold_left].
      - split; [apply ext_refl|]. intros P ns ins ms cs ks [].
      - assert (Pa : In P available) by (apply Av; now left).
        pose proof (match_operator_ext o T Lo P Ok (no_wildcard P Pa) Pa T1 Ex) as E1.
        destruct (IH (match_operator P o T1)) as [E2 Cm]; [intros Q I; apply Av; now right|eapply ext_trans; eauto|].
        split; [eapply ext_trans; eauto|]. intros Q ns ins ms cs ks [<-|I] F In_; [|eauto].
        destruct (match_operator_complete o T Lo P Ok (no_wildcard P Pa) Pa T1 ns ins ms cs ks Ex F In_) as (e & J & C & Le).
        destruct E2 as (_ & _ & B & _). destruct (B e J) as (e' & J' & C' & Le'). exists e'. split; [auto|]. split; [congruence|]. eapply le_trans; eauto. }
    destruct (G available T (fun P I => I) (ext_refl o T)) as [(Len & Oth & _ & So) Cm]. split; [exact Len|]. split; [exact Oth|]. split.
    - apply So. rewrite Em. intros e [].
    - intros m c k Cv. inversion Cv; subst. eapply Cm; eauto.
  Qed.
  Lemma visit_all_done : forall o lo T, numbered lo o -> id o < length T -> (forall j, lo <= j <= id o -> slot T j = []) ->
    let T' := visit_all o T in length T' = length T /\ (forall j, j < lo \/ id o < j -> slot T' j = slot T j) /\ forall x, desc x o -> done T' x.
  Proof.
    induction o as [i c d l IH] using Op_ind'. intros lo T N Lo Em. cbv zeta. cbn [PhysOpt.visit_all]. inversion N; subst. cbn [id] in *.
    assert (G : forall l, (forall x, In x l -> forall lo T, numbered lo x -> id x < length T -> (forall j, lo <= j <= id x -> slot T j = []) ->
        let T' := visit_all x T in length T' = length T /\ (forall j, j < lo \/ id x < j -> slot T' j = slot T j) /\ forall y, desc y x -> done T' y) ->
      forall lo T, numbered_list lo l i -> i < length T -> (forall j, lo <= j <= i -> slot T j = []) ->
        let T' := fold_left (fun T c => visit_all c T) l T in length T' = length T /\ (forall j, j < lo \/ i <= j -> slot T' j = slot T j) /\
          forall x, In x l -> forall y, desc y x -> id y < i /\ done T' y).
    { clear - ceqb_spec le_refl le_trans lt_le add_mono no_wildcard. induction l as [|x l IHl]; intros H lo T N Lo Em; cbv zeta; cbn [fold_left]; inversion N as [|? ? ? ? H4 H6]; subst.
      - split; [auto|]. split; [auto|]. intros x [].
      - pose proof (numbered_bounds x lo H4) as [Bl Bx].
        assert (Bi : id x + 1 <= i /\ (forall y, In y l -> forall z, desc z y -> id x + 1 <= id z)).
        { clear - H6. revert H6. generalize (id x + 1) as n. induction l as [|y l IHl]; intros n N; inversion N as [|? ? ? ? H1 H3]; subst; [split; [auto|intros y []]|].
          destruct (numbered_bounds y n H1) as [B1 B2]. destruct (IHl _ H3) as [B3 B4]. split; [lia|]. intros z [<-|I] w De; [specialize (B2 w De); lia|]. specialize (B4 z I w De). lia. }
        destruct Bi as [Bi Bd].
        destruct (H x (or_introl eq_refl) lo T H4) as (Len & Oth & Dn); [lia|intros j J; apply Em; lia|].
        destruct (IHl (fun y I => H y (or_intror I)) (id x + 1) (visit_all x T) H6) as (Len' & Oth' & Dn'); [lia|intros j J; rewrite Oth by lia; apply Em; lia|].
        split; [congruence|]. split; [intros j J; rewrite Oth' by lia; apply Oth; lia|].
        intros y [<-|I] z De; [|now apply (Dn' y)]. specialize (Bx z De). split; [lia|]. destruct (Dn z De) as [So Co]. unfold done. rewrite Oth' by lia. split; auto. }
    match goal with N' : numbered_list lo l i |- _ => destruct (G l IH lo T N' Lo Em) as (Len & Oth & Dn) end. destruct (numbered_bounds _ _ N) as [Bl _]. cbn [id] in Bl.
    destruct (visit_done (mkOp i c d l) (fold_left (fun T c => visit_all c T) l T)) as (Len' & Oth' & Dn'); cbn [id children].
    - rewrite Len. exact Lo.
    - rewrite Oth by lia. apply Em. lia.
    - intros x y I De. now apply (Dn x).
    - split; [congruence|]. cbn [id] in *. split; [intros j J; rewrite Oth' by lia; apply Oth; lia|].
      intros x De. inversion De as [|? c0 ? De' I']; subst; [exact Dn'|]. cbn [children] in *. destruct (Dn c0 I' x De') as [L [So Co]]. unfold done. rewrite Oth' by lia. split; auto.
  Qed.
  Lemma slot_repeat : forall n j, slot (repeat [] n : table) j = [].
  Proof. unfold slot. induction n; intros [|j]; cbn; auto. Qed.
  Lemma last_slot : forall (T : table) n, length T = n + 1 -> last T [] = slot T n.
  Proof.
    unfold slot. induction T as [|x T IH]; intros n L; [cbn in L; lia|]. cbn [length] in L. destruct T as [|y T]; cbn [length] in *.
    - assert (n = 0) by lia. now subst.
    - destruct n as [|n]; [lia|]. change (last (y :: T) [] = nth n (y :: T) []). apply IH. cbn [length]. lia.
  Qed.
  Notation cover := (cover implied_by ceqb cempty is_empty ltb add available).
  Theorem cover_done : forall plan, let T := cover plan in let o := assign_post_order_ids 0 plan in sound_slot o (last T []) /\ complete_slot o (last T []).
  Proof.
    intros plan. cbv zeta. unfold PhysOpt.cover. set (o := assign_post_order_ids 0 plan).
    destruct (visit_all_done o 0 (repeat [] (id o + 1))) as (Len & _ & Dn).
    - apply assign_numbered.
    - rewrite repeat_length. lia.
    - intros j _. apply slot_repeat.
    - rewrite (last_slot _ (id o)) by (rewrite Len; apply repeat_length). apply Dn. constructor.
  Qed.
End Proofs.
