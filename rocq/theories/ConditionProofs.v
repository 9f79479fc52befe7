(** * Sort orders *)
From Coq Require Import Arith List Bool Sorted Permutation Lia.
From Verif Require Import Condition ConditionSpec.
Import ListNotations.

(** ** The maps *)
Lemma order_eqb_eq : forall a b, order_eqb a b = true <-> a = b.
Proof. intros [] []; cbn; split; congruence. Qed.
Lemma find_none : forall os a i, find a os i = None <-> ~ In a (keys_of os).
Proof.
  induction os as [|[b o] os IH]; intros a i; cbn; [tauto|]. destruct (a =? b) eqn:E.
  - apply Nat.eqb_eq in E. split; [discriminate|]. intros H. destruct H. auto.
  - apply Nat.eqb_neq in E. rewrite IH. split; [intros H [F|F]; auto|tauto].
Qed.
Lemma find_some : forall os a i j o, find a os i = Some (j, o) -> i <= j /\ nth_error os (j - i) = Some (a, o).
Proof.
  induction os as [|[b o'] os IH]; intros a i j o; cbn; [discriminate|]. destruct (a =? b) eqn:E.
  - apply Nat.eqb_eq in E. intros H. injection H as <- <-. rewrite Nat.sub_diag. split; [auto|]. cbn. congruence.
  - intros H. apply IH in H. destruct H as [L N]. split; [lia|]. replace (j - i) with (S (j - S i)) by lia. exact N.
Qed.
Lemma find_at : forall c a o u i, ~ In a (keys_of c) -> find a (c ++ (a, o) :: u) i = Some (i + length c, o).
Proof.
  induction c as [|[b p] c IH]; intros a o u i N; cbn.
  - rewrite Nat.eqb_refl, Nat.add_0_r. reflexivity.
  - destruct (a =? b) eqn:E; [apply Nat.eqb_eq in E; destruct N; cbn; auto|]. rewrite IH; [f_equal; f_equal; lia|]. intros I. apply N. now right.
Qed.
Lemma has_iff : forall a os, has a os = true <-> In a (keys_of os).
Proof.
  intros a os. unfold has. destruct (find a os 0) as [[j o]|] eqn:E.
  - apply find_some in E. destruct E as [_ E]. apply nth_error_In in E. split; [intros _; now apply (in_map fst) in E|auto].
  - apply find_none in E. split; [discriminate|contradiction].
Qed.
Lemma has_false : forall a os, has a os = false <-> ~ In a (keys_of os).
Proof. intros a os. rewrite <- has_iff. destruct (has a os); split; congruence. Qed.
Lemma orders_eqb_eq : forall a b, orders_eqb a b = true <-> a = b.
Proof.
  induction a as [|[x o] a IH]; intros [|[y p] b]; cbn; try (split; congruence). rewrite !andb_true_iff, Nat.eqb_eq, order_eqb_eq, IH. split; [intros [[-> ->] ->]; auto|]. intros H. injection H as -> -> ->. auto.
Qed.

(** ** [implied_by] on orders that are defined: prefixes *)
Lemma implied_prefix : forall this other c, NoDup (keys_of (c ++ other)) -> NoDup (keys_of (c ++ this)) -> defined this -> defined other ->
  (implied_from (length c) this (c ++ other) = true <-> exists rest, other = this ++ rest).
Proof.
  induction this as [|[a o] this IH]; intros other c No Nt Dt Do.
  - cbn. split; [eauto|auto].
  - cbn [implied_from]. destruct (find a (c ++ other) 0) as [[j o']|] eqn:F.
    + assert (Nc : ~ In a (keys_of c)).
      { intros I. unfold keys_of in Nt. rewrite map_app in Nt. cbn in Nt. apply NoDup_remove_2 in Nt. apply Nt. apply in_or_app. now left. }
      destruct other as [|[b p] other].
      * exfalso. rewrite app_nil_r in F. apply find_some in F. destruct F as [_ F]. apply nth_error_In in F. apply Nc. now apply (in_map fst) in F.
      * assert (U : is_undef o' = false /\ is_undef o = false).
        { apply find_some in F. destruct F as [_ F]. apply nth_error_In in F. assert (O' : o' <> O_UNDEF).
          { apply in_app_or in F. destruct F as [F|F]; [exfalso; apply Nc; now apply (in_map fst) in F|exact (Do a o' F)]. }
          assert (O : o <> O_UNDEF) by (apply (Dt a o); now left). unfold is_undef. split; [destruct o'|destruct o]; cbn; congruence. }
        destruct U as [U1 U2]. rewrite U1, U2. cbn [orb]. rewrite !andb_true_iff, Nat.eqb_eq, order_eqb_eq. split.
        -- intros ((<- & ->) & H). apply find_some in F. destruct F as [_ F]. rewrite Nat.sub_0_r in F. rewrite (nth_error_app2 c ((b, p) :: other) (le_n (length c))), Nat.sub_diag in F. cbn in F. injection F as -> ->.
           replace (c ++ (a, o') :: other) with ((c ++ [(a, o')]) ++ other) in H by now rewrite <- app_assoc. replace (S (length c)) with (length (c ++ [(a, o')])) in H by (rewrite app_length; cbn; lia).
           apply IH in H; [destruct H as (rest & ->); exists rest; reflexivity| | | |]; [now rewrite <- app_assoc|now rewrite <- app_assoc| |]; intros x y I; [apply (Dt x y)|apply (Do x y)]; now right.
        -- intros (rest & E). cbn in E. injection E as -> -> ->. rewrite find_at in F by exact Nc. cbn in F. injection F as <- <-. split; [auto|].
           replace (c ++ (a, o) :: this ++ rest) with ((c ++ [(a, o)]) ++ this ++ rest) by now rewrite <- app_assoc. replace (S (length c)) with (length (c ++ [(a, o)])) by (rewrite app_length; cbn; lia).
           apply IH; [now rewrite <- app_assoc|now rewrite <- app_assoc| | |eauto]; intros x y I; [apply (Dt x y)|apply (Do x y)]; now right.
    + apply find_none in F. split; [discriminate|]. intros (rest & E). destruct F. subst other. unfold keys_of. rewrite map_app. apply in_or_app. right. now left.
Qed.

  (** ** Building orders *)
  Lemma keys_app : forall a b, keys_of (a ++ b) = keys_of a ++ keys_of b.
  Proof. intros. apply map_app. Qed.
  Lemma NoDup_snoc : forall (l : list nat) x, NoDup l -> ~ In x l -> NoDup (l ++ [x]).
  Proof. intros l x N I. apply (Permutation.Permutation_NoDup (l := x :: l)); [apply Permutation.Permutation_cons_append|]. now constructor. Qed.
  Lemma add_new_NoDup : forall os p, NoDup (keys_of os) -> NoDup (keys_of (add_new os p)).
  Proof. intros os [a o] N. unfold add_new. cbn [fst]. destruct (has a os) eqn:E; [auto|]. apply has_false in E. rewrite keys_app. cbn. now apply NoDup_snoc. Qed.
  Lemma fold_add_NoDup : forall l os, NoDup (keys_of os) -> NoDup (keys_of (fold_left add_new l os)).
  Proof. induction l as [|p l IH]; intros os N; cbn; [auto|]. apply IH. now apply add_new_NoDup. Qed.
  Lemma fold_add_in : forall l os a o, In (a, o) (fold_left add_new l os) -> In (a, o) os \/ In (a, o) l.
  Proof.
    induction l as [|p l IH]; intros os a o I; cbn in I; [auto|]. apply IH in I. destruct I as [I|I]; [|right; now right]. unfold add_new in I. destruct (has _ os); [auto|].
    apply in_app_or in I. destruct I as [I|[<-|[]]]; [auto|]. right. now left.
  Qed.
  Lemma fold_add_keys : forall l os k, In k (keys_of (fold_left add_new l os)) <-> In k (keys_of os) \/ In k (keys_of l).
  Proof.
    induction l as [|[a o] l IH]; intros os k; cbn; [tauto|]. rewrite IH. unfold add_new. cbn [fst]. destruct (has a os) eqn:E.
    - apply has_iff in E. split; [tauto|]. intros [H|[<-|H]]; auto.
    - rewrite keys_app, in_app_iff. cbn. tauto.
  Qed.
(** ** Rows *)
Section Rows.
  Context {V : Type} (leb : V -> V -> bool) (Lin : linear leb).
  Notation before := (before leb).
  Notation fulfils := (fulfils leb).
  Lemma leb_refl : forall a, leb a a = true.
  Proof. intros a. destruct Lin as (T & _). destruct (T a a); auto. Qed.
  Lemma value_dec : forall a b : V, a = b \/ a <> b.
  Proof.
    intros a b. destruct Lin as (_ & An & _). destruct (leb a b) eqn:A; [destruct (leb b a) eqn:B; [left; auto|]|]; right; intros ->; rewrite leb_refl in *; discriminate.
  Qed.
  Lemma before_same : forall os r s, same (keys_of os) r s -> before os r s.
  Proof. induction os as [|[a o] os IH]; intros r s S; cbn; [auto|]. right. split; [apply S; now left|]. apply IH. intros k I. apply S. now right. Qed.
  Lemma before_app : forall p q r s, before (p ++ q) r s <-> before p r s /\ (same (keys_of p) r s -> before q r s).
  Proof.
    induction p as [|[a o] p IH]; intros q r s; cbn.
    - split; [intros B; split; auto|]. intros [_ B]. apply B. intros k [].
    - rewrite IH. split.
      + intros [[N B]|[E [B Q]]]; [split; [auto|]; intros S; destruct N; apply S; now left|]. split; [auto|]. intros S. apply Q. intros k I. apply S. now right.
      + intros [[[N B]|[E B]] Q]; [auto|]. right. split; [auto|]. split; [auto|]. intros S. apply Q. intros k [<-|I]; auto.
  Qed.
  Lemma sorted_impl : forall (P Q : row V -> row V -> Prop) rows, (forall r s, In r rows -> In s rows -> P r s -> Q r s) -> StronglySorted P rows -> StronglySorted Q rows.
  Proof.
    intros P Q rows. induction rows as [|r rows IH]; intros H S; [constructor|]. inversion S as [|? ? S' F]; subst. constructor.
    - apply IH; [intros x y I J; apply H; now right|auto].
    - apply Forall_forall. intros s I. rewrite Forall_forall in F. apply H; [now left|now right|auto].
  Qed.
  Lemma fulfils_prefix : forall p q rows, fulfils (p ++ q) rows -> fulfils p rows.
  Proof.
    intros p q rows [C S]. split; [intros a I; apply C; apply in_or_app; now left|]. refine (sorted_impl _ _ _ _ S). intros r s _ _ B. now apply before_app in B.
  Qed.
  Lemma before_antisym : forall p r t, (forall a, In (a, O_UNDEF) p -> r a = t a) -> before p r t -> before p t r -> same (keys_of p) r t.
  Proof.
    destruct Lin as (_ & An & _). induction p as [|[a o] p IH]; intros r t U B B' k I; [destruct I|]. cbn in B, B'.
    assert (E : r a = t a).
    { destruct (value_dec (r a) (t a)) as [E|N]; [auto|]. destruct B as [[_ B]|[E _]]; [|auto]. destruct B' as [[_ B']|[E _]]; [|auto]. destruct o; [now apply An|now apply An|]. apply U. now left. }
    destruct B as [[N _]|[_ B]]; [contradiction|]. destruct B' as [[N _]|[_ B']]; [congruence|]. destruct I as [<-|I]; [exact E|]. apply (IH r t); auto. intros b J. apply U. now right.
  Qed.
  Lemma before_congr : forall p r s r' s', same (keys_of p) r r' -> same (keys_of p) s s' -> before p r s -> before p r' s'.
  Proof.
    induction p as [|[a o] p IH]; intros r s r' s' R S B; cbn in *; [auto|]. rewrite <- (R a), <- (S a) by now left. destruct B as [B|[E B]]; [auto|]. right. split; [auto|].
    apply (IH r s); auto; intros k I; [apply R|apply S]; now right.
  Qed.
  Lemma sorted_app_inv : forall (P : row V -> row V -> Prop) l r l2 s l3, StronglySorted P (l ++ r :: l2 ++ s :: l3) -> forall t, In t l2 -> P r t /\ P t s.
  Proof.
    intros P l r l2 s l3. induction l as [|x l IH]; intros S t I; cbn in S; inversion S as [|? ? S' F]; subst; [|now apply IH]. split; [rewrite Forall_forall in F; apply F; apply in_or_app; now left|].
    clear S F. induction l2 as [|y l2 IH2]; [destruct I|]. cbn in S'. inversion S' as [|? ? S2 F2]; subst. destruct I as [<-|I]; [|now apply IH2]. rewrite Forall_forall in F2. apply F2. apply in_or_app. right. now left.
  Qed.
  Lemma grouped_prefix : forall p q rows keys, fulfils (p ++ q) rows -> (forall k, In k keys <-> In k (keys_of p)) -> grouped keys rows.
  Proof.
    intros p q rows keys F K l1 r l2 s l3 E Sm t I. apply fulfils_prefix in F. destruct F as [C S]. subst rows. destruct (sorted_app_inv _ _ _ _ _ _ S t I) as [B1 B2].
    assert (Sp : same (keys_of p) r s) by (intros k J; apply Sm; now apply K).
    assert (T : same (keys_of p) r t).
    { apply before_antisym; [|exact B1|].
      - intros a J. apply (C a J); apply in_or_app; right; [now left|right; apply in_or_app; now left].
      - refine (before_congr p t s t r _ _ B2); [intros k _; reflexivity|]. intros k J. symmetry. now apply Sp. }
    intros k J. apply T. now apply K.
  Qed.

  (** Later occurrences of a key do not matter. *)
  Lemma before_fold : forall l os r s, (before (fold_left add_new l os) r s <-> before (os ++ l) r s).
  Proof.
    induction l as [|[a o] l IH]; intros os r s; cbn [fold_left]; [now rewrite app_nil_r|]. rewrite IH. unfold add_new. cbn [fst]. destruct (has a os) eqn:E.
    - apply has_iff in E. rewrite !before_app. split; intros [B H]; (split; [auto|]); intros S; specialize (H S); [right; split; [apply S; auto|auto]|]. cbn in H. destruct H as [[N _]|[_ H]]; [destruct N; apply S; auto|auto].
    - rewrite <- app_assoc. reflexivity.
  Qed.
  (** ** Two rows that tell the orders apart *)
  Variables lo hi : V.
  Hypothesis Lt : leb lo hi = true /\ lo <> hi.
  Definition low (o : Order) : V := match o with O_DESC => hi | _ => lo end.
  Definition high (o : Order) : V := match o with O_DESC => lo | _ => hi end.
  Lemma low_high : forall o, low o <> high o.
  Proof. destruct Lt as [_ N]. intros []; cbn; congruence. Qed.
  Lemma hi_lo : leb hi lo = false.
  Proof. destruct Lin as (_ & An & _), Lt as [L N]. destruct (leb hi lo) eqn:E; [|auto]. destruct N. auto. Qed.
  Lemma up : forall o, o <> O_UNDEF -> match o with O_ASC => leb (low o) (high o) = true | O_DESC => leb (high o) (low o) = true | O_UNDEF => True end.
  Proof. intros [] N; cbn; [apply Lt|apply Lt|auto]. Qed.
  Lemma down : forall o, o <> O_UNDEF -> ~ match o with O_ASC => leb (high o) (low o) = true | O_DESC => leb (low o) (high o) = true | O_UNDEF => True end.
  Proof. intros [] N; cbn; rewrite ?hi_lo; congruence. Qed.
  Lemma witness : forall this other, NoDup (keys_of this) -> NoDup (keys_of other) -> defined this -> defined other -> ~ (exists rest, other = this ++ rest) ->
    exists r s, (forall k, ~ In k (keys_of this) -> ~ In k (keys_of other) -> r k = s k) /\ before other r s /\ ~ before this r s.
  Proof.
    induction this as [|[a o] this IH]; intros other Nt No Dt Do NP; [destruct NP; exists other; reflexivity|].
    assert (Oa : o <> O_UNDEF) by (apply (Dt a o); now left).
    assert (One : forall (other : orders), (match other with [] => True | (b, p) :: _ => b <> a /\ p <> O_UNDEF end) ->
      exists r s, (forall k, ~ In k (keys_of ((a, o) :: this)) -> ~ In k (keys_of other) -> r k = s k) /\ before other r s /\ ~ before ((a, o) :: this) r s).
    { intros [|[b p] u] H.
      - exists (fun k => if k =? a then high o else lo), (fun k => if k =? a then low o else lo). split; [|split; [exact I|]].
        + intros k N _. destruct (k =? a) eqn:E; [|auto]. apply Nat.eqb_eq in E. destruct N. now left.
        + cbn. rewrite Nat.eqb_refl. intros [[_ B]|[E _]]; [exact (down o Oa B)|]. apply (low_high o). auto.
      - destruct H as [Nab Op]. exists (fun k => if k =? a then high o else if k =? b then low p else lo), (fun k => if k =? a then low o else if k =? b then high p else lo).
        assert (Eb : b =? a = false) by now apply Nat.eqb_neq. split; [|split].
        + intros k N N'. destruct (k =? a) eqn:E; [apply Nat.eqb_eq in E; destruct N; now left|]. destruct (k =? b) eqn:E'; [apply Nat.eqb_eq in E'; destruct N'; now left|auto].
        + cbn. rewrite Eb, Nat.eqb_refl. left. split; [apply low_high|exact (up p Op)].
        + cbn. rewrite Nat.eqb_refl. intros [[_ B]|[E _]]; [exact (down o Oa B)|]. apply (low_high o). auto. }
    destruct other as [|[b p] other]; [now apply One|]. assert (Op : p <> O_UNDEF) by (apply (Do b p); now left). destruct (Nat.eq_dec b a) as [->|Nab]; [|apply One; auto].
    destruct (order_eqb o p) eqn:E.
    - apply order_eqb_eq in E. subst p. cbn in Nt, No. inversion Nt as [|? ? Na Nt']; subst. inversion No as [|? ? Na' No']; subst. destruct (IH other) as (r & s & C & B & NB); auto.
      + intros x y I. apply (Dt x y). now right.
      + intros x y I. apply (Do x y). now right.
      + intros (rest & ->). apply NP. exists rest. reflexivity.
      + exists r, s. split; [intros k K K'; apply C; intros I; [apply K|apply K']; now right|]. split; [cbn; right; split; [now apply C|auto]|]. cbn. intros [[N _]|[_ B']]; [|auto]. apply N. now apply C.
    - exists (fun k => if k =? a then low p else lo), (fun k => if k =? a then high p else lo). split; [|split].
      + intros k N _. destruct (k =? a) eqn:E'; [|auto]. apply Nat.eqb_eq in E'. destruct N. now left.
      + cbn. rewrite Nat.eqb_refl. left. split; [apply low_high|exact (up p Op)].
      + cbn. rewrite Nat.eqb_refl. intros [[_ B]|[E' _]]; [|now apply (low_high p)]. destruct o, p; cbn in *; try congruence; rewrite hi_lo in B; discriminate.
  Qed.

End Rows.
