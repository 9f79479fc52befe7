(** * Theorems about conditions and sort orders *)
From Coq Require Import Arith List Bool Sorted ZArith Lia.
From Verif Require Import Condition ConditionSpec ConditionProofs.
Import ListNotations.
Local Open Scope nat_scope.

(** ** [implied_by] *)
(** On orders without O_UNDEF: [this] is a prefix of [other] ... *)
Theorem C59_implied_prefix : forall this other, NoDup (keys_of this) -> NoDup (keys_of other) -> defined this -> defined other ->
  (sortedness_implied_by this other = true <-> exists rest, other = this ++ rest).
Proof. intros this other Nt No Dt Do. exact (implied_prefix this other [] No Nt Dt Do). Qed.
(** ... hence exactly what is implied: every list of rows that fulfils [other] fulfils [this]. *)
Theorem C59_implied_exact : forall V (leb : V -> V -> bool), linear leb -> (exists a b : V, a <> b) ->
  forall this other, NoDup (keys_of this) -> NoDup (keys_of other) -> defined this -> defined other ->
  (sortedness_implied_by this other = true <-> forall rows, fulfils leb other rows -> fulfils leb this rows).
Proof.
  intros V leb Lin (a & b & Nab) this other Nt No Dt Do. rewrite (C59_implied_prefix this other Nt No Dt Do). split.
  - intros (rest & ->) rows F. exact (fulfils_prefix leb _ _ _ F).
  - intros H. assert (L : exists lo hi, leb lo hi = true /\ lo <> hi) by (destruct Lin as (T & _); destruct (T a b); eauto 6). destruct L as (lo & hi & L).
    assert (Dec : (exists rest, other = this ++ rest) \/ ~ exists rest, other = this ++ rest).
    { destruct (sortedness_implied_by this other) eqn:E; [left; now apply (C59_implied_prefix this other Nt No Dt Do)|].
      right. intros X. apply (C59_implied_prefix this other Nt No Dt Do) in X. congruence. }
    destruct Dec as [P|NP]; [exact P|]. exfalso. destruct (witness leb Lin lo hi L this other Nt No Dt Do NP) as (r & s & _ & B & NB). apply NB.
    destruct (H [r; s]) as [_ S]; [|inversion S as [|? ? _ F]; subst; now inversion F]. split; [intros x I; destruct (Do x O_UNDEF I eq_refl)|]. repeat constructor; auto.
Qed.
Theorem C59_implied_order : forall a b c, NoDup (keys_of a) -> NoDup (keys_of b) -> NoDup (keys_of c) -> defined a -> defined b -> defined c ->
  sortedness_implied_by a a = true /\
  (sortedness_implied_by a b = true -> sortedness_implied_by b c = true -> sortedness_implied_by a c = true) /\
  (sortedness_implied_by a b = true -> sortedness_implied_by b a = true -> a = b).
Proof.
  intros a b c Na Nb Nc Da Db Dc. rewrite !C59_implied_prefix by auto. split; [exists []; now rewrite app_nil_r|]. split.
  - intros (x & ->) (y & ->). exists (x ++ y). now rewrite app_assoc.
  - intros (x & E) (y & E'). subst b. rewrite <- app_assoc in E'. rewrite <- (app_nil_r a) in E' at 1. apply app_inv_head in E'. symmetry in E'. apply app_eq_nil in E'. destruct E' as [-> _]. now rewrite app_nil_r.
Qed.
(** With O_UNDEF none of this holds.  Sorted by x, then by y, u constant: this is taken to be sorted by u, then y. *)
Theorem C59_refuted_undef : sortedness_implied_by [(3, O_ASC); (2, O_ASC)] [(1, O_ASC); (2, O_ASC); (3, O_UNDEF)] = true /\
  exists rows : list (row Z), fulfils Z.leb [(1, O_ASC); (2, O_ASC); (3, O_UNDEF)] rows /\ ~ fulfils Z.leb [(3, O_ASC); (2, O_ASC)] rows.
Proof.
  split; [reflexivity|]. set (r := fun k => match k with 1 => 0%Z | 2 => 1%Z | _ => 0%Z end). set (s := fun k => match k with 1 => 1%Z | 2 => 0%Z | _ => 0%Z end). exists [r; s]. split.
  - split.
    + intros a [E|[E|[E|[]]]]; try discriminate. injection E as <-. intros x y [<-|[<-|[]]] [<-|[<-|[]]]; reflexivity.
    + repeat constructor; cbn; discriminate.
  - intros [_ S]. inversion S as [|? ? _ F]; subst. inversion F as [|? ? B _]; subst. cbn in B. destruct B as [[N _]|[_ [[_ B]|[B _]]]]; [now apply N|discriminate|discriminate].
Qed.
Theorem C59_refuted_transitive : sortedness_implied_by [(1, O_ASC)] [(1, O_UNDEF)] = true /\ sortedness_implied_by [(1, O_UNDEF)] [(1, O_DESC)] = true /\ sortedness_implied_by [(1, O_ASC)] [(1, O_DESC)] = false.
Proof. repeat split. Qed.

(** ** Sorting *)
(** Quicksort promises what it does. *)
Theorem C59_quicksort : forall V (leb : V -> V -> bool), linear leb -> forall order_by rows, sorted_by leb (requested order_by) rows -> fulfils leb (sorting_orders order_by) rows.
Proof.
  intros V leb Lin order_by rows S. split.
  - intros a I. unfold sorting_orders in I. apply fold_add_in in I. destruct I as [[]|I]. apply in_map_iff in I. destruct I as ([x []] & E & _); discriminate.
  - refine (sorted_impl _ _ _ _ S). intros r s _ _ B. apply before_fold. exact B.
Qed.
(** [NoOpSorting] drops a sorting if and only if the promised order implies it. *)
Theorem C59_noop_sorting : forall V (leb : V -> V -> bool), linear leb -> (exists a b : V, a <> b) ->
  forall order_by other, NoDup (keys_of other) -> defined other ->
  (sortedness_implied_by (sorting_orders order_by) other = true <-> forall rows, fulfils leb other rows -> sorted_by leb (requested order_by) rows).
Proof.
  intros V leb Lin Two order_by other No Do.
  assert (Ds : defined (sorting_orders order_by)).
  { intros a o I. unfold sorting_orders in I. apply fold_add_in in I. destruct I as [[]|I]. apply in_map_iff in I. destruct I as ([x []] & E & _); injection E as <- <-; discriminate. }
  rewrite (C59_implied_exact V leb Lin Two); [|apply fold_add_NoDup; constructor|auto|auto|auto]. split.
  - intros H rows F. destruct (H rows F) as [_ S]. refine (sorted_impl _ _ _ _ S). intros r s _ _ B. apply (before_fold leb (requested order_by) []). exact B.
  - intros H rows F. apply C59_quicksort; auto.
Qed.
(** A result of one row fulfils and is sorted by everything. *)
Theorem C59_aggregation : forall V (leb : V -> V -> bool) os (r : row V), fulfils leb os [r] /\ sorted_by leb os [r].
Proof.
  intros V leb os r. assert (S : sorted_by leb os [r]) by repeat constructor. split; [split; [|exact S]|exact S]. intros a _ x y [<-|[]] [<-|[]]. reflexivity.
Qed.

(** ** Filters, limits, joins keep the order *)
Lemma sorted_filter : forall A (P : A -> A -> Prop) f l, StronglySorted P l -> StronglySorted P (filter f l).
Proof.
  induction l as [|x l IH]; intros S; cbn; [constructor|]. inversion S as [|? ? S' F]; subst. destruct (f x); [|auto]. constructor; [auto|]. apply Forall_forall. intros y I. apply filter_In in I. rewrite Forall_forall in F. apply F. tauto.
Qed.
Theorem C59_filter : forall V (leb : V -> V -> bool) os rows (f : row V -> bool), fulfils leb os rows -> fulfils leb os (filter f rows).
Proof. intros V leb os rows f [C S]. split; [|now apply sorted_filter]. intros a I r s R R'. apply filter_In in R, R'. apply (C a I); tauto. Qed.
Lemma sorted_app_l : forall A (P : A -> A -> Prop) l l', StronglySorted P (l ++ l') -> StronglySorted P l /\ StronglySorted P l'.
Proof.
  induction l as [|x l IH]; intros l' S; cbn in *; [split; [constructor|auto]|]. inversion S as [|? ? S' F]; subst. destruct (IH l' S'). split; [|auto]. constructor; [auto|]. rewrite Forall_forall in *. intros y I. apply F. apply in_or_app. now left.
Qed.
Theorem C59_limit : forall V (leb : V -> V -> bool) os (rows : list (row V)) limit offset, fulfils leb os rows -> fulfils leb os (firstn limit (skipn offset rows)).
Proof.
  intros V leb os rows limit offset [C S]. rewrite <- (firstn_skipn offset rows) in S. apply sorted_app_l in S. destruct S as [_ S]. rewrite <- (firstn_skipn limit (skipn offset rows)) in S. apply sorted_app_l in S. destruct S as [S _].
  split; [|exact S]. assert (I1 : forall n (l : list (row V)) x, In x (firstn n l) -> In x l) by (intros n l x I; rewrite <- (firstn_skipn n l); apply in_or_app; now left).
  assert (I2 : forall n (l : list (row V)) x, In x (skipn n l) -> In x l) by (intros n l x I; rewrite <- (firstn_skipn n l); apply in_or_app; now right). intros a I r s R R'. apply (C a I); eauto.
Qed.
Lemma sorted_flat_map : forall A B (P : A -> A -> Prop) (Q : B -> B -> Prop) (f : A -> list B) l,
  (forall x, In x l -> StronglySorted Q (f x)) -> (forall x y u v, In x l -> In y l -> P x y -> In u (f x) -> In v (f y) -> Q u v) -> StronglySorted P l -> StronglySorted Q (flat_map f l).
Proof.
  intros A B P Q f. induction l as [|x l IH]; intros H1 H2 S; cbn; [constructor|]. inversion S as [|? ? S' F]; subst.
  assert (Sf : StronglySorted Q (flat_map f l)) by (apply IH; auto; [intros y I; apply H1; now right|intros y z u v I J; apply H2; now right]).
  specialize (H1 x (or_introl eq_refl)). assert (H3 : forall u v, In u (f x) -> In v (flat_map f l) -> Q u v).
  { intros u v U W. apply in_flat_map in W. destruct W as (y & Y & W). rewrite Forall_forall in F. eapply (H2 x y); eauto; [now left|now right]. }
  clear H2 IH S. induction (f x) as [|u us IHu]; cbn; [exact Sf|]. inversion H1 as [|? ? S1 F1]; subst. constructor; [apply IHu; auto; intros a b I J; apply H3; [now right|auto]|].
  apply Forall_forall. intros v I. apply in_app_or in I. rewrite Forall_forall in F1. destruct I as [I|I]; [auto|]. apply H3; [now left|auto].
Qed.
(** Nested-loops joins and simple hash joins: each row of the right input yields rows with its attributes. *)
Theorem C59_join : forall V (leb : V -> V -> bool) os (rows : list (row V)) (matches : row V -> list (row V)),
  (forall r s, In r rows -> In s (matches r) -> same (keys_of os) r s) -> fulfils leb os rows -> fulfils leb os (flat_map matches rows).
Proof.
  intros V leb os rows matches M [C S]. split.
  - intros a I r s R R'. apply in_flat_map in R, R'. destruct R as (x & X & R), R' as (y & Y & R'). assert (K : In a (keys_of os)) by now apply (in_map fst) in I.
    rewrite <- (M x r X R a K), <- (M y s Y R' a K). now apply (C a I).
  - refine (sorted_flat_map _ _ _ _ _ _ _ _ S).
    + intros x X. assert (G : forall u v, In u (matches x) -> In v (matches x) -> before leb os u v) by (intros u v U W; apply before_same; intros k K; rewrite <- (M x u X U k K); exact (M x v X W k K)).
      clear - G. induction (matches x) as [|u us IH]; constructor; [apply IH; intros a b I J; apply G; now right|]. apply Forall_forall. intros v I. apply G; [now left|now right].
    + intros x y u v X Y B U W. refine (before_congr leb os x y u v _ _ B); [now apply M|now apply M].
Qed.
Lemma all_equal : forall V (leb : V -> V -> bool) os A (f : A -> row V) ls, (forall a b, In a ls -> In b ls -> a = b) -> StronglySorted (before leb os) (map f ls).
Proof.
  intros V leb os A f ls. induction ls as [|l ls IH]; intros One; cbn [map]; constructor; [apply IH; intros a b I J; apply One; now right|]. apply Forall_forall. intros x I. apply in_map_iff in I.
  destruct I as (l' & <- & I). rewrite (One l l'); [|now left|now right]. apply before_same. intros k _. reflexivity.
Qed.
(** The sort-merge join: the rows of the right input in order, each with the rows of the left input with the same key, which is unique.
    The result is sorted by the left order, then by the right one (without sorting the right input: by the right order, then by left keys). *)
Theorem C59_merge_join : forall V (leb : V -> V -> bool), linear leb -> forall ol or kp kc (left_rows right_rows : list (row V)) (eqb : V -> V -> bool) (joined : row V -> row V -> row V),
  (forall a b, eqb a b = true <-> a = b) -> (forall l l', In l left_rows -> In l' left_rows -> l kp = l' kp -> l = l') ->
  (forall l r k, In k (kp :: keys_of ol) -> joined l r k = l k) -> (forall l r k, In k (kc :: keys_of or) -> joined l r k = r k) ->
  fulfils leb ((kp, O_ASC) :: ol) left_rows -> fulfils leb ((kc, O_ASC) :: or) right_rows ->
  let result := flat_map (fun r => map (fun l => joined l r) (filter (fun l => eqb (l kp) (r kc)) left_rows)) right_rows in
  fulfils leb (((kp, O_ASC) :: ol) ++ (kc, O_ASC) :: or) result /\
  (forall os, defined os -> (forall l r k, In k (keys_of os) -> joined l r k = l k) -> fulfils leb (((kc, O_ASC) :: or) ++ os) result).
Proof.
  intros V leb Lin ol or kp kc L R eqb joined Eq Un Jl Jr [Cl Sl] [Cr Sr] result.
  assert (In_ : forall x, In x result -> exists l r, In l L /\ In r R /\ l kp = r kc /\ x = joined l r).
  { intros x I. apply in_flat_map in I. destruct I as (r & Ir & I). apply in_map_iff in I. destruct I as (l & <- & I). apply filter_In in I. destruct I as [I E]. apply Eq in E. eauto 6. }
  assert (One : forall r l l', In l (filter (fun l => eqb (l kp) (r kc)) L) -> In l' (filter (fun l => eqb (l kp) (r kc)) L) -> l = l').
  { intros r l l' I I'. apply filter_In in I, I'. destruct I as [I E], I' as [I' E']. apply Eq in E, E'. apply Un; [auto|auto|congruence]. }
  assert (Self : forall os r, In r R -> StronglySorted (before leb os) (map (fun l => joined l r) (filter (fun l => eqb (l kp) (r kc)) L))).
  { intros os r Ir. apply all_equal. exact (One r). }
  assert (Right : forall l r l' r', before leb ((kc, O_ASC) :: or) r r' -> before leb ((kc, O_ASC) :: or) (joined l r) (joined l' r')).
  { intros l r l' r' B. refine (before_congr leb _ r r' _ _ _ _ B); intros k K; symmetry; now apply Jr. }
  split.
  - split.
    + intros a I x y X Y. apply In_ in X, Y. destruct X as (l & r & Il & Ir & E & ->), Y as (l' & r' & Il' & Ir' & E' & ->). apply in_app_or in I. destruct I as [I|I].
      * assert (K : In a (keys_of ((kp, O_ASC) :: ol))) by now apply (in_map fst) in I. rewrite !Jl by exact K. now apply (Cl a I).
      * assert (K : In a (keys_of ((kc, O_ASC) :: or))) by now apply (in_map fst) in I. rewrite !Jr by exact K. now apply (Cr a I).
    + refine (sorted_flat_map _ _ _ _ _ _ _ _ Sr); [intros r Ir; now apply Self|]. intros r r' u v Ir Ir' B U W.
      apply in_map_iff in U, W. destruct U as (l & <- & U), W as (l' & <- & W). apply filter_In in U, W. destruct U as [Il E], W as [Il' E']. apply Eq in E, E'.
      assert (Kp : forall l r, joined l r kp = l kp) by (intros; apply Jl; now left).
      cbn [app before]. cbn [before] in B. rewrite !Kp. destruct (value_dec leb Lin (l kp) (l' kp)) as [Ek|Nk].
      * right. split; [auto|]. assert (l = l') as <- by now apply Un. apply before_app. split; [apply before_same; intros k K; rewrite !Jl by (now right); auto|]. intros _. now apply (Right l r l r').
      * left. split; [auto|]. rewrite E, E'. destruct B as [[_ B]|[Ek _]]; [auto|]. destruct Nk. congruence.
  - intros os Ds Jo. split.
    + intros a I x y X Y. apply In_ in X, Y. destruct X as (l & r & Il & Ir & E & ->), Y as (l' & r' & Il' & Ir' & E' & ->). apply in_app_or in I. destruct I as [I|I]; [|destruct (Ds a O_UNDEF I eq_refl)].
      assert (K : In a (keys_of ((kc, O_ASC) :: or))) by now apply (in_map fst) in I. rewrite !Jr by exact K. now apply (Cr a I).
    + refine (sorted_flat_map _ _ _ _ _ _ _ _ Sr); [intros r Ir; now apply Self|]. intros r r' u v Ir Ir' B U W.
      apply in_map_iff in U, W. destruct U as (l & <- & U), W as (l' & <- & W). apply filter_In in U, W. destruct U as [Il E], W as [Il' E']. apply Eq in E, E'.
      apply before_app. split; [now apply Right|]. intros Sm. assert (Ek : r kc = r' kc) by (rewrite <- (Jr l r kc), <- (Jr l' r' kc) by (now left); apply Sm; now left).
      assert (l = l') as <- by (apply Un; [auto|auto|congruence]). apply before_same. intros k K. now rewrite !Jo by exact K.
Qed.

(** ** Grouping *)
(** The grouping by sorted input is admitted whenever the keys are among the sorted attributes ... *)
Theorem C59_grouping_required : forall keys other, sortedness_implied_by (grouping_required keys) other = true <-> forall k, In k keys -> In k (keys_of other).
Proof.
  intros keys other. unfold sortedness_implied_by, grouping_required.
  assert (U : forall a o, In (a, o) (fold_left add_new (map (fun k => (k, O_UNDEF)) keys) []) -> o = O_UNDEF).
  { intros a o I. apply fold_add_in in I. destruct I as [[]|I]. apply in_map_iff in I. destruct I as (x & E & _). congruence. }
  assert (K : forall k, In k (keys_of (fold_left add_new (map (fun k => (k, O_UNDEF)) keys) [])) <-> In k keys).
  { intros k. rewrite fold_add_keys. unfold keys_of. rewrite map_map. cbn. rewrite map_id. tauto. }
  assert (G : forall this i, (forall a o, In (a, o) this -> o = O_UNDEF) -> (implied_from i this other = true <-> forall k, In k (keys_of this) -> In k (keys_of other))).
  { clear. induction this as [|[a o] this IH]; intros i U; cbn; [split; [intros _ k []|auto]|]. destruct (find a other 0) as [[j o']|] eqn:F.
    - rewrite (U a o (or_introl eq_refl)). cbn. rewrite orb_true_r. cbn. rewrite IH by (intros x y I; apply (U x y); now right). apply find_some in F. destruct F as [_ F]. apply nth_error_In in F. apply (in_map fst) in F. split.
      + intros H k [<-|I]; auto.
      + intros H k I. apply H. now right.
    - apply find_none in F. split; [discriminate|]. intros H. destruct F. apply H. now left. }
  rewrite (G _ 0 U). split; intros H k I; apply H; now apply K.
Qed.
(** What the sort-merge join on one pair of keys promises is fulfilled, whichever inputs it sorts itself. *)
Theorem C59_merge_join_promised : forall V (leb : V -> V -> bool), linear leb -> forall (sort_left sort_right : bool) ol or kp kc os
  (left_rows right_rows : list (row V)) (eqb : V -> V -> bool) (joined : row V -> row V -> row V),
  (forall a b, eqb a b = true <-> a = b) -> (forall l l', In l left_rows -> In l' left_rows -> l kp = l' kp -> l = l') ->
  (forall l r k, In k (kp :: keys_of ol) -> joined l r k = l k) -> (forall l r k, In k (kc :: keys_of or) -> joined l r k = r k) ->
  (if sort_left then sorted_by leb [(kp, O_ASC)] left_rows else (exists ol', ol = (kp, O_ASC) :: ol') /\ fulfils leb ol left_rows) ->
  (if sort_right then sorted_by leb [(kc, O_ASC)] right_rows else (exists or', or = (kc, O_ASC) :: or') /\ fulfils leb or right_rows) ->
  merge_join_orders sort_left sort_right ol or [kp] [kc] = Some os ->
  fulfils leb os (flat_map (fun r => map (fun l => joined l r) (filter (fun l => eqb (l kp) (r kc)) left_rows)) right_rows).
Proof.
  intros V leb Lin sl sr ol or kp kc os L R eqb joined Eq Un Jl Jr HL HR HM.
  assert (One : forall (k : Identifier) (rows : list (row V)), sorted_by leb [(k, O_ASC)] rows -> fulfils leb [(k, O_ASC)] rows).
  { intros k rows H. split; [intros a [E|[]]; discriminate|exact H]. }
  assert (EL : exists ol', fulfils leb ((kp, O_ASC) :: ol') L /\ (forall k, In k (keys_of ol') -> In k (keys_of ol)) /\ (if sl then ol' = [] else ol = (kp, O_ASC) :: ol')).
  { destruct sl; [exists []; split; [apply One, HL|split; [intros k []|reflexivity]]|]. destruct HL as ((ol' & E) & F). rewrite E in *. exists ol'. split; [exact F|]. split; [intros k I; now right|reflexivity]. }
  assert (ER : exists or', fulfils leb ((kc, O_ASC) :: or') R /\ (forall k, In k (keys_of or') -> In k (keys_of or)) /\ (if sr then or' = [] else or = (kc, O_ASC) :: or')).
  { destruct sr; [exists []; split; [apply One, HR|split; [intros k []|reflexivity]]|]. destruct HR as ((or' & E) & F). rewrite E in *. exists or'. split; [exact F|]. split; [intros k I; now right|reflexivity]. }
  destruct EL as (ol' & FL & IL & DL), ER as (or' & FR & IR & DR).
  assert (Jl' : forall l r k, In k (kp :: keys_of ol') -> joined l r k = l k) by (intros l r k [I|I]; apply Jl; [now left|right; auto]).
  assert (Jr' : forall l r k, In k (kc :: keys_of or') -> joined l r k = r k) by (intros l r k [I|I]; apply Jr; [now left|right; auto]).
  destruct (C59_merge_join V leb Lin ol' or' kp kc L R eqb joined Eq Un Jl' Jr' FL FR) as [M1 M2]. cbv zeta in M1, M2.
  unfold merge_join_orders in HM. cbn [merge forallb map fold_left] in HM.
  assert (Mn : forall o, merge [] o = Some o) by (intros o; unfold merge; cbn [has find forallb]; replace (forallb _ o) with true; [reflexivity|]; symmetry; apply forallb_forall; reflexivity).
  destruct sl, sr; cbn [fold_left] in HM.
  - subst ol' or'. injection HM as <-. unfold add_new at 2. cbn [has find fst app]. unfold add_new. destruct (has _ _); [|exact M1].
    exact (fulfils_prefix leb [(kp, O_ASC)] [(kc, O_ASC)] _ M1).
  - subst ol' or. rewrite Mn in HM. injection HM as <-. unfold add_new. destruct (has _ _).
    + specialize (M2 [] ltac:(intros a o []) ltac:(intros l r k [])). now rewrite app_nil_r in M2.
    + apply M2; [intros a o [E|[]]; injection E as _ <-; discriminate|]. intros l r k I. apply Jl'. exact I.
  - subst or' ol. rewrite Mn in HM. injection HM as <-. unfold add_new. destruct (has _ _); [|exact M1].
    exact (fulfils_prefix leb ((kp, O_ASC) :: ol') [(kc, O_ASC)] _ M1).
  - rewrite Mn in HM. rewrite DL, DR in HM. unfold merge in HM. destruct (forallb _ _); [|discriminate]. injection HM as <-. exact M1.
Qed.
(** Merging orders fails if and only if they share an attribute. *)
Theorem C59_merge_fails : forall a b, merge a b = None <-> exists k, In k (keys_of a) /\ In k (keys_of b).
Proof.
  intros a b. unfold merge. destruct (forallb (fun p => negb (has (fst p) a)) b) eqn:F; split; try discriminate; try reflexivity.
  - intros (k & Ia & Ib). apply in_map_iff in Ib. destruct Ib as (p & <- & Ib). rewrite forallb_forall in F. specialize (F p Ib). apply has_iff in Ia. rewrite Ia in F. discriminate.
  - intros _. assert (X : existsb (fun p => has (fst p) a) b = true).
    { clear - F. induction b as [|p b IH]; cbn in *; [discriminate|]. destruct (has (fst p) a); cbn in *; [reflexivity|auto]. }
    apply existsb_exists in X. destruct X as (p & I & H). exists (fst p). split; [now apply has_iff|]. apply in_map. exact I.
Qed.
(** ... which is right if they are the first ones, in any order ... *)
Theorem C59_grouping : forall V (leb : V -> V -> bool), linear leb -> forall p q keys rows, (forall k, In k keys <-> In k (keys_of p)) -> fulfils leb (p ++ q) rows -> grouped keys rows.
Proof. intros V leb Lin p q keys rows K F. exact (grouped_prefix leb Lin p q rows keys F K). Qed.
(** ... and wrong otherwise: if another attribute precedes a key, there are rows in this order in which a group is split. *)
Theorem C59_refuted_grouping : forall V (leb : V -> V -> bool), linear leb -> (exists a b : V, a <> b) ->
  forall c b ob m k ok e keys, let other := c ++ (b, ob) :: m ++ (k, ok) :: e in
  NoDup (keys_of other) -> defined other -> In k keys -> ~ In b keys -> exists rows, fulfils leb other rows /\ ~ grouped keys rows.
Proof.
  intros V leb Lin (x & y & Nxy) c b ob m k ok e keys other No Do Ik Nb. assert (L : exists lo hi, leb lo hi = true /\ lo <> hi) by (destruct Lin as (T & _); destruct (T x y); eauto 6). destruct L as (lo & hi & L).
  assert (Kb : k =? b = false) by (apply Nat.eqb_neq; intros ->; contradiction).
  assert (Ob : ob <> O_UNDEF) by (apply (Do b ob); apply in_or_app; right; now left).
  assert (Ok : ok <> O_UNDEF) by (apply (Do k ok); apply in_or_app; right; right; apply in_or_app; right; now left).
  set (mk := fun vb vk (i : nat) => if i =? b then vb else if i =? k then vk else lo).
  set (r := mk (low lo hi ob) (low lo hi ok)). set (t := mk (low lo hi ob) (high lo hi ok)). set (s := mk (high lo hi ob) (low lo hi ok)).
  unfold other, keys_of in No. rewrite map_app in No. cbn [map fst] in No. rewrite map_app in No. cbn [map fst] in No.
  assert (Cb : ~ In b (map fst c) /\ ~ In k (map fst c) /\ ~ In k (map fst m) /\ ~ In b (map fst m)).
  { pose proof (NoDup_remove_2 _ _ _ No) as N1. replace (map fst c ++ b :: map fst m ++ k :: map fst e) with ((map fst c ++ b :: map fst m) ++ k :: map fst e) in No by now rewrite <- app_assoc.
    pose proof (NoDup_remove_2 _ _ _ No) as N2. repeat split; intros I; [apply N1|apply N2|apply N2|apply N1]; rewrite ?in_app_iff; cbn; rewrite ?in_app_iff; tauto. }
  destruct Cb as (Cb & Ck & Mk & Mb).
  assert (Out : forall vb vk vb' vk' i, i <> b -> i <> k -> mk vb vk i = mk vb' vk' i) by (intros vb vk vb' vk' i N1 N2; unfold mk; apply Nat.eqb_neq in N1, N2; now rewrite N1, N2).
  assert (C0 : forall vb vk vb' vk', same (keys_of c) (mk vb vk) (mk vb' vk')) by (intros vb vk vb' vk' i I; apply Out; intros ->; contradiction).
  assert (Bb : forall vb vk, mk vb vk b = vb) by (intros; unfold mk; now rewrite Nat.eqb_refl).
  assert (Bk : forall vb vk, mk vb vk k = vk) by (intros; unfold mk; now rewrite Kb, Nat.eqb_refl).
  assert (Up : forall vk vk', before leb other (mk (low lo hi ob) vk) (mk (high lo hi ob) vk')).
  { intros vk vk'. apply before_app. split; [apply before_same; apply C0|]. intros _. cbn [before]. left. rewrite !Bb. split; [now apply (low_high leb)|]. exact (up leb lo hi L ob Ob). }
  assert (RT : before leb other r t).
  { apply before_app. split; [apply before_same; apply C0|]. intros _. cbn [before]. right. unfold r, t. rewrite !Bb. split; [auto|]. apply before_app. split.
    - apply before_same. intros i I. apply Out; intros ->; contradiction.
    - intros _. cbn [before]. left. rewrite !Bk. split; [now apply (low_high leb)|]. exact (up leb lo hi L ok Ok). }
  exists [r; t; s]. split.
  - split; [intros a I; destruct (Do a O_UNDEF I eq_refl)|]. apply SSorted_cons; [apply SSorted_cons; [apply SSorted_cons; constructor|constructor; [apply Up|constructor]]|constructor; [exact RT|constructor; [apply Up|constructor]]].
  - intros G. specialize (G [] r [t] s [] eq_refl). assert (E : same keys r s).
    { intros i I. unfold r, s, mk. destruct (i =? b) eqn:E; [apply Nat.eqb_eq in E; subst i; contradiction|auto]. }
    specialize (G E t (or_introl eq_refl) k Ik). unfold r, t in G. rewrite !Bk in G. now apply (low_high leb lo hi L ok).
Qed.

(** ** Projection *)
Lemma project_renames : forall old l c p q os os', old = c ++ p ++ q -> NoDup (keys_of old) -> map fst (filter (fun on => has (fst on) old) l) = keys_of p -> project_from old l os = Some os' ->
  exists ns, os' = os ++ ns /\ Forall2 (fun x y => snd x = snd y /\ In (fst x, fst y) l) p ns.
Proof.
  intros old. induction l as [|[o n] l IH]; intros c p q os os' E N M P; cbn [project_from filter fst] in *.
  - injection P as <-. destruct p; [|discriminate]. exists []. rewrite app_nil_r. auto.
  - unfold has in M at 1. destruct (find o old 0) as [[j od]|] eqn:F.
    + destruct p as [|[a oa] p]; [discriminate|]. cbn in M. injection M as -> M. assert (Na : ~ In a (keys_of c)).
      { intros I. rewrite E in N. unfold keys_of in N. rewrite !map_app in N. cbn in N. apply NoDup_remove_2 in N. apply N. apply in_or_app. now left. }
      assert (od = oa) as ->. { rewrite E in F. cbn [app] in F. rewrite (find_at c a oa (p ++ q) 0 Na) in F. now injection F. }
      unfold add in P. destruct (has n os); [discriminate|]. destruct (IH (c ++ [(a, oa)]) p q (os ++ [(n, oa)]) os') as (ns & -> & F2); auto; [now rewrite <- app_assoc|].
      exists ((n, oa) :: ns). rewrite <- app_assoc. split; [auto|]. constructor; [split; [auto|now left]|]. clear - F2. induction F2 as [|x y p ns [H H'] F2 IH]; constructor; [split; [auto|now right]|auto].
    + destruct (IH c p q os os' E N M P) as (ns & -> & F2). exists ns. split; [auto|]. clear - F2. induction F2 as [|x y p ns [H H'] F2 IH]; constructor; [split; [auto|now right]|auto].
Qed.
(** If the projected sorted attributes are the first ones, in order, the renamed order is kept. *)
Theorem C59_projection : forall V (leb : V -> V -> bool) p q old2new os rows (rows' : list (row V)), NoDup (keys_of (p ++ q)) ->
  map fst (filter (fun on => has (fst on) (p ++ q)) old2new) = keys_of p -> project_and_rename (p ++ q) old2new = Some os ->
  Forall2 (fun r r' => forall o n, In (o, n) old2new -> r' n = r o) rows rows' -> fulfils leb (p ++ q) rows -> fulfils leb os rows'.
Proof.
  intros V leb p q old2new os rows rows' N M P R F. apply fulfils_prefix in F. destruct F as [C S]. destruct (project_renames (p ++ q) old2new [] p q [] os eq_refl N M P) as (ns & -> & F2). cbn [app].
  assert (B : forall r s r' s', (forall o n, In (o, n) old2new -> r' n = r o) -> (forall o n, In (o, n) old2new -> s' n = s o) -> before leb p r s -> before leb ns r' s').
  { intros r s r' s' Hr Hs. clear - F2 Hr Hs. induction F2 as [|[a o] [b o'] p ns [E I] F2 IH]; cbn [fst snd before] in *; [auto|]. subst o'. rewrite (Hr a b I), (Hs a b I). intros [B|[E B]]; [auto|]. right. auto. }
  assert (In_ : forall x, In x rows' -> exists r, In r rows /\ forall o n, In (o, n) old2new -> x n = r o).
  { clear - R. induction R as [|r r' rows rows' H R IH]; intros x I; [destruct I|]. destruct I as [<-|I]; [exists r; split; [now left|auto]|]. destruct (IH x I) as (y & Y & Hy). exists y. split; [now right|auto]. }
  split.
  - intros b I r' s' Ir Is. destruct (In_ r' Ir) as (r & Rr & Hr), (In_ s' Is) as (s & Rs & Hs). assert (A : exists a, In (a, O_UNDEF) p /\ In (a, b) old2new).
    { clear - F2 I. induction F2 as [|[a o] [b' o'] p ns [E J] F2 IH]; [destruct I|]. cbn [fst snd] in *. subst o'. destruct I as [I|I]; [injection I as -> ->; exists a; split; [now left|auto]|]. destruct (IH I) as (x & X & Y). exists x. split; [now right|auto]. }
    destruct A as (a & A & J). rewrite (Hr a b J), (Hs a b J). now apply (C a A).
  - clear - R S B. induction R as [|r r' rows rows' H R IH]; [constructor|]. inversion S as [|? ? S' F]; subst. constructor; [now apply IH|]. clear - R F B H. induction R as [|s s' rows rows' H' R IH]; [constructor|]. inversion F; subst. constructor; [now apply (B r s r' s')|auto].
Qed.
(** Otherwise it is not: projecting (a, b) to b, or to (b, a), promises an order the rows do not have; [NoOpSorting] relies on it. *)
Definition row_ab (x y : Z) : row Z := fun k => if k =? 1 then x else y.
Theorem C59_refuted_projection : exists rows : list (row Z), fulfils Z.leb [(1, O_ASC); (2, O_ASC)] rows /\
  forall old2new, In old2new [[(2, 2)]; [(2, 2); (1, 1)]] ->
    exists os, project_and_rename [(1, O_ASC); (2, O_ASC)] old2new = Some os /\ ~ fulfils Z.leb os rows /\
      sortedness_implied_by (sorting_orders [(2, true)]) os = true /\ ~ sorted_by Z.leb (requested [(2, true)]) rows.
Proof.
  exists [row_ab 0 1; row_ab 1 0]. assert (NS : ~ sorted_by Z.leb [(2, O_ASC)] [row_ab 0 1; row_ab 1 0]).
  { intros S. inversion S as [|? ? _ F]; subst. inversion F as [|? ? B _]; subst. cbn in B. destruct B as [[_ B]|[B _]]; discriminate. }
  split.
  - split; [intros a [E|[E|[]]]; discriminate|]. repeat constructor; cbn; discriminate.
  - intros l [<-|[<-|[]]]; eexists; (split; [reflexivity|]); (split; [|split; [reflexivity|exact NS]]); intros [_ S]; apply NS.
    + exact S.
    + refine (sorted_impl _ _ _ _ S). intros r s _ _ [B|[E _]]; cbn; auto.
Qed.
(** Grouping by sorted input promises the order of the keys as they are listed, not as the input is sorted. *)
Theorem C59_refuted_grouping_order : exists rows : list (row Z), fulfils Z.leb [(1, O_ASC); (2, O_ASC)] rows /\ grouped [2; 1] rows /\
  exists os, grouping_orders [(1, O_ASC); (2, O_ASC)] [(2, 2); (1, 1)] [] = Some os /\ ~ fulfils Z.leb os rows.
Proof.
  exists [row_ab 0 1; row_ab 1 0]. split.
  - split; [intros a [E|[E|[]]]; discriminate|]. repeat constructor; cbn; discriminate.
  - split.
    + intros l1 r l2 s l3 E _ t I. assert (L : length [row_ab 0 1; row_ab 1 0] = length (l1 ++ r :: l2 ++ s :: l3)) by now rewrite E. rewrite app_length in L. cbn in L. rewrite app_length in L. cbn in L. destruct l2; [destruct I|cbn in L; lia].
    + eexists. split; [reflexivity|]. intros [_ S]. inversion S as [|? ? _ F]; subst. inversion F as [|? ? B _]; subst. cbn in B. destruct B as [[_ B]|[B _]]; discriminate.
Qed.

(** Grouping input by its first sorted attributes, listed in this order, promises what its output (a row per group, with the keys under
    their aliases) fulfils. *)
Lemma grouping_is_projection : forall child gb os0 os, NoDup (map snd gb ++ keys_of os0) -> grouping_orders child gb os0 = Some os -> project_from child gb os0 = Some os.
Proof.
  induction gb as [|[k a] gb IH]; intros os0 os N H; [exact H|]. cbn [grouping_orders project_from] in *. destruct (find k child 0) as [[j o]|]; [|discriminate].
  cbn [map snd app] in N. inversion N as [|? ? Na N']; subst. assert (Hf : has a os0 = false) by (apply has_false; intros I; apply Na; apply in_or_app; now right).
  unfold add. unfold add_new in H. cbn [fst] in H. rewrite Hf in *. apply IH; [|exact H]. unfold keys_of in *. rewrite map_app. cbn [map fst]. rewrite app_assoc. apply NoDup_rev in N. 
  apply (Permutation.Permutation_NoDup (l := a :: map snd gb ++ map fst os0)); [|constructor; [exact Na|exact N']]. apply Permutation.Permutation_cons_append.
Qed.
Theorem C59_grouping_promised : forall V (leb : V -> V -> bool) p q group_by os rows (first_of_group : row V -> bool) (rows' : list (row V)),
  NoDup (keys_of (p ++ q)) -> map fst group_by = keys_of p -> NoDup (map snd group_by) -> grouping_orders (p ++ q) group_by [] = Some os ->
  Forall2 (fun r r' => forall k alias, In (k, alias) group_by -> r' alias = r k) (filter first_of_group rows) rows' -> fulfils leb (p ++ q) rows -> fulfils leb os rows'.
Proof.
  intros V leb p q gb os rows f rows' N K Na G R F.
  apply (C59_projection V leb p q gb os (filter f rows) rows' N); [|apply grouping_is_projection; [now rewrite app_nil_r|exact G]|exact R|now apply C59_filter].
  rewrite <- K. f_equal. assert (I : forall x, In x gb -> has (fst x) (p ++ q) = true).
  { intros x I. apply has_iff. unfold keys_of. rewrite map_app. apply in_or_app. left. fold (keys_of p). rewrite <- K. now apply in_map. }
  clear - I. induction gb as [|x gb IH]; [reflexivity|]. cbn [filter]. rewrite (I x (or_introl eq_refl)). f_equal. apply IH. intros y Y. apply I. now right.
Qed.

(** ** Sets of conditions *)
(** Equality decides equality, as the physical optimizer needs it (C57). *)
Theorem C59_conditions_eq : forall a b, conditions_eqb a b = true <-> a = b.
Proof.
  assert (Beq : forall a b : bool, Bool.eqb a b = true <-> a = b) by (intros [] []; cbn; split; congruence).
  assert (Op : forall A (eqb : A -> A -> bool) (x y : option A), (forall a b, eqb a b = true <-> a = b) -> opt_implied eqb x y = true ->
    (match x with Some _ => 1 | None => 0 end) <= (match y with Some _ => 1 | None => 0 end) /\ ((match x with Some _ => 1 | None => 0 end) = (match y with Some _ => 1 | None => 0 end) -> x = y)).
  { intros A eqb [x|] [y|] E H; cbn in H; try discriminate; (split; [auto|]); try discriminate; auto. intros _. apply E in H. now subst. }
  assert (Bo : forall x y : bool, (if x then y else true) = true -> (if x then 1 else 0) <= (if y then 1 else 0) /\ ((if x then 1 else 0) = (if y then 1 else 0) -> x = y)).
  { intros [] [] H; try discriminate; (split; [auto|]); try discriminate; auto. }
  intros [u1 s1 i1 n1 p1] [u2 s2 i2 n2 p2]. unfold conditions_eqb, count. cbn [unsatisfiable sortedness simd no_simd predicated]. rewrite !andb_true_iff, Nat.eqb_eq. split.
  - intros (((((Cn & U) & S) & I) & Ns) & P). apply (Op _ _ _ _ orders_eqb_eq) in S. apply (Op _ _ _ _ Nat.eqb_eq) in I. apply (Op _ _ _ _ Beq) in P. apply Bo in U, Ns.
    destruct U as [U1 U2], S as [S1 S2], I as [I1 I2], Ns as [N1 N2], P as [P1 P2]. rewrite U2, S2, I2, N2, P2; [auto|clear - U1 S1 I1 N1 P1 Cn; lia..].
  - intros E. injection E as -> -> -> -> ->. assert (O : forall os, orders_eqb os os = true) by (intros; now apply orders_eqb_eq). assert (B : forall b, Bool.eqb b b = true) by (intros []; auto).
    repeat split; [now destruct u2|destruct s2; cbn; auto|destruct i2; cbn; auto using Nat.eqb_refl|now destruct n2|destruct p2; cbn; auto].
Qed.
Definition well_formed (c : ConditionSet) : Prop := unsatisfiable c = false /\ match sortedness c with Some os => NoDup (keys_of os) /\ defined os | None => True end.
(** Every set of conditions implies itself and none; implication is transitive; nothing implies an unsatisfiable set. *)
Theorem C59_conditions_order : forall a b c, well_formed a -> well_formed b -> well_formed c ->
  implied_by a a = true /\ implied_by empty_conditions a = true /\ (implied_by a b = true -> implied_by b c = true -> implied_by a c = true).
Proof.
  intros [u1 s1 i1 n1 p1] [u2 s2 i2 n2 p2] [u3 s3 i3 n3 p3] [U1 S1] [U2 S2] [U3 S3]. cbn in U1, U2, U3, S1, S2, S3. subst. unfold implied_by. cbn [unsatisfiable sortedness simd no_simd predicated empty_conditions negb andb opt_implied]. rewrite !andb_true_iff.
  assert (T : forall b, Bool.eqb b b = true) by (intros []; auto). split; [|split; [auto|]].
  - repeat split; [|destruct i1; cbn; auto using Nat.eqb_refl|now destruct n1|destruct p1; cbn; auto]. destruct s1 as [s1|]; cbn; [|auto]. destruct S1 as [N D]. exact (proj1 (C59_implied_order s1 s1 s1 N N N D D D)).
  - intros (((Sa & Ia) & Na) & Pa) (((Sb & Ib) & Nb) & Pb). repeat split.
    + destruct s1 as [s1|]; cbn; [|auto]. destruct s2 as [s2|]; [|discriminate]. destruct s3 as [s3|]; [|discriminate]. cbn in *. destruct S1, S2, S3. apply (proj1 (proj2 (C59_implied_order s1 s2 s3 ltac:(auto) ltac:(auto) ltac:(auto) ltac:(auto) ltac:(auto) ltac:(auto)))); auto.
    + destruct i1 as [i1|]; cbn; [|auto]. destruct i2 as [i2|]; [|discriminate]. destruct i3 as [i3|]; [|discriminate]. cbn in *. apply Nat.eqb_eq in Ia, Ib. apply Nat.eqb_eq. congruence.
    + destruct n1; [|auto]. now rewrite Na in Nb.
    + destruct p1 as [p1|]; cbn; [|auto]. destruct p2 as [p2|]; [|discriminate]. destruct p3 as [p3|]; [|discriminate]. cbn in *. destruct p1, p2, p3; auto.
Qed.
Theorem C59_unsatisfiable : forall c s i n p, implied_by (mkConditions true s i n p) c = false.
Proof. reflexivity. Qed.
(** Rows without SIMD are not taken for rows with one SIMD lane. *)
Theorem C59_refuted_simd : implied_by (mkConditions false None (Some 1) false None) (mkConditions false None None true None) = false /\
  implied_by (mkConditions false None None true None) (mkConditions false None (Some 1) false None) = false.
Proof. split; reflexivity. Qed.

(** ** Examples *)
Lemma Z_linear : linear Z.leb.
Proof. split; [|split]; intros; rewrite ?Z.leb_le in *; lia. Qed.
Example C59_ex_two : exists a b : Z, a <> b.
Proof. now exists 0%Z, 1%Z. Qed.
Example C59_ex_sorting : sorting_orders [(4, true); (2, false); (4, false); (3, true)] = [(4, O_ASC); (2, O_DESC); (3, O_ASC)].
Proof. reflexivity. Qed.
Example C59_ex_noop : sortedness_implied_by (sorting_orders [(4, true); (2, false); (4, false)]) [(4, O_ASC); (2, O_DESC); (3, O_ASC)] = true /\
  sortedness_implied_by (sorting_orders [(4, true); (3, true)]) [(4, O_ASC); (2, O_DESC); (3, O_ASC)] = false.
Proof. split; reflexivity. Qed.
Example C59_ex_grouping : sortedness_implied_by (grouping_required [2; 4; 2]) [(4, O_ASC); (2, O_DESC); (3, O_ASC)] = true /\
  grouping_orders [(4, O_ASC); (2, O_DESC); (3, O_ASC)] [(4, 14); (2, 12); (4, 14)] [] = Some [(14, O_ASC); (12, O_DESC)].
Proof. split; reflexivity. Qed.
Example C59_ex_merge : merge_join_orders false false [(1, O_ASC); (5, O_DESC)] [(2, O_ASC)] [1] [2] = Some [(1, O_ASC); (5, O_DESC); (2, O_ASC)] /\
  merge_join_orders true false [(1, O_ASC)] [(2, O_ASC); (7, O_ASC)] [1] [2] = Some [(2, O_ASC); (7, O_ASC); (1, O_ASC)] /\
  merge_join_orders false false [(1, O_ASC); (2, O_ASC)] [(2, O_ASC)] [1] [2] = None.
Proof. repeat split. Qed.
Example C59_ex_project : project_and_rename [(1, O_ASC); (2, O_DESC); (3, O_ASC)] [(1, 11); (8, 18); (2, 12)] = Some [(11, O_ASC); (12, O_DESC)] /\
  map fst (filter (fun on => has (fst on) ([(1, O_ASC); (2, O_DESC)] ++ [(3, O_ASC)])) [(1, 11); (8, 18); (2, 12)]) = keys_of [(1, O_ASC); (2, O_DESC)].
Proof. split; reflexivity. Qed.
