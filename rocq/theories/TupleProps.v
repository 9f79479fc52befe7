(** * C30 tuples, C43 blocks *)
From Coq Require Import NArith List Bool Arith Lia Sorting.Sorted.
From Verif Require Import Word WordProofs Bitset BitsetProofs Tuple.
Import ListNotations.

(** ** Specification: a tuple is a list of slots, each NULL ([None]) or a value *)
Definition contents (t : tuple) : list (option value) :=
  map (fun i => if N.testbit (mask t) (N.of_nat i) then None else nth_error (vals t) i) (seq 0 (length (vals t))).
(** what the owner of a heap sees in a value: its bits, or the string it points to *)
Definition meaning (h : nat -> nat -> list N) (v : value) : N + list N := match v with Raw b => inl b | Ptr a i => inr (h a i) end.
(** Tuples of at most 64 slots built from fresh ones by the mutators *)
Inductive made (n : nat) : tuple -> Prop :=
| m_new a tys : length tys = n -> made n (new_tuple a tys)
| m_set t i v b t' : made n t -> set t i v b = Some t' -> made n t'
| m_null t i b t' : made n t -> set_null t i b = Some t' -> made n t'
| m_clear t : made n t -> made n (clear t)
| m_insert t o k pos len t' : made n t -> made k o -> insert t o pos len = Some t' -> made n t'.

(** ** Lemmas *)
Lemma upd_length {X} (l : list X) i x : length (upd l i x) = length l.
Proof. revert i. induction l as [|y l IH]; intros [|i]; cbn [upd length]; auto. Qed.
Lemma upd_nth {X} (l : list X) i x j : nth_error (upd l i x) j = if Nat.eqb j i && Nat.ltb i (length l) then Some x else nth_error l j.
Proof.
  revert i j. induction l as [|y l IH]; intros [|i] [|j]; cbn [upd nth_error length]; try reflexivity; try (destruct (Nat.eqb _ _); reflexivity).
  rewrite IH. change (Nat.eqb (S j) (S i)) with (Nat.eqb j i). change (Nat.ltb (S i) (S (length l))) with (Nat.ltb i (length l)). reflexivity.
Qed.
Lemma contents_length t : length (contents t) = length (vals t).
Proof. unfold contents. rewrite map_length, seq_length. reflexivity. Qed.
Lemma contents_nth t i : (i < length (vals t))%nat -> nth_error (contents t) i = Some (if N.testbit (mask t) (N.of_nat i) then None else nth_error (vals t) i).
Proof.
  intros H. unfold contents. rewrite nth_error_map. rewrite (nth_error_nth' _ 0%nat) by (rewrite seq_length; exact H). rewrite seq_nth by exact H. reflexivity.
Qed.
Lemma list_ext {X} (l l' : list X) : length l = length l' -> (forall i, (i < length l)%nat -> nth_error l i = nth_error l' i) -> l = l'.
Proof.
  revert l'. induction l as [|x l IH]; intros [|y l'] E H; try discriminate; [reflexivity|]. injection E as E.
  pose proof (H O ltac:(cbn; lia)) as H0. cbn in H0. injection H0 as ->. f_equal. apply IH; [exact E|]. intros i Hi. exact (H (S i) ltac:(cbn; lia)).
Qed.
Record wf (n : nat) (t : tuple) : Prop := { w_len : length (vals t) = n; w_64 : W64 (mask t); w_hi : forall j, (N.of_nat n <= j < 64)%N -> N.testbit (mask t) j = true }.
Lemma slots_length a tys : forall i, length (slots a i tys) = length tys.
Proof. induction tys; intros i; cbn [slots length]; auto. Qed.
Lemma all_null_bit j : (j < 64)%N -> N.testbit (not64 0) j = true.
Proof. intros H. rewrite testbit_not64 by reflexivity. rewrite N.bits_0. cbn [negb]. rewrite andb_true_r. apply N.ltb_lt. exact H. Qed.
Lemma W64_allones : W64 (not64 0). Proof. apply not64_W64. reflexivity. Qed.
Lemma set_some n t i v b t' : wf n t -> set t i v b = Some t' ->
  (i < n)%nat /\ (i < 64)%nat /\ vals t' = upd (vals t) i v /\ W64 (mask t') /\ forall j, N.testbit (mask t') j = if (j =? N.of_nat i)%N then b else N.testbit (mask t) j.
Proof.
  intros [L W H] E. unfold set, in_bounds in E. destruct (Nat.ltb_spec i (length (vals t))) as [Hi|]; [|discriminate].
  assert (H64 : (N.of_nat i < 64)%N). { unfold sbs_set, CAPACITY in E. destruct (N.ltb_spec (N.of_nat i) 64); [assumption|discriminate]. }
  destruct (set_spec (mask t) (N.of_nat i) b W H64) as [s [Es [Ws Hs]]]. rewrite Es in E. cbn [option_map] in E. injection E as <-. cbn [vals mask].
  split; [lia|]. split; [lia|]. split; [reflexivity|]. split; [exact Ws|exact Hs].
Qed.
Lemma set_null_some n t i b t' : wf n t -> set_null t i b = Some t' ->
  (i < n)%nat /\ (i < 64)%nat /\ vals t' = vals t /\ W64 (mask t') /\ forall j, N.testbit (mask t') j = if (j =? N.of_nat i)%N then b else N.testbit (mask t) j.
Proof.
  intros [L W H] E. unfold set_null, in_bounds in E. destruct (Nat.ltb_spec i (length (vals t))) as [Hi|]; [|discriminate].
  assert (H64 : (N.of_nat i < 64)%N). { unfold sbs_set, CAPACITY in E. destruct (N.ltb_spec (N.of_nat i) 64); [assumption|discriminate]. }
  destruct (set_spec (mask t) (N.of_nat i) b W H64) as [s [Es [Ws Hs]]]. rewrite Es in E. cbn [option_map] in E. injection E as <-. cbn [vals mask].
  split; [lia|]. split; [lia|]. split; [reflexivity|]. split; [exact Ws|exact Hs].
Qed.
Lemma wf_set n t i v b t' : wf n t -> set t i v b = Some t' -> wf n t'.
Proof.
  intros W E. destruct (set_some _ _ _ _ _ _ W E) as [Hi [H6 [Ev [W' Hb]]]]. constructor; [rewrite Ev, upd_length; apply W|exact W'|].
  intros j Hj. rewrite Hb. destruct (N.eqb_spec j (N.of_nat i)); [lia|]. apply W. exact Hj.
Qed.
Lemma wf_set_null n t i b t' : wf n t -> set_null t i b = Some t' -> wf n t'.
Proof.
  intros W E. destruct (set_null_some _ _ _ _ _ W E) as [Hi [H6 [Ev [W' Hb]]]]. constructor; [rewrite Ev; apply W|exact W'|].
  intros j Hj. rewrite Hb. destruct (N.eqb_spec j (N.of_nat i)); [lia|]. apply W. exact Hj.
Qed.
Lemma wf_insert_loop n len : forall i t o pos t', wf n t -> insert_loop len i t o pos = Some t' -> wf n t'.
Proof.
  induction len as [|len IH]; intros i t o pos t' W E; cbn [insert_loop] in E; [injection E as <-; exact W|].
  destruct (at_ o i) as [v|]; [|discriminate]. destruct (is_null o i) as [b|]; [|discriminate]. destruct (set t (pos + i) v b) as [t1|] eqn:E1; [|discriminate].
  eapply IH; [eapply wf_set; eauto|exact E].
Qed.
Lemma made_wf n t : made n t -> wf n t.
Proof.
  induction 1 as [n a tys L|n t i v b t' M IH E|n t i b t' M IH E|n t M IH|n t o k pos len t' M IH Mo _ E].
  - constructor; cbn [new_tuple vals mask]; [rewrite slots_length; exact L|apply W64_allones|]. intros j Hj. apply all_null_bit. lia.
  - eapply wf_set; eauto.
  - eapply wf_set_null; eauto.
  - constructor; cbn [clear vals mask]; [apply IH|apply W64_allones|]. intros j Hj. apply all_null_bit. lia.
  - eapply wf_insert_loop; eauto.
Qed.
Lemma set_total n t i v b : wf n t -> (i < n)%nat -> (n <= 64)%nat -> exists t', set t i v b = Some t'.
Proof.
  intros [L W H] Hi Hn. unfold set, in_bounds. replace (Nat.ltb i (length (vals t))) with true by (symmetry; apply Nat.ltb_lt; lia).
  destruct (set_spec (mask t) (N.of_nat i) b W ltac:(lia)) as [s [-> _]]. eexists. reflexivity.
Qed.
Lemma set_null_total n t i b : wf n t -> (i < n)%nat -> (n <= 64)%nat -> exists t', set_null t i b = Some t'.
Proof.
  intros [L W H] Hi Hn. unfold set_null, in_bounds. replace (Nat.ltb i (length (vals t))) with true by (symmetry; apply Nat.ltb_lt; lia).
  destruct (set_spec (mask t) (N.of_nat i) b W ltac:(lia)) as [s [-> _]]. eexists. reflexivity.
Qed.
Lemma eqb_of_nat i j : (N.of_nat i =? N.of_nat j)%N = Nat.eqb i j.
Proof. destruct (N.eqb_spec (N.of_nat i) (N.of_nat j)), (Nat.eqb_spec i j); try reflexivity; lia. Qed.
Lemma set_contents n t i v b t' : wf n t -> set t i v b = Some t' -> contents t' = upd (contents t) i (if b then None else Some v).
Proof.
  intros W E. destruct (set_some _ _ _ _ _ _ W E) as [Hi [H6 [Ev [W' Hb]]]]. pose proof (w_len _ _ W) as L.
  apply list_ext; [rewrite upd_length, !contents_length, Ev, upd_length; reflexivity|]. intros j Hj. rewrite contents_length, Ev, upd_length in Hj.
  rewrite contents_nth by (rewrite Ev, upd_length; exact Hj). rewrite upd_nth, contents_length. rewrite Hb, eqb_of_nat, Ev, upd_nth.
  replace (Nat.ltb i (length (vals t))) with true by (symmetry; apply Nat.ltb_lt; lia). rewrite !andb_true_r.
  destruct (Nat.eqb j i); [destruct b; reflexivity|]. symmetry. apply contents_nth. exact Hj.
Qed.

(** ** C30 *)
(** Specification: the list with the element at position [i] replaced. *)
Definition replaced {X} (l : list X) (i : nat) (x : X) : list X := firstn i l ++ x :: skipn (S i) l.
Lemma upd_replaced {X} (l : list X) : forall i x, (i < length l)%nat -> upd l i x = replaced l i x.
Proof.
  unfold replaced. induction l as [|y l IH]; intros [|i] x H; cbn [length] in H; try lia; cbn [upd firstn skipn app]; [reflexivity|].
  rewrite (IH i x) by lia. reflexivity.
Qed.
Theorem C30_new_is_all_null : forall a tys, contents (new_tuple a tys) = repeat None (length tys) \/ (64 < length tys)%nat.
Proof.
  intros a tys. destruct (Nat.le_gt_cases (length tys) 64) as [H|H]; [left|right; exact H].
  apply list_ext; [rewrite contents_length, repeat_length; apply slots_length|]. intros i Hi. rewrite contents_length in Hi. cbn [new_tuple vals] in Hi. rewrite slots_length in Hi.
  rewrite contents_nth by (cbn [new_tuple vals]; rewrite slots_length; exact Hi). cbn [new_tuple mask]. rewrite all_null_bit by lia. symmetry. apply nth_error_repeat. exact Hi.
Qed.
Theorem C30_set : forall n t i v b, made n t -> (i < n)%nat -> (n <= 64)%nat ->
  exists t', set t i v b = Some t' /\ made n t' /\ contents t' = replaced (contents t) i (if b then None else Some v).
Proof.
  intros n t i v b M Hi Hn. pose proof (made_wf _ _ M) as W. destruct (set_total n t i v b W Hi Hn) as [t' E]. exists t'. split; [exact E|]. split; [econstructor; eauto|]. rewrite <- upd_replaced by (rewrite contents_length, (w_len _ _ W); exact Hi). eapply set_contents; eauto.
Qed.
Theorem C30_null : forall n t i, made n t -> (i < n)%nat -> (n <= 64)%nat ->
  exists t', set_null t i true = Some t' /\ made n t' /\ contents t' = replaced (contents t) i None.
Proof.
  intros n t i M Hi Hn. pose proof (made_wf _ _ M) as W. destruct (set_null_total n t i true W Hi Hn) as [t' E]. exists t'. split; [exact E|]. split; [eapply m_null; eauto|]. rewrite <- upd_replaced by (rewrite contents_length, (w_len _ _ W); exact Hi).
  destruct (set_null_some _ _ _ _ _ W E) as [_ [H6 [Ev [W' Hb]]]]. pose proof (w_len _ _ W) as L.
  apply list_ext; [rewrite upd_length, !contents_length, Ev; reflexivity|]. intros j Hj. rewrite contents_length, Ev in Hj.
  rewrite contents_nth by (rewrite Ev; exact Hj). rewrite upd_nth, contents_length, Hb, eqb_of_nat, Ev. replace (Nat.ltb i (length (vals t))) with true by (symmetry; apply Nat.ltb_lt; lia).
  rewrite andb_true_r. destruct (Nat.eqb j i); [reflexivity|]. symmetry. apply contents_nth. exact Hj.
Qed.
(** NULL hides the value, it does not overwrite it. *)
Theorem C30_null_not_null_restores : forall n t i v, made n t -> (i < n)%nat -> (n <= 64)%nat -> nth_error (contents t) i = Some (Some v) ->
  exists t1 t2, set_null t i true = Some t1 /\ set_null t1 i false = Some t2 /\ contents t2 = contents t.
Proof.
  intros n t i v M Hi Hn Hv. pose proof (made_wf _ _ M) as W. pose proof (w_len _ _ W) as L.
  destruct (set_null_total n t i true W Hi Hn) as [t1 E1]. pose proof (wf_set_null _ _ _ _ _ W E1) as W1. destruct (set_null_total n t1 i false W1 Hi Hn) as [t2 E2].
  exists t1, t2. split; [exact E1|]. split; [exact E2|]. destruct (set_null_some _ _ _ _ _ W E1) as [_ [H6 [Ev [W' Hb]]]]. destruct (set_null_some _ _ _ _ _ W1 E2) as [_ [_ [Ev2 [W2 Hb2]]]].
  rewrite contents_nth in Hv by lia. destruct (N.testbit (mask t) (N.of_nat i)) eqn:Et; [discriminate|].
  unfold contents. rewrite Ev2, Ev. apply map_ext_in. intros j Hj. rewrite Hb2, Hb. destruct (N.eqb_spec (N.of_nat j) (N.of_nat i)) as [Ej|]; [rewrite Ej, Et; reflexivity|reflexivity].
Qed.
Theorem C30_clear : forall n t, made n t -> (n <= 64)%nat -> made n (clear t) /\ contents (clear t) = repeat None n.
Proof.
  intros n t M Hn. split; [constructor; exact M|]. pose proof (w_len _ _ (made_wf _ _ M)) as L.
  apply list_ext; [rewrite contents_length, repeat_length; exact L|]. intros i Hi. rewrite contents_length in Hi. cbn [clear vals] in Hi.
  rewrite contents_nth by exact Hi. cbn [clear mask]. rewrite all_null_bit by lia. symmetry. apply nth_error_repeat. lia.
Qed.
Theorem C30_read : forall n t i, made n t -> (i < n)%nat -> (n <= 64)%nat ->
  exists c, nth_error (contents t) i = Some c /\ is_null t i = Some (match c with None => true | Some _ => false end) /\ get t i = c.
Proof.
  intros n t i M Hi Hn. pose proof (w_len _ _ (made_wf _ _ M)) as L. eexists. split; [apply contents_nth; lia|]. unfold get, is_null, in_bounds, at_.
  replace (Nat.ltb i (length (vals t))) with true by (symmetry; apply Nat.ltb_lt; lia). rewrite get_spec by lia.
  destruct (N.testbit (mask t) (N.of_nat i)); [split; reflexivity|]. destruct (nth_error (vals t) i) as [v|] eqn:E; [split; reflexivity|]. apply nth_error_None in E. lia.
Qed.
Lemma firstn_S_nth {X} (l : list X) n x : nth_error l n = Some x -> firstn (S n) l = firstn n l ++ [x].
Proof. revert n. induction l as [|y l IH]; intros [|n] H; cbn in *; try discriminate; [injection H as ->; reflexivity|]. rewrite (IH _ H). reflexivity. Qed.
Lemma insert_loop_spec n k pos o : made k o -> (k <= 64)%nat -> (n <= 64)%nat -> forall len i t, wf n t -> (i + len <= k)%nat -> (pos + i + len <= n)%nat ->
  exists t', insert_loop len i t o pos = Some t' /\ wf n t' /\
    forall j, nth_error (contents t') j = if Nat.leb (pos + i) j && Nat.ltb j (pos + i + len) then nth_error (contents o) (j - pos) else nth_error (contents t) j.
Proof.
  intros Mo Hk Hn. pose proof (made_wf _ _ Mo) as Wo. pose proof (w_len _ _ Wo) as Lo. induction len as [|len IH]; intros i t W Hi Hp; cbn [insert_loop].
  - exists t. split; [reflexivity|]. split; [exact W|]. intros j. destruct (Nat.leb_spec (pos + i) j), (Nat.ltb_spec j (pos + i + 0)); cbn [andb]; try reflexivity; lia.
  - destruct (C30_read k o i Mo ltac:(lia) Hk) as [c [Ec [En Eg]]]. rewrite En. unfold get in Eg. rewrite En in Eg.
    destruct (at_ o i) as [v|] eqn:Ea; [|apply nth_error_None in Ea; lia].
    destruct (set_total n t (pos + i) v (match c with None => true | Some _ => false end) W ltac:(lia) Hn) as [t1 E1]. rewrite E1.
    pose proof (set_contents _ _ _ _ _ _ W E1) as C1. destruct (IH (S i) t1 (wf_set _ _ _ _ _ _ W E1) ltac:(lia) ltac:(lia)) as [t' [E' [W' H']]].
    exists t'. split; [exact E'|]. split; [exact W'|]. intros j. rewrite H', C1, upd_nth, contents_length, (w_len _ _ W).
    replace (Nat.ltb (pos + i) n) with true by (symmetry; apply Nat.ltb_lt; lia). rewrite andb_true_r.
    destruct (Nat.leb_spec (pos + S i) j), (Nat.ltb_spec j (pos + S i + len)), (Nat.leb_spec (pos + i) j), (Nat.ltb_spec j (pos + i + S len)), (Nat.eqb_spec j (pos + i)); cbn [andb]; try reflexivity; try lia.
    subst j. replace (pos + i - pos)%nat with i by lia. rewrite Ec. destruct c; [congruence|reflexivity].
Qed.
Lemma nth_error_firstn_all {X} (l : list X) : forall k j, nth_error (firstn k l) j = if Nat.ltb j k then nth_error l j else None.
Proof.
  induction l as [|x l IH]; intros [|k] [|j]; cbn [firstn nth_error]; try reflexivity; [destruct (Nat.ltb (S j) (S k)); reflexivity|].
  rewrite IH. reflexivity.
Qed.
Lemma nth_error_skipn_all {X} (l : list X) : forall k j, nth_error (skipn k l) j = nth_error l (k + j).
Proof. induction l as [|x l IH]; intros [|k] j; cbn [skipn plus nth_error]; try reflexivity; [destruct j; reflexivity|apply IH]. Qed.
Theorem C30_insert : forall n k t o pos len, made n t -> made k o -> (n <= 64)%nat -> (k <= 64)%nat -> (len <= k)%nat -> (pos + len <= n)%nat ->
  exists t', insert t o pos len = Some t' /\ made n t' /\
    contents t' = firstn pos (contents t) ++ firstn len (contents o) ++ skipn (pos + len) (contents t).
Proof.
  intros n k t o pos len M Mo Hn Hk Hl Hp. pose proof (made_wf _ _ M) as W. pose proof (w_len _ _ W) as L. pose proof (w_len _ _ (made_wf _ _ Mo)) as Lo.
  destruct (insert_loop_spec n k pos o Mo Hk Hn len 0 t W ltac:(lia) ltac:(lia)) as [t' [E [W' H]]]. exists t'. split; [exact E|]. split; [eapply m_insert; eauto|].
  pose proof (contents_length t) as Ct. pose proof (contents_length o) as Co.
  assert (Lf : length (firstn pos (contents t)) = pos) by (rewrite firstn_length; lia). assert (Lm : length (firstn len (contents o)) = len) by (rewrite firstn_length; lia).
  apply list_ext; [rewrite !app_length, skipn_length, Lf, Lm, Ct, contents_length, (w_len _ _ W'); lia|]. intros j Hj. rewrite H. rewrite !Nat.add_0_r.
  destruct (Nat.leb_spec pos j) as [Lj|Lj]; cbn [andb].
  - rewrite nth_error_app2 by lia. rewrite Lf. destruct (Nat.ltb_spec j (pos + len)).
    + rewrite nth_error_app1 by lia. rewrite nth_error_firstn_all. destruct (Nat.ltb_spec (j - pos) len); [reflexivity|lia].
    + rewrite nth_error_app2 by lia. rewrite Lm, nth_error_skipn_all. f_equal. lia.
  - rewrite nth_error_app1 by lia. rewrite nth_error_firstn_all. destruct (Nat.ltb_spec j pos); [reflexivity|lia].
Qed.
(** equality *)
Lemma value_eqb_spec v w : value_eqb v w = true <-> v = w.
Proof.
  destruct v as [a|a i], w as [b|b j]; cbn [value_eqb]; try (split; discriminate).
  - rewrite N.eqb_eq. split; congruence.
  - rewrite andb_true_iff, !Nat.eqb_eq. split; [intros [-> ->]; reflexivity|intros E; injection E; auto].
Qed.
Lemma eq_loop_spec n t o : made n t -> made n o -> (n <= 64)%nat -> mask t = mask o -> forall l, (forall i, In i l -> (N.to_nat i < n)%nat /\ N.testbit (mask t) i = false) ->
  exists b, eq_loop l t o = Some b /\ (b = true <-> forall i, In i l -> nth_error (vals t) (N.to_nat i) = nth_error (vals o) (N.to_nat i)).
Proof.
  intros M Mo Hn Em. induction l as [|i l IH]; intros H; cbn [eq_loop]; [exists true; split; [reflexivity|]; split; [intros _ i []|reflexivity]|].
  destruct (H i (or_introl eq_refl)) as [Hi Ht].
  assert (G : forall x, made n x -> mask x = mask t -> exists v, get x (N.to_nat i) = Some v /\ nth_error (vals x) (N.to_nat i) = Some v).
  { intros x Mx Ex. pose proof (w_len _ _ (made_wf _ _ Mx)) as Lx. destruct (nth_error (vals x) (N.to_nat i)) as [v|] eqn:E; [|apply nth_error_None in E; lia]. exists v. split; [|reflexivity].
    unfold get, is_null, in_bounds, at_. replace (Nat.ltb (N.to_nat i) (length (vals x))) with true by (symmetry; apply Nat.ltb_lt; lia). rewrite get_spec by lia.
    rewrite N2Nat.id, Ex, Ht. exact E. }
  destruct (G t M eq_refl) as [v [Ev Nv]]. destruct (G o Mo (eq_sym Em)) as [w [Ew Nw]]. rewrite Ev, Ew. destruct (IH (fun j Hj => H j (or_intror Hj))) as [b [Eb Hb]].
  destruct (value_eqb v w) eqn:Evw.
  - exists b. split; [exact Eb|]. apply value_eqb_spec in Evw. rewrite Hb. split; [intros X j [<-|Hj]; [congruence|auto]|]. intros X j Hj. apply X. right. exact Hj.
  - exists false. split; [reflexivity|]. split; [discriminate|]. intros X. specialize (X i (or_introl eq_refl)). assert (value_eqb v w = true) by (apply value_eqb_spec; congruence). congruence.
Qed.
Lemma alive_bits n t i : wf n t -> In i (elems (sbs_not (mask t))) <-> (N.to_nat i < n)%nat /\ (i < 64)%N /\ N.testbit (mask t) i = false.
Proof.
  intros W. rewrite in_elems by (apply not64_W64; apply W). rewrite not_spec by apply W. rewrite andb_true_iff, N.ltb_lt, negb_true_iff. split.
  - intros [H1 H2]. split; [|auto]. destruct (Nat.lt_ge_cases (N.to_nat i) n) as [|G]; [assumption|]. rewrite (w_hi _ _ W) in H2 by lia. discriminate.
  - tauto.
Qed.
Lemma contents_eq n t o : wf n t -> wf n o -> (n <= 64)%nat ->
  contents t = contents o <-> mask t = mask o /\ forall i, (i < n)%nat -> N.testbit (mask t) (N.of_nat i) = false -> nth_error (vals t) i = nth_error (vals o) i.
Proof.
  intros W Wo Hn. pose proof (w_len _ _ W) as L. pose proof (w_len _ _ Wo) as Lo. split.
  - intros E. assert (B : forall i, (i < n)%nat -> N.testbit (mask t) (N.of_nat i) = N.testbit (mask o) (N.of_nat i) /\ (N.testbit (mask t) (N.of_nat i) = false -> nth_error (vals t) i = nth_error (vals o) i)).
    { intros i Hi. assert (X : nth_error (contents t) i = nth_error (contents o) i) by (rewrite E; reflexivity). rewrite !contents_nth in X by lia.
      assert (A : nth_error (vals t) i <> None) by (apply nth_error_Some; lia). assert (A' : nth_error (vals o) i <> None) by (apply nth_error_Some; lia).
      destruct (N.testbit (mask t) (N.of_nat i)), (N.testbit (mask o) (N.of_nat i)); split; auto; try discriminate; congruence. }
    split; [|intros i Hi; apply B; exact Hi]. apply word_ext; [apply W|apply Wo|]. intros j Hj. destruct (N.lt_ge_cases j (N.of_nat n)) as [G|G].
    + destruct (B (N.to_nat j) ltac:(lia)) as [X _]. rewrite N2Nat.id in X. exact X.
    + rewrite (w_hi _ _ W), (w_hi _ _ Wo) by lia. reflexivity.
  - intros [Em H]. unfold contents. rewrite L, Lo, <- Em. apply map_ext_in. intros i Hi. apply in_seq in Hi. destruct (N.testbit (mask t) (N.of_nat i)) eqn:E; [reflexivity|]. apply H; [lia|exact E].
Qed.
Theorem C30_equality : forall n t o, made n t -> made n o -> (n <= 64)%nat -> exists b, tuple_eq t o = Some b /\ (b = true <-> contents t = contents o).
Proof.
  intros n t o M Mo Hn. pose proof (made_wf _ _ M) as W. pose proof (made_wf _ _ Mo) as Wo. unfold tuple_eq.
  destruct (N.eqb_spec (mask t) (mask o)) as [Em|Nm]; [|exists false; split; [reflexivity|]; split; [discriminate|]; intros E; apply (contents_eq n) in E; auto; destruct E; contradiction].
  rewrite iterate_ok by (apply not64_W64; apply W).
  destruct (eq_loop_spec n t o M Mo Hn Em (elems (sbs_not (mask t)))) as [b [Eb Hb]]; [intros i Hi; apply (alive_bits n) in Hi; [|exact W]; tauto|].
  exists b. split; [exact Eb|]. rewrite Hb, (contents_eq n t o W Wo Hn). split.
  - intros H. split; [exact Em|]. intros i Hi Ht. specialize (H (N.of_nat i)). rewrite Nat2N.id in H. apply H. apply (alive_bits n); [exact W|]. rewrite Nat2N.id. split; [exact Hi|]. split; [lia|exact Ht].
  - intros [_ H] i Hi. apply (alive_bits n) in Hi; [|exact W]. destruct Hi as [H1 [H2 H3]]. apply H; [exact H1|]. rewrite N2Nat.id. exact H3.
Qed.
Theorem C30_hash_agrees_with_equality : forall n addr t o, made n t -> made n o -> (n <= 64)%nat -> contents t = contents o ->
  tuple_hash addr t = tuple_hash addr o /\ tuple_hash addr t <> None.
Proof.
  intros n addr t o M Mo Hn E. pose proof (made_wf _ _ M) as W. pose proof (made_wf _ _ Mo) as Wo. apply (contents_eq n) in E; auto. destruct E as [Em H].
  unfold tuple_hash. rewrite <- Em. rewrite iterate_ok by (apply not64_W64; apply W).
  assert (X : forall l acc, (forall i, In i l -> In i (elems (sbs_not (mask t)))) -> hash_loop addr l t acc = hash_loop addr l o acc /\ hash_loop addr l t acc <> None).
  { induction l as [|i l IH]; intros acc Hl; cbn [hash_loop]; [split; [reflexivity|discriminate]|].
    pose proof (Hl i (or_introl eq_refl)) as Hi. apply (alive_bits n) in Hi; [|exact W]. destruct Hi as [H1 [H2 H3]]. unfold at_. rewrite <- (H (N.to_nat i) H1 ltac:(rewrite N2Nat.id; exact H3)).
    destruct (nth_error (vals t) (N.to_nat i)) as [v|] eqn:Ev; [|apply nth_error_None in Ev; pose proof (w_len _ _ W); lia]. apply IH. intros j Hj. apply Hl. right. exact Hj. }
  apply X. auto.
Qed.

(** Cloning, for any arity up to 64.  [Some] character slots must hold buffers of an older allocation, with strings that fit. *)
Definition clonable (a : nat) (tys : list (option nat)) (t : tuple) (h : nat -> nat -> list N) : Prop :=
  length (vals t) = length tys /\
  forall i ty, nth_error tys i = Some ty -> match ty with
    | Some len => exists b j, nth_error (vals t) i = Some (Ptr b j) /\ b <> a /\ (length (h b j) <= len)%nat
    | None => exists z, nth_error (vals t) i = Some (Raw z)
    end.
Lemma slots_nth a tys : forall i k ty, nth_error tys i = Some ty -> nth_error (slots a k tys) i = Some (match ty with Some _ => Ptr a (k + i) | None => Raw 0 end).
Proof.
  induction tys as [|t tys IH]; intros [|i] k ty H; cbn [nth_error slots] in *; try discriminate; [injection H as ->; rewrite Nat.add_0_r; reflexivity|].
  rewrite (IH _ (S k) _ H). destruct ty; [|reflexivity]. do 2 f_equal. lia.
Qed.
Record cinv (a n : nat) (tys : list (option nat)) (t : tuple) (h0 h : nat -> nat -> list N) (c : tuple) (i : nat) : Prop := {
  c_wf : wf n c;
  c_old : forall b j, b <> a -> h b j = h0 b j;
  c_ptr : forall k len, nth_error tys k = Some (Some len) -> nth_error (vals c) k = Some (Ptr a k);
  c_done : forall k, (k < i)%nat -> N.testbit (mask c) (N.of_nat k) = false /\ exists v w, nth_error (vals t) k = Some v /\ nth_error (vals c) k = Some w /\ meaning h w = meaning h0 v }.
Lemma clone_loop_spec a tys t h0 : (length tys <= 64)%nat -> clonable a tys t h0 -> forall rest i h c, skipn i tys = rest -> (i <= length tys)%nat -> cinv a (length tys) tys t h0 h c i ->
  exists c' h', clone_loop rest i t h c = Some (c', h') /\ cinv a (length tys) tys t h0 h' c' (length tys).
Proof.
  intros Hn [Lt Hc]. induction rest as [|ty rest IH]; intros i h c Es Hi Inv; cbn [clone_loop].
  - assert (i = length tys). { pose proof (skipn_length i tys) as X. rewrite Es in X. cbn in X. lia. } subst i. exists c, h. split; [reflexivity|exact Inv].
  - assert (Ety : nth_error tys i = Some ty). { rewrite <- (Nat.add_0_r i), <- nth_error_skipn_all, Es. reflexivity. }
    assert (Hlt : (i < length tys)%nat) by (apply nth_error_Some; congruence).
    assert (Es' : skipn (S i) tys = rest). { clear - Es. revert i Es. induction tys as [|x l IH]; intros [|i] E; cbn in *; try discriminate; [injection E; auto|apply IH; exact E]. }
    pose proof (Hc _ _ Ety) as Hty. unfold at_. destruct ty as [len|].
    + destruct Hty as [b [j [Ev [Nb Hl]]]]. rewrite Ev. rewrite (c_ptr _ _ _ _ _ _ _ _ Inv _ _ Ety). rewrite (c_old _ _ _ _ _ _ _ _ Inv _ _ Nb).
      destruct (Nat.leb_spec (length (h0 b j)) len) as [_|]; [|lia].
      destruct (set_null_total _ c i false (c_wf _ _ _ _ _ _ _ _ Inv) Hlt Hn) as [c1 E1]. rewrite E1. apply IH; [exact Es'|lia|].
      destruct (set_null_some _ _ _ _ _ (c_wf _ _ _ _ _ _ _ _ Inv) E1) as [_ [_ [Ev1 [_ Hb1]]]]. constructor.
      * eapply wf_set_null; [apply Inv|exact E1].
      * intros b' j' Nb'. destruct (Nat.eqb_spec b' a); [congruence|]. cbn [andb]. apply Inv. exact Nb'.
      * intros k l Hk. rewrite Ev1. eapply Inv. exact Hk.
      * intros k Hk. rewrite Hb1, eqb_of_nat. destruct (Nat.eqb_spec k i) as [->|Nk].
        { split; [reflexivity|]. exists (Ptr b j), (Ptr a i). split; [exact Ev|]. split; [rewrite Ev1; eapply Inv; exact Ety|]. cbn [meaning]. rewrite !Nat.eqb_refl. reflexivity. }
        destruct (c_done _ _ _ _ _ _ _ _ Inv k ltac:(lia)) as [Hm [v [w [Hv [Hw Hvw]]]]]. split; [exact Hm|]. exists v, w. split; [exact Hv|]. split; [rewrite Ev1; exact Hw|].
        destruct w as [z|a' i']; [exact Hvw|]. cbn [meaning] in *. destruct (Nat.eqb_spec a' a) as [->|]; [|exact Hvw]. destruct (Nat.eqb_spec i' i) as [->|]; [|exact Hvw]. exfalso.
        assert (Hk' : (k < length tys)%nat) by lia. destruct (nth_error tys k) as [tk|] eqn:Etk; [|apply nth_error_None in Etk; lia]. destruct tk as [l|].
        { rewrite (c_ptr _ _ _ _ _ _ _ _ Inv _ _ Etk) in Hw. injection Hw as Hw. lia. }
        { destruct (Hc _ _ Etk) as [z Hz]. rewrite Hz in Hv. injection Hv as <-. discriminate. }
    + destruct Hty as [z Ev]. rewrite Ev. destruct (set_total _ c i (Raw z) false (c_wf _ _ _ _ _ _ _ _ Inv) Hlt Hn) as [c1 E1]. rewrite E1. apply IH; [exact Es'|lia|].
      destruct (set_some _ _ _ _ _ _ (c_wf _ _ _ _ _ _ _ _ Inv) E1) as [_ [_ [Ev1 [_ Hb1]]]]. pose proof (w_len _ _ (c_wf _ _ _ _ _ _ _ _ Inv)) as Lc. constructor.
      * eapply wf_set; [apply Inv|exact E1].
      * intros b' j' Nb'. apply Inv. exact Nb'.
      * intros k l Hk. rewrite Ev1, upd_nth. destruct (Nat.eqb_spec k i) as [->|]; [congruence|]. cbn [andb]. eapply Inv. exact Hk.
      * intros k Hk. rewrite Hb1, eqb_of_nat, Ev1. rewrite upd_nth, Lc. replace (Nat.ltb i (length tys)) with true by (symmetry; apply Nat.ltb_lt; lia). rewrite andb_true_r. destruct (Nat.eqb_spec k i) as [->|Nk].
        { split; [reflexivity|]. exists (Raw z), (Raw z). auto. }
        apply (c_done _ _ _ _ _ _ _ _ Inv k). lia.
Qed.
(** A clone has, in every slot, the value or string of the original's slot, in memory of its own; the original's memory is untouched.
    But no slot of the clone is NULL: exact only for tuples without NULL. *)
Theorem C30_clone : forall a tys t h, (length tys <= 64)%nat -> clonable a tys t h -> exists c h', clone a tys t h = Some (c, h') /\
  (forall b j, b <> a -> h' b j = h b j) /\
  (forall i len, nth_error tys i = Some (Some len) -> nth_error (vals c) i = Some (Ptr a i)) /\
  (forall i, (i < length tys)%nat -> exists v w, nth_error (vals t) i = Some v /\ nth_error (contents c) i = Some (Some w) /\ meaning h' w = meaning h v).
Proof.
  intros a tys t h Hn Hc.
  assert (Inv0 : cinv a (length tys) tys t h (new_heap a h) (new_tuple a tys) 0).
  { constructor.
    - apply made_wf. constructor. reflexivity.
    - intros b j Nb. unfold new_heap. destruct (Nat.eqb_spec b a); [congruence|reflexivity].
    - intros k len Hk. cbn [new_tuple vals]. rewrite (slots_nth a tys k 0 _ Hk). reflexivity.
    - intros k Hk. lia. }
  assert (L0 : clonable a tys t h) by exact Hc. destruct (clone_loop_spec a tys t h Hn Hc tys 0 (new_heap a h) (new_tuple a tys) eq_refl ltac:(lia) Inv0) as [c [h' [E Inv]]].
  exists c, h'. split; [exact E|]. split; [apply Inv|]. split; [apply Inv|]. intros i Hi. destruct (c_done _ _ _ _ _ _ _ _ Inv i Hi) as [Hm [v [w [Hv [Hw Hvw]]]]].
  exists v, w. split; [exact Hv|]. split; [|exact Hvw]. rewrite contents_nth by (rewrite (w_len _ _ (c_wf _ _ _ _ _ _ _ _ Inv)); exact Hi). rewrite Hm, Hw. reflexivity.
Qed.
Example C30_clone_inhabited : exists t h c h', set (new_tuple 1 [None; Some 3%nat]) 0 (Raw 42) false = Some t /\ clonable 2 [None; Some 3%nat] t h /\ clone 2 [None; Some 3%nat] t h = Some (c, h') /\ h' 2%nat 1%nat = [97; 98]%N.
Proof.
  eexists. exists (fun a i => if Nat.eqb a 1 then [97; 98]%N else []). do 2 eexists. split; [reflexivity|]. split; [|split; reflexivity].
  split; [reflexivity|]. intros [|[|i]] ty H; cbn in H; [injection H as <-; eexists; reflexivity|injection H as <-; exists 1%nat, 1%nat; split; [reflexivity|]; split; [discriminate|cbn; lia]|destruct i; discriminate].
Qed.
(** The clone of a tuple with a NULL is not equal to it: NULL has become the payload. *)
Theorem C30_refuted_clone_null : exists t c h', made 1 t /\ contents t = [None] /\ clone 2 [None] t (fun _ _ => []) = Some (c, h') /\ contents c = [Some (Raw 0)] /\ tuple_eq t c = Some false.
Proof. exists (new_tuple 1 [None]). do 2 eexists. split; [constructor; reflexivity|]. split; [reflexivity|]. split; [reflexivity|]. split; reflexivity. Qed.
(** Tuples with equal strings are not equal: addresses are compared. *)
Theorem C30_refuted_string_equality : exists t c h h', made 1 t /\ clone 2 [Some 5%nat] t h = Some (c, h') /\ map (option_map (meaning h')) (contents t) = map (option_map (meaning h')) (contents c) /\ tuple_eq t c = Some false.
Proof.
  assert (E : set_null (new_tuple 1 [Some 5%nat]) 0 false = Some (mkT [Ptr 1 0] 18446744073709551614)) by reflexivity.
  exists (mkT [Ptr 1 0] 18446744073709551614), (mkT [Ptr 2 0] 18446744073709551614), (fun _ _ => [104; 105]%N). eexists.
  split; [eapply m_null; [apply (m_new 1 1 [Some 5%nat]); reflexivity|exact E]|]. split; [reflexivity|]. split; reflexivity.
Qed.
(** More than 64 slots: slot 64 has no NULL bit. *)
Theorem C30_refuted_65_slots : exists a tys, length tys = 65%nat /\ forall v b, set (new_tuple a tys) 64 v b = None.
Proof. exists 0%nat, (repeat None 65). split; [reflexivity|]. intros v b. reflexivity. Qed.

(** ** C43: blocks *)
(** The set of alive tuples after a history, as a set of indices *)
Inductive bop : Set := Fill | Erase (i : N) | Clear.
Definition b_do (o : bop) (b : block) : option block := match o with Fill => Some (b_fill b) | Erase i => b_erase b i | Clear => Some (b_clear b) end.
Fixpoint b_run (l : list bop) (b : block) : option block := match l with [] => Some b | o :: l' => match b_do o b with Some b' => b_run l' b' | None => None end end.
Definition alive_spec (cap : N) (o : bop) (s : N -> Prop) : N -> Prop := match o with Fill => fun i => (i < cap)%N | Erase j => fun i => s i /\ i <> j | Clear => fun _ => False end.
Fixpoint alive_after (cap : N) (l : list bop) (s : N -> Prop) : N -> Prop := match l with [] => s | o :: l' => alive_after cap l' (alive_spec cap o s) end.
Definition bwf (c : N) (b : block) (s : N -> Prop) : Prop := cap b = c /\ (1 <= c <= 64)%N /\ W64 (bmask b) /\ forall i, N.testbit (bmask b) i = true <-> (s i /\ (i < c)%N).
Lemma bwf_step c b s o : bwf c b s -> match o with Erase i => (i < c)%N | _ => True end -> exists b', b_do o b = Some b' /\ bwf c b' (alive_spec c o s).
Proof.
  intros [Ec [Hc [W H]]] Ho. destruct o as [|i|]; cbn [b_do alive_spec].
  - eexists. split; [reflexivity|]. split; [exact Ec|]. split; [exact Hc|]. unfold b_fill. cbn [bmask cap]. rewrite Ec. split.
    + unfold W64. apply lt_pow2_testbit. intros j Hj. rewrite N.shiftr_spec by lia. apply W64_testbit_high; [apply W64_allones|lia].
    + intros j. rewrite N.shiftr_spec by lia. rewrite testbit_not64 by reflexivity. rewrite N.bits_0. cbn [negb]. rewrite andb_true_r, N.ltb_lt. split; lia.
  - unfold b_erase. rewrite Ec. destruct (N.ltb_spec i c) as [Hi|]; [|lia]. eexists. split; [reflexivity|]. split; [reflexivity|]. split; [exact Hc|]. cbn [bmask].
    destruct (set_spec (bmask b) i false W ltac:(lia)) as [m [Em [Wm Hm]]]. unfold sbs_set, CAPACITY in Em. destruct (N.ltb_spec i 64); [|lia]. injection Em as ->. split; [exact Wm|].
    intros j. rewrite Hm. destruct (N.eqb_spec j i) as [->|Nj]; [split; [discriminate|intros [[_ X] _]; congruence]|]. rewrite H. tauto.
  - eexists. split; [reflexivity|]. split; [exact Ec|]. split; [exact Hc|]. cbn [b_clear bmask]. split; [reflexivity|]. intros j. rewrite N.bits_0. split; [discriminate|tauto].
Qed.
Lemma b_alive_spec c b s i : bwf c b s -> (i < c)%N -> b_alive b i = Some (N.testbit (bmask b) i).
Proof.
  intros [Ec [Hc [W H]]] Hi. unfold b_alive. rewrite Ec. destruct (N.ltb_spec i c); [|lia]. f_equal. rewrite W64_shl1 by lia.
  destruct (N.testbit (bmask b) i) eqn:E.
  - destruct (N.eqb_spec (N.land (bmask b) (2 ^ i)) 0) as [Z|]; [|reflexivity]. assert (X : N.testbit (N.land (bmask b) (2 ^ i)) i = true) by (rewrite N.land_spec, E, testbit_pow2, N.eqb_refl; reflexivity). rewrite Z, N.bits_0 in X. discriminate.
  - destruct (N.eqb_spec (N.land (bmask b) (2 ^ i)) 0) as [|Z]; [reflexivity|]. exfalso. apply Z. apply N.bits_inj. intros j. rewrite N.land_spec, testbit_pow2, N.bits_0. destruct (N.eqb_spec j i) as [->|]; [rewrite E; reflexivity|apply andb_false_r].
Qed.
Lemma b_visit_ok c b s : bwf c b s -> forall fuel m, W64 m -> (forall i, N.testbit m i = true -> N.testbit (bmask b) i = true) -> (length (elems m) <= fuel)%nat -> b_visit fuel b m = Some (elems m).
Proof.
  intros B. destruct B as [Ec [Hc [W H]]]. assert (B : bwf c b s) by (split; auto). induction fuel as [|f IH]; intros m Wm Hm Hl; cbn [b_visit].
  - destruct (N.eqb_spec m 0) as [->|N0]; [reflexivity|]. rewrite elems_cons in Hl by assumption. cbn in Hl. lia.
  - destruct (N.eqb_spec m 0) as [->|N0]; [reflexivity|]. pose proof (testbit_ctz m N0) as T. pose proof (Hm _ T) as T'. pose proof T' as T''. apply H in T''. rewrite (b_alive_spec c b s _ B) by tauto. rewrite T'.
    rewrite sub64_1 by assumption. rewrite elems_cons in Hl |- * by assumption. cbn [length] in Hl. rewrite IH; [reflexivity|apply blsr_W64; exact Wm| |lia].
    intros i Hi. rewrite testbit_blsr in Hi by exact N0. apply andb_prop in Hi. apply Hm. tauto.
Qed.
(** After any history of fill, erase and clear on a block of capacity 1..64: a tuple is alive iff the history says so, [size] counts them,
    iteration visits exactly the alive tuples, in increasing order, and never a dead one. *)
Theorem C43_block : forall c l, (1 <= c <= 64)%N -> Forall (fun o => match o with Erase i => (i < c)%N | _ => True end) l ->
  exists b0 b, block_new c = Some b0 /\ b_run l b0 = Some b /\
  let A i := alive_after c l (fun _ => False) i in
  (forall i, (i < c)%N -> exists r, b_alive b i = Some r /\ (r = true <-> A i)) /\
  exists v, b_visit 64 b (bmask b) = Some v /\ StronglySorted N.lt v /\ (forall i, In i v <-> (A i /\ (i < c)%N)) /\
    b_size b = N.of_nat (length v) /\ (b_empty b = true <-> v = []).
Proof.
  intros c l Hc F. exists (mkB c 0). assert (B0 : bwf c (mkB c 0) (fun _ => False)).
  { split; [reflexivity|]. split; [exact Hc|]. split; [reflexivity|]. cbn [bmask]. intros i. rewrite N.bits_0. split; [discriminate|tauto]. }
  assert (X : forall l s b, Forall (fun o => match o with Erase i => (i < c)%N | _ => True end) l -> bwf c b s -> exists b', b_run l b = Some b' /\ bwf c b' (alive_after c l s)).
  { clear. induction l as [|o l IH]; intros s b F B; cbn [b_run alive_after]; [exists b; auto|]. inversion F as [|? ? F1 F2]; subst. destruct (bwf_step c b s o B F1) as [b1 [-> B1]]. apply IH; assumption. }
  destruct (X l _ _ F B0) as [b [E B]]. exists b. split; [unfold block_new; replace ((1 <=? c)%N && (c <=? 64)%N) with true by (symmetry; apply andb_true_iff; rewrite !N.leb_le; lia); reflexivity|]. split; [exact E|]. cbn zeta.
  destruct (B) as [Ec [_ [W H]]]. split.
  - intros i Hi. eexists. split; [eapply b_alive_spec; [exact B|exact Hi]|]. rewrite H. tauto.
  - exists (elems (bmask b)). split; [eapply b_visit_ok; [exact B|exact W|auto|apply length_elems_le]|]. split; [apply elems_sorted|]. split; [intros i; rewrite in_elems by exact W; apply H|].
    split; [apply popcount_elems; exact W|]. unfold b_empty, b_size. rewrite N.eqb_eq, popcount_elems by exact W. destruct (elems (bmask b)); cbn [length]; split; intros; try reflexivity; try discriminate; lia.
Qed.
(** Removing one tuple leaves all others. *)
Theorem C43_erase_exactly_one : forall c b s i, bwf c b s -> (i < c)%N -> exists b', b_erase b i = Some b' /\ forall j, (j < c)%N -> b_alive b' j = if (j =? i)%N then Some false else b_alive b j.
Proof.
  intros c b s i B Hi. destruct (bwf_step c b s (Erase i) B Hi) as [b' [E B']]. exists b'. split; [exact E|]. intros j Hj. rewrite (b_alive_spec _ _ _ _ B' Hj), (b_alive_spec _ _ _ _ B Hj).
  destruct B as [_ [_ [_ H]]], B' as [_ [_ [_ H']]]. specialize (H j). specialize (H' j). cbn [alive_spec] in H'. destruct (N.eqb_spec j i) as [->|Nj].
  - destruct (N.testbit (bmask b') i); [|reflexivity]. exfalso. tauto.
  - f_equal. destruct (N.testbit (bmask b') j), (N.testbit (bmask b) j); try reflexivity; exfalso; intuition discriminate.
Qed.
(** [at(i)] starts at the first alive tuple at or behind [i], which is [i] only if [i] is alive. *)
Theorem C43_at : forall c b s i, bwf c b s -> (i < c)%N -> exists m, b_at b i = Some m /\ b_visit 64 b m = Some (filter (fun j => (i <=? j)%N) (elems (bmask b))).
Proof.
  intros c b s i B Hi. pose proof B as B'. destruct B' as [Ec [Hc [W H]]]. unfold b_at. rewrite Ec. destruct (N.ltb_spec i c); [|lia]. eexists. split; [reflexivity|].
  set (m := N.land _ _). assert (Hm : forall j, N.testbit m j = N.testbit (bmask b) j && (i <=? j)%N).
  { intros j. unfold m. rewrite N.land_spec. unfold shl64. rewrite testbit_wrap. destruct (N.ltb_spec j 64) as [L|L]; [|rewrite W64_testbit_high by (auto; lia); reflexivity]. cbn [andb].
    destruct (N.leb_spec i j) as [L'|L'].
    - rewrite N.shiftl_spec_high' by exact L'. rewrite all_null_bit by lia. reflexivity.
    - rewrite N.shiftl_spec_low by exact L'. reflexivity. }
  assert (Wm : W64 m) by (apply land_lt; exact W).
  rewrite (b_visit_ok c b s B); [|exact Wm|intros j Hj; rewrite Hm in Hj; apply andb_prop in Hj; tauto|apply length_elems_le]. f_equal.
  rewrite !elems_def. rewrite (filter_ext (N.testbit m) (fun j => N.testbit (bmask b) j && (i <=? j)%N)) by exact Hm. generalize (map N.of_nat (seq 0 64)). intros l. induction l as [|x l IH]; cbn [filter]; [reflexivity|].
  destruct (N.testbit (bmask b) x); cbn [andb]; [|exact IH]. cbn [filter]. destruct (i <=? x)%N; [f_equal; exact IH|exact IH].
Qed.
Example C43_inhabited : exists b, b_run [Fill; Erase 3; Erase 0] (mkB 5 0) = Some b /\ b_visit 64 b (bmask b) = Some [1; 2; 4]%N /\ b_size b = 3%N.
Proof. eexists. repeat split; reflexivity. Qed.
