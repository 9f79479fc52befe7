From Coq Require Import NArith ZArith QArith Qminmax List Bool Arith Lia Permutation Sorted Field.
From Verif Require Import Word WordProofs Interp InterpSpec InterpProofs InterpJoins.
Import ListNotations.

Section Rows.
Context {R : Type}.
Implicit Types (b : @block R) (sts : list (@state R)) (k : @cont R).
Context (shuffle : forall A : Type, list A -> list A).
Context (shuffle_perm : forall A (l : list A), Permutation (shuffle A l) l).
Notation push := (push shuffle).
Notation step := (step shuffle).

(** ** Blocks of 64 rows *)
Fixpoint chunk_full (n : nat) (rows : list R) : list (@block R) :=
  match n with O => [] | S n' => load (firstn 64 rows) all_ones :: chunk_full n' (skipn 64 rows) end.
Fixpoint chunk_rest (n : nat) (rows : list R) : list R := match n with O => rows | S n' => chunk_rest n' (skipn 64 rows) end.
Definition chunks (last : bool) (rows : list R) : list (@block R) :=
  let n := Nat.div (length rows) 64 in let rest := chunk_rest n rows in
  chunk_full n rows ++ (if last || negb (Nat.eqb (length rest) 0) then [load rest (low_ones (N.of_nat (length rest)))] else []).
Lemma push_full_eq fs n : forall rows sts,
  match feed (push fs) sts (chunk_full n rows) with
  | None => push_full shuffle fs n rows sts = None
  | Some (sts', true) => exists r, push_full shuffle fs n rows sts = Some (sts', r, true)
  | Some (sts', false) => push_full shuffle fs n rows sts = Some (sts', chunk_rest n rows, false)
  end.
Proof.
  induction n as [|n IH]; intros rows sts; cbn [chunk_full feed push_full chunk_rest]; [reflexivity|].
  destruct (push fs sts (load (firstn 64 rows) all_ones)) as [[[sts' b'] [|]]|]; [eauto|apply IH|reflexivity].
Qed.
Lemma push_rows_eq fs last rows sts : push_rows shuffle fs last rows sts = feed (push fs) sts (chunks last rows).
Proof.
  unfold push_rows, chunks. rewrite feed_app. pose proof (push_full_eq fs (Nat.div (length rows) 64) rows sts) as P.
  destruct (feed (push fs) sts (chunk_full (Nat.div (length rows) 64) rows)) as [[sts' [|]]|].
  - destruct P as [r ->]. reflexivity.
  - rewrite P. destruct (last || _); [|reflexivity]. cbn [feed]. destruct (push fs sts' _) as [[[sts'' b'] [|]]|]; reflexivity.
  - rewrite P. reflexivity.
Qed.
Lemma chunk_full_ok n : forall rows, (n * 64 <= length rows)%nat -> Forall bok (chunk_full n rows) /\ flat_map tuples (chunk_full n rows) ++ chunk_rest n rows = rows /\ (length (chunk_rest n rows) = length rows - n * 64)%nat.
Proof.
  induction n as [|n IH]; intros rows H; cbn [chunk_full chunk_rest flat_map].
  - split; [constructor|]. split; [reflexivity|lia].
  - destruct (IH (skipn 64 rows)) as [A [B C]]; [rewrite skipn_length; lia|]. rewrite skipn_length in C.
    assert (L : length (firstn 64 rows) = 64%nat) by (rewrite firstn_length; lia).
    destruct (tuples_load (firstn 64 rows) 64 (eq_sym L) ltac:(lia)) as [Tu Bo]. change (N.ones (N.of_nat 64)) with all_ones in *.
    split; [constructor; assumption|]. split; [|lia]. rewrite <- app_assoc, B, Tu. apply firstn_skipn.
Qed.
Lemma chunks_ok last rows : Forall bok (chunks last rows) /\ flat_map tuples (chunks last rows) = rows.
Proof.
  unfold chunks. set (n := Nat.div (length rows) 64). assert (Hn : (n * 64 <= length rows < n * 64 + 64)%nat).
  { unfold n. pose proof (Nat.div_mod (length rows) 64 ltac:(lia)). pose proof (Nat.mod_upper_bound (length rows) 64 ltac:(lia)). lia. }
  clearbody n. destruct (chunk_full_ok n rows) as [A [B C]]; [lia|]. set (rest := chunk_rest n rows) in *. clearbody rest.
  destruct (tuples_load rest (length rest) eq_refl ltac:(lia)) as [Tu Bo]. rewrite <- low_ones_ones in Tu, Bo by lia.
  destruct (last || negb (Nat.eqb (length rest) 0)) eqn:E.
  - split; [apply Forall_app; auto|]. rewrite flat_map_app. cbn [flat_map]. rewrite app_nil_r, Tu. exact B.
  - rewrite app_nil_r. split; [exact A|]. apply orb_false_iff in E as [_ E]. apply negb_false_iff, Nat.eqb_eq in E. destruct rest; [|discriminate]. rewrite app_nil_r in B. exact B.
Qed.

(** ** Limit *)
Section Limit.
Context (limit offset : N).
Definition out_of (n : N) : bool := (n <? offset)%N || (limit_end limit offset <=? n)%N.
Fixpoint bad (n : N) (is : list N) : list N := match is with [] => [] | i :: is' => (if out_of n then [i] else []) ++ bad (n + 1) is' end.
Fixpoint good {A} (n : N) (is : list A) : list A := match is with [] => [] | i :: is' => (if out_of n then [] else [i]) ++ good (n + 1) is' end.
Lemma limit_mask_eq is : forall m n, limit_mask limit offset is m n = (fold_left (fun m i => N.clearbit m i) (bad n is) m, (n + N.of_nat (length is))%N).
Proof.
  induction is as [|i is IH]; intros m n; cbn [limit_mask bad]; [cbn; f_equal; lia|].
  rewrite IH. fold (out_of n). destruct (out_of n); cbn [app fold_left length]; f_equal; lia.
Qed.
Lemma bad_in n is x : In x (bad n is) -> In x is.
Proof. revert n. induction is as [|i is IH]; intros n; cbn; [tauto|]. rewrite in_app_iff. intros [H|H]; [|right; eapply IH; exact H]. destruct (out_of n); cbn in H; tauto. Qed.
Lemma good_filter is : forall n, NoDup is -> filter (fun j => negb (existsb (N.eqb j) (bad n is))) is = good n is.
Proof.
  induction is as [|i is IH]; intros n H; cbn [filter bad good]; [reflexivity|]. inversion H as [|? ? Hni Hnd]; subst.
  assert (E : forall c : bool, filter (fun j => negb (existsb (N.eqb j) ((if c then [i] else []) ++ bad (n + 1) is))) is = filter (fun j => negb (existsb (N.eqb j) (bad (n + 1) is))) is).
  { intros c. apply filter_ext_in. intros j Hj. destruct c; cbn [app existsb]; [|reflexivity]. destruct (N.eqb_spec j i) as [->|Hne]; [contradiction|reflexivity]. }
  rewrite E, IH by exact Hnd. destruct (out_of n); cbn [app existsb].
  - rewrite N.eqb_refl. reflexivity.
  - assert (F : existsb (N.eqb i) (bad (n + 1) is) = false). { apply not_true_is_false. intros F. apply existsb_exists in F as [x [Hx Hxi]]. apply N.eqb_eq in Hxi as ->. apply Hni. eapply bad_in; exact Hx. }
    rewrite F. reflexivity.
Qed.
Lemma clear_all_testbit is : forall m j, N.testbit (fold_left (fun m i => N.clearbit m i) is m) j = N.testbit m j && negb (existsb (N.eqb j) is).
Proof.
  intros m j. pose proof (elems_clear_fold (fun _ => false) is m j) as E. cbn [negb] in E.
  assert (F : forall l : list N, filter (fun _ => true) l = l) by (induction l as [|x l IH]; cbn; congruence). rewrite F in E. exact E.
Qed.
Lemma sorted_NoDup l : StronglySorted N.lt l -> NoDup l.
Proof. induction 1 as [|x l _ IH H]; constructor; [|exact IH]. intros Hin. rewrite Forall_forall in H. specialize (H x Hin). lia. Qed.
Definition limited (n : N) b : block := with_mask b (fst (limit_mask limit offset (elems (bmask b)) (bmask b) n)).
Lemma limited_elems n b : elems (bmask (limited n b)) = good n (elems (bmask b)).
Proof.
  unfold limited, with_mask; cbn [bmask]. rewrite limit_mask_eq. cbn [fst]. rewrite <- good_filter by (apply sorted_NoDup, elems_sorted).
  generalize (bad n (elems (bmask b))). intros bd. rewrite !elems_def. generalize (map N.of_nat (seq 0 64)). intros is.
  induction is as [|i is IH]; cbn [filter]; [reflexivity|]. rewrite clear_all_testbit. destruct (N.testbit (bmask b) i); cbn [andb filter]; [|exact IH].
  destruct (negb (existsb (N.eqb i) bd)); rewrite IH; reflexivity.
Qed.
Lemma limited_W64 n b : W64 (bmask b) -> W64 (bmask (limited n b)).
Proof.
  intros W. unfold limited, with_mask, W64; cbn [bmask]. rewrite limit_mask_eq; cbn [fst]. apply lt_pow2_testbit. intros j Hj. rewrite clear_all_testbit. apply andb_false_intro1. exact (testbit_high _ 64 j W Hj).
Qed.
Lemma good_in {A} (is : list A) : forall n x, In x (good n is) -> In x is.
Proof. induction is as [|i is IH]; intros n x; cbn; [tauto|]. rewrite in_app_iff. intros [H|H]; [|right; eapply IH; exact H]. destruct (out_of n); cbn in H; tauto. Qed.
Lemma limited_bok n b : bok b -> bok (limited n b).
Proof. intros [W H]. split; [apply limited_W64, W|]. intros i Hi. rewrite limited_elems in Hi. apply H. eapply good_in; exact Hi. Qed.
Lemma tuples_length b : bok b -> length (tuples b) = length (elems (bmask b)).
Proof.
  intros [_ H]. unfold tuples. induction (elems (bmask b)) as [|i is IH]; cbn; [reflexivity|]. rewrite app_length, IH by (intros j Hj; apply H; right; exact Hj).
  destruct (bdata b i) eqn:E; [reflexivity|]. exfalso. apply (H i); [left; reflexivity|exact E].
Qed.
Lemma limited_tuples n b : bok b -> tuples (limited n b) = good n (tuples b).
Proof.
  intros [_ H]. unfold tuples. rewrite limited_elems. unfold limited, with_mask; cbn [bdata]. revert n. induction (elems (bmask b)) as [|i is IH]; intros n; cbn [good flat_map]; [reflexivity|].
  rewrite flat_map_app. rewrite IH by (intros j Hj; apply H; right; exact Hj). destruct (bdata b i) eqn:E; [|exfalso; apply (H i); [left; reflexivity|exact E]].
  cbn [app good]. destruct (out_of n); cbn; rewrite ?E; reflexivity.
Qed.
Lemma good_app {A} (l1 : list A) : forall n l2, good n (l1 ++ l2) = good n l1 ++ good (n + N.of_nat (length l1)) l2.
Proof.
  induction l1 as [|x l1 IH]; intros n l2; cbn [app good length]; [f_equal; lia|]. rewrite IH, <- app_assoc. do 3 f_equal. lia.
Qed.
Lemma good_past {A} (l : list A) : forall n, (limit_end limit offset <= n)%N -> good n l = [].
Proof.
  induction l as [|x l IH]; intros n H; cbn; [reflexivity|]. unfold out_of. rewrite (proj2 (N.leb_le _ _) H), orb_true_r. cbn. apply IH. lia.
Qed.
Lemma good_firstn {A} (l : list A) : (limit + offset < 2 ^ 64)%N -> good 0 l = firstn (N.to_nat limit) (skipn (N.to_nat offset) l).
Proof.
  intros Hov. assert (E : limit_end limit offset = (offset + limit)%N) by (unfold limit_end, add64; apply wrap_small; unfold W64; lia).
  assert (G : forall (l : list A) n, good n l = firstn (N.to_nat (offset + limit - N.max n offset)) (skipn (N.to_nat (offset - n)) l)).
  { clear l. induction l as [|x l IH]; intros n; cbn [good].
    - rewrite skipn_nil, firstn_nil. reflexivity.
    - unfold out_of. rewrite E, IH. destruct (N.ltb_spec n offset) as [H1|H1]; cbn [orb app].
      + replace (N.to_nat (offset - n)) with (S (N.to_nat (offset - (n + 1)))) by lia. cbn [skipn]. f_equal. lia.
      + replace (N.to_nat (offset - n)) with 0%nat by lia. replace (N.to_nat (offset - (n + 1))) with 0%nat by lia. cbn [skipn].
        destruct (N.leb_spec (offset + limit) n) as [H2|H2]; cbn [app].
        * replace (N.to_nat (offset + limit - N.max n offset)) with 0%nat by lia. replace (N.to_nat (offset + limit - N.max (n + 1) offset)) with 0%nat by lia. destruct l; reflexivity.
        * replace (N.to_nat (offset + limit - N.max n offset)) with (S (N.to_nat (offset + limit - N.max (n + 1) offset))) by lia. reflexivity. }
  rewrite G. f_equal; [lia|]. f_equal. lia.
Qed.
Fixpoint limit_blocks (n : N) (bs : list (@block R)) : list (@block R) :=
  match bs with [] => [] | b :: bs' => limited n b :: limit_blocks (n + N.of_nat (length (elems (bmask b)))) bs' end.
Lemma limit_blocks_ok bs : Forall bok bs -> forall n, Forall bok (limit_blocks n bs) /\ flat_map tuples (limit_blocks n bs) = good n (flat_map tuples bs).
Proof.
  induction 1 as [|b bs H _ IH]; intros n; cbn [limit_blocks flat_map]; [split; [constructor|reflexivity]|].
  destruct (IH (n + N.of_nat (length (elems (bmask b))))%N) as [A B]. split; [constructor; [apply limited_bok, H|exact A]|].
  rewrite B, limited_tuples by exact H. rewrite good_app, tuples_length by exact H. reflexivity.
Qed.
Lemma limit_blocks_past bs : Forall bok bs -> forall n, (limit_end limit offset <= n)%N -> filter nonempty (limit_blocks n bs) = [].
Proof.
  induction 1 as [|b bs H _ IH]; intros n Hn; cbn [limit_blocks filter]; [reflexivity|].
  assert (E : bmask (limited n b) = 0%N). { apply (tuples_nil _ (limited_bok n b H)). rewrite limited_tuples by exact H. apply good_past, Hn. }
  unfold nonempty at 1. rewrite E. cbn. apply IH. lia.
Qed.
Lemma feed_limit fs bs : Forall bok bs -> forall s sts,
  match feed (push fs) sts (filter nonempty (limit_blocks (counter s) bs)) with
  | None => feed (push (FLimit limit offset :: fs)) (s :: sts) bs = None
  | Some (sts', _) => exists s' u, feed (push (FLimit limit offset :: fs)) (s :: sts) bs = Some (s' :: sts', u)
  end.
Proof.
  induction 1 as [|b bs H HF IH]; intros s sts; [cbn; eauto|].
  cbn [feed limit_blocks]. cbn [Interp.push hd tl Interp.step].
  destruct (limit_mask limit offset (elems (bmask b)) (bmask b) (counter s)) as [m n] eqn:EM.
  assert (Em : with_mask b m = limited (counter s) b) by (unfold limited; rewrite EM; reflexivity).
  assert (En : n = (counter s + N.of_nat (length (elems (bmask b))))%N) by (rewrite limit_mask_eq in EM; injection EM as _ <-; reflexivity).
  rewrite Em. rewrite <- En. set (lb := limited (counter s) b). cbn [filter].
  assert (Past : (limit_end limit offset <=? n)%N = true -> filter nonempty (limit_blocks n bs) = []) by (intros Hp; apply limit_blocks_past; [exact HF|apply N.leb_le; exact Hp]).
  unfold nonempty at 1. destruct (N.eqb (bmask lb) 0) eqn:E0; cbn [negb].
  - destruct (limit_end limit offset <=? n)%N eqn:EL; cbn [orb].
    + rewrite Past by reflexivity. cbn [feed]. eauto.
    + specialize (IH (with_counter s n) sts). exact IH.
  - cbn [feed]. destruct (push fs sts lb) as [[[sts' b'] [|]]|] eqn:EP; cbn [orb].
    + eauto.
    + destruct (limit_end limit offset <=? n)%N eqn:EL.
      * rewrite Past by reflexivity. cbn [feed]. eauto.
      * specialize (IH (with_counter s n) sts'). exact IH.
    + reflexivity.
Qed.
End Limit.

(** ** Operators that keep everything *)
Lemma feed_sink (f : frame) (T : state -> list R -> state) :
  (forall k s sts b, step f k s sts b = Some (T s (tuples b), sts, b, false)) ->
  (forall s l1 l2, T (T s l1) l2 = T s (l1 ++ l2)) ->
  forall fs bs s sts, bs <> [] -> feed (push (f :: fs)) (s :: sts) bs = Some (T s (flat_map tuples bs) :: sts, false).
Proof.
  intros Hf HT fs bs. induction bs as [|b bs IH]; intros s sts Hne; [congruence|].
  cbn [feed flat_map]. cbn [Interp.push hd tl]. rewrite Hf. destruct bs as [|b' bs]; [cbn [feed flat_map]; rewrite app_nil_r; reflexivity|].
  rewrite IH by discriminate. rewrite HT. reflexivity.
Qed.

(** ** Sorting *)
Section Sorting.
Definition kind (d : datum) : nat := match d with DInt _ => 0 | DReal _ => 1 | DChars _ => 2 end.
Definition sortable (e : R -> option datum) (l : list R) : Prop := exists n, Forall (fun r => exists d, e r = Some d /\ kind d = n) l.
Lemma cmp_chars_spec (a : list N) : forall b : list N, match cmp_chars a b with 0%Z => a = b | Zneg _ => chars_lt a b | Zpos _ => chars_lt b a end.
Proof.
  induction a as [|x a IH]; intros [|y b]; cbn; auto. destruct (N.ltb_spec x y); [left; assumption|]. destruct (N.ltb_spec y x); [left; assumption|].
  assert (x = y) by lia. subst y. specialize (IH b). destruct (cmp_chars a b); [congruence|right; auto|right; auto].
Qed.
Lemma chars_lt_irrefl a : ~ chars_lt a a.
Proof. induction a as [|x a IH]; cbn; [tauto|]. intros [H|[_ H]]; [lia|auto]. Qed.
Lemma chars_lt_trans (a : list N) : forall b c : list N, chars_lt a b -> chars_lt b c -> chars_lt a c.
Proof.
  induction a as [|x a IH]; intros [|y b] [|z c]; cbn; try tauto. intros [H1|[-> H1]] [H2|[-> H2]]; [left; lia|left; lia|left; lia|right; split; [reflexivity|eauto]].
Qed.
(** a total preorder on cells of one kind *)
Definition cle (a b : option datum) : Prop := cell_lt a b \/ cell_eq a b.
Lemma cmp_cell_spec (a b : option datum) n : (exists d, a = Some d /\ kind d = n) -> (exists d, b = Some d /\ kind d = n) ->
  exists c, cmp_cell a b = Some c /\ ((c < 0)%Z <-> cell_lt a b) /\ (c = 0%Z <-> cell_eq a b) /\ ((0 < c)%Z <-> cell_lt b a) /\
  (cell_lt a b -> ~ cell_eq a b /\ ~ cell_lt b a).
Proof.
  intros [d [-> Hd]] [d' [-> Hd']]. destruct d as [x|p|s], d' as [y|q|t]; cbn in Hd, Hd'; try congruence; cbn [cmp_cell cell_lt cell_eq].
  - exists (of_comparison (x ?= y)%Z). split; [reflexivity|]. destruct (Z.compare_spec x y); cbn [of_comparison]; (split; [lia|]); (split; [split; [intros; try discriminate; congruence|intros E; inversion E; lia]|]); (split; [lia|]); intros; (split; [intros E; inversion E; lia|lia]).
  - exists (of_comparison (p ?= q)%Q). split; [reflexivity|]. destruct (Qcompare_spec p q) as [E|E|E]; cbn [of_comparison].
    + split; [split; [lia|intros F; rewrite E in F; exfalso; exact (Qlt_irrefl _ F)]|]. split; [tauto|]. split; [split; [lia|intros F; rewrite E in F; exfalso; exact (Qlt_irrefl _ F)]|]. intros F; rewrite E in F; exfalso; exact (Qlt_irrefl _ F).
    + split; [split; [auto|lia]|]. split; [split; [lia|intros F; rewrite F in E; exfalso; exact (Qlt_irrefl _ E)]|]. split; [split; [lia|intros F; exfalso; exact (Qlt_irrefl _ (Qlt_trans _ _ _ E F))]|].
      intros _. split; [intros F; rewrite F in E; exact (Qlt_irrefl _ E)|intros F; exact (Qlt_irrefl _ (Qlt_trans _ _ _ E F))].
    + split; [split; [lia|intros F; exfalso; exact (Qlt_irrefl _ (Qlt_trans _ _ _ E F))]|]. split; [split; [lia|intros F; rewrite F in E; exfalso; exact (Qlt_irrefl _ E)]|]. split; [split; [auto|lia]|].
      intros F; exfalso; exact (Qlt_irrefl _ (Qlt_trans _ _ _ E F)).
  - exists (cmp_chars s t). split; [reflexivity|]. pose proof (cmp_chars_spec s t) as C. destruct (cmp_chars s t) as [|z|z].
    + subst t. split; [split; [lia|intros F; exfalso; exact (chars_lt_irrefl _ F)]|]. split; [tauto|]. split; [split; [lia|intros F; exfalso; exact (chars_lt_irrefl _ F)]|]. intros F; exfalso; exact (chars_lt_irrefl _ F).
    + split; [split; [lia|intros F; exfalso; exact (chars_lt_irrefl _ (chars_lt_trans _ _ _ C F))]|]. split; [split; [lia|intros F; inversion F; subst; exfalso; exact (chars_lt_irrefl _ C)]|]. split; [split; [auto|lia]|].
      intros F; exfalso; exact (chars_lt_irrefl _ (chars_lt_trans _ _ _ C F)).
    + split; [split; [auto|lia]|]. split; [split; [lia|intros F; inversion F; subst; exfalso; exact (chars_lt_irrefl _ C)]|]. split; [split; [lia|intros F; exfalso; exact (chars_lt_irrefl _ (chars_lt_trans _ _ _ C F))]|].
      intros _. split; [intros F; inversion F; subst; exact (chars_lt_irrefl _ C)|intros F; exact (chars_lt_irrefl _ (chars_lt_trans _ _ _ C F))].
Qed.
Lemma cell_lt_trans (a b c : option datum) : cell_lt a b -> cell_lt b c -> cell_lt a c.
Proof. destruct a as [[]|], b as [[]|], c as [[]|]; cbn; try tauto; [lia|apply Qlt_trans|apply chars_lt_trans]. Qed.
Lemma cell_eq_sym (a b : option datum) : cell_eq a b -> cell_eq b a.
Proof. destruct a as [[]|], b as [[]|]; cbn; try congruence; apply Qeq_sym. Qed.
Lemma cell_eq_trans (a b c : option datum) : cell_eq a b -> cell_eq b c -> cell_eq a c.
Proof. destruct a as [[]|], b as [[]|], c as [[]|]; cbn; try congruence; try discriminate; apply Qeq_trans. Qed.
Lemma cell_lt_eq (a b c : option datum) : cell_lt a b -> cell_eq b c -> cell_lt a c.
Proof. destruct a as [[]|], b as [[]|], c as [[]|]; cbn; intros H E; try tauto; try discriminate; try (inversion E; subst; exact H); rewrite <- E; exact H. Qed.
Lemma cell_eq_lt (a b c : option datum) : cell_eq a b -> cell_lt b c -> cell_lt a c.
Proof. destruct a as [[]|], b as [[]|], c as [[]|]; cbn; intros E H; try tauto; try discriminate; try (inversion E; subst; exact H); rewrite E; exact H. Qed.

(** the comparator computes the lexicographic order *)
Lemma sort_cmp_spec order : forall x y, (forall e asc, In (e, asc) order -> sortable e [x; y]) ->
  exists c, sort_cmp order x y = Some c /\ ((c < 0)%Z <-> precedes order x y) /\ ((0 < c)%Z <-> precedes order y x).
Proof.
  induction order as [|[e asc] order IH]; intros x y H; cbn [sort_cmp].
  - exists 0%Z. split; [reflexivity|]. split; (split; [lia|intros P; inversion P]).
  - destruct (H e asc (or_introl eq_refl)) as [n Hn]. inversion Hn as [|? ? Hx Hn']; subst. inversion Hn' as [|? ? Hy _]; subst.
    destruct (cmp_cell_spec _ _ n Hx Hy) as [c [-> [L [E [G X]]]]]. destruct (cmp_cell_spec _ _ n Hy Hx) as [c2 [_ [_ [_ [_ X2]]]]].
    destruct (IH x y) as [c' [HC [L' G']]]; [intros e' asc' Hin; eapply H; right; exact Hin|].
    destruct (Z.lt_trichotomy c 0) as [Hc|[Hc|Hc]].
    + assert (Hl := proj1 L Hc). destruct (X Hl) as [X1 X3]. destruct asc.
      * exists c. rewrite (proj2 (Z.eqb_neq c 0)) by lia. split; [reflexivity|]. split.
        -- split; [intros _; constructor; exact Hl|lia].
        -- split; [lia|]. intros P. inversion P; subst; [contradiction|]. exfalso. apply X1. apply cell_eq_sym. assumption.
      * exists (- c)%Z. rewrite (proj2 (Z.eqb_neq (- c) 0)) by lia. split; [reflexivity|]. split.
        -- split; [lia|]. intros P. inversion P; subst; [contradiction|]. contradiction.
        -- split; [intros _; constructor; exact Hl|lia].
    + assert (He := proj1 E Hc). assert (N1 : ~ cell_lt (e x) (e y)) by (intros F; exact (proj1 (X F) He)). assert (N2 : ~ cell_lt (e y) (e x)) by (intros F; exact (proj1 (X2 F) (cell_eq_sym _ _ He))).
      exists c'. subst c. replace (if asc then 0%Z else (- 0)%Z) with 0%Z by (destruct asc; reflexivity). cbn [Z.eqb]. split; [exact HC|]. split.
      * rewrite L'. split; [intros P; apply prec_next; assumption|intros P; inversion P; subst; [contradiction|contradiction|assumption]].
      * rewrite G'. split; [intros P; apply prec_next; [apply cell_eq_sym|]; assumption|intros P; inversion P; subst; [contradiction|contradiction|assumption]].
    + assert (Hl := proj1 G Hc). destruct (X2 Hl) as [X1 X3]. destruct asc.
      * exists c. rewrite (proj2 (Z.eqb_neq c 0)) by lia. split; [reflexivity|]. split.
        -- split; [lia|]. intros P. inversion P; subst; [contradiction|]. exfalso. apply X1. apply cell_eq_sym. assumption.
        -- split; [intros _; constructor; exact Hl|lia].
      * exists (- c)%Z. rewrite (proj2 (Z.eqb_neq (- c) 0)) by lia. split; [reflexivity|]. split.
        -- split; [intros _; constructor; exact Hl|lia].
        -- split; [lia|]. intros P. inversion P; subst; [contradiction|]. contradiction.
Qed.
Lemma precedes_irrefl (order : list ((R -> option datum) * bool)) (x : R) : (forall e asc, In (e, asc) order -> sortable e [x]) -> ~ precedes order x x.
Proof.
  induction order as [|[e asc] order IH]; intros H P; [inversion P|].
  destruct (H e asc (or_introl eq_refl)) as [n Hn]. inversion Hn as [|? ? Hx _]; subst. destruct (cmp_cell_spec _ _ n Hx Hx) as [c [_ [_ [_ [_ X]]]]].
  inversion P; subst; [apply (X ltac:(assumption)); assumption|apply (X ltac:(assumption)); assumption|].
  apply IH; [intros e' asc' Hin; eapply H; right; exact Hin|assumption].
Qed.
Lemma precedes_trans (order : list ((R -> option datum) * bool)) : forall x y z : R, precedes order x y -> precedes order y z -> precedes order x z.
Proof.
  induction order as [|[e asc] order IH]; intros x y z P Q; [inversion P|]. inversion P; subst; inversion Q; subst.
  - constructor. eapply cell_lt_trans; eassumption.
  - constructor. eapply cell_lt_eq; eassumption.
  - constructor. eapply cell_lt_trans; eassumption.
  - constructor. eapply cell_eq_lt; [apply cell_eq_sym; eassumption|assumption].
  - constructor. eapply cell_eq_lt; eassumption.
  - constructor. eapply cell_lt_eq; [eassumption|apply cell_eq_sym; assumption].
  - apply prec_next; [eapply cell_eq_trans; eassumption|eapply IH; eassumption].
Qed.
End Sorting.
End Rows.
