(** * C24: the linear allocator *)
From Coq Require Import List Bool NArith Lia Permutation.
From Verif Require Import Arith ArithProps LinAlloc.
Import ListNotations.
Local Open Scope N_scope.

Lemma mark_small o : o < MSB -> mark o = o + MSB.
Proof.
  intros H. unfold mark. assert (E : N.land o MSB = 0).
  { unfold MSB. replace (2 ^ 63) with (N.shiftl 1 63) by reflexivity. apply N.bits_inj_0. intros i. rewrite N.land_spec.
    destruct (N.eq_dec i 63) as [->|Hi].
    - rewrite (N.bits_above_log2 o 63); [reflexivity|]. destruct (N.eq_dec o 0) as [->|Hz]; [reflexivity|]. apply N.log2_lt_pow2; [lia|exact H].
    - rewrite N.shiftl_1_l, N.pow2_bits_false by congruence. apply andb_false_r. }
  rewrite <- N.lxor_lor by exact E. symmetry. apply N.add_nocarry_lxor. exact E.
Qed.
Lemma land_MSB_small o : o < MSB -> N.land o MSB = 0.
Proof.
  intros H. unfold MSB in *. apply N.bits_inj_0. intros i. rewrite N.land_spec.
  destruct (N.eq_dec i 63) as [->|Hi].
  - rewrite (N.bits_above_log2 o 63); [reflexivity|]. destruct (N.eq_dec o 0) as [->|Hz]; [reflexivity|]. apply N.log2_lt_pow2; [lia|exact H].
  - rewrite N.pow2_bits_false by congruence. apply andb_false_r.
Qed.
Lemma is_marked_small o : o < MSB -> is_marked o = false.
Proof. intros H. unfold is_marked. rewrite (land_MSB_small o H). reflexivity. Qed.
Lemma is_marked_mark o : is_marked (mark o) = true.
Proof.
  unfold is_marked, mark. rewrite N.land_lor_distr_l, N.land_diag. destruct (N.eqb_spec (N.lor (N.land o MSB) MSB) 0) as [E|]; [|reflexivity].
  apply N.lor_eq_0_iff in E. destruct E as [_ E]. discriminate E.
Qed.
Lemma unmarked_mark o : o < MSB -> unmarked (mark o) = o.
Proof.
  intros H. unfold unmarked, mark. apply N.bits_inj. intros i. rewrite N.ldiff_spec, N.lor_spec.
  pose proof (f_equal (fun x => N.testbit x i) (land_MSB_small o H)) as E. cbn beta in E. rewrite N.land_spec, N.bits_0 in E.
  destruct (N.testbit o i), (N.testbit MSB i); try reflexivity. discriminate E.
Qed.
Lemma mark_big o : o < MSB -> MSB <= mark o.
Proof. intros H. rewrite (mark_small o H). lia. Qed.

(** Ghost description of the stack of allocations: (offset, size, freed), last allocation first. *)
Notation rec := (N * N * bool)%type.
Fixpoint tiles (e : N) (g : list rec) : Prop :=
  match g with
  | [] => e = 0
  | (o, sz, _) :: g' => 0 < sz /\ o + sz = e /\ tiles o g'
  end.
Definition entry (r : rec) : N := let '(o, _, f) := r in if f then mark o else o.
Definition livef (r : rec) : bool := let '(_, _, f) := r in negb f.
Definition live_of (g : list rec) : list (N * N) := map fst (filter livef g).
Definition head_live (g : list rec) : Prop := match g with [] => True | r :: _ => livef r = true end.

Record LInv (P : N) (s : la) (live : list (N * N)) (g : list rec) : Prop := {
  li_tiles : tiles (off s) g;
  li_allocs : allocs s = map entry g;
  li_live : Permutation live (live_of g);
  li_head : head_live g;
  li_max : off s <= MAX_FILE;
  li_file : off s <= fsize s;
  li_page : Forall (fun r : rec => let '(o, sz, _) := r in multiple_of P o /\ multiple_of P sz) g /\ multiple_of P (off s)
}.

Lemma tiles_below e g o sz f : tiles e g -> In (o, sz, f) g -> o + sz <= e /\ 0 < sz.
Proof.
  revert e. induction g as [|[[o' sz'] f'] g IH]; intros e H Hin; [destruct Hin|]. cbn [tiles] in H. destruct H as [H1 [H2 H3]].
  destruct Hin as [E|Hin]; [injection E as -> -> ->; lia|]. specialize (IH _ H3 Hin). lia.
Qed.
Lemma entry_lt e g r : tiles e g -> e <= MAX_FILE -> In r g -> let '(o, _, _) := r in o < MSB.
Proof. intros H Hm Hin. destruct r as [[o sz] f]. pose proof (tiles_below _ _ _ _ _ H Hin). unfold MSB, MAX_FILE in *. lia. Qed.

(** Effect of marking the entry of a live allocation. *)
Lemma mark_first_spec g e o sz : tiles e g -> e <= MAX_FILE -> In (o, sz, false) g ->
  exists g1 g2, g = g1 ++ (o, sz, false) :: g2 /\ mark_first (map entry g) o = Some (map entry (g1 ++ (o, sz, true) :: g2)) /\ (forall r, In r g1 -> let '(o', _, _) := r in o < o').
Proof.
  revert e. induction g as [|[[o' sz'] f'] g IH]; intros e H Hm Hin; [destruct Hin|]. cbn [map mark_first].
  pose proof (entry_lt _ _ _ H Hm (or_introl eq_refl)) as Ho'. cbn in Ho'. cbn [tiles] in H. destruct H as [H1 [H2 H3]].
  destruct Hin as [E|Hin].
  - injection E as -> -> ->. cbn [entry]. rewrite N.eqb_refl. exists [], g. repeat split; auto. intros r [].
  - assert (Hlt : o + sz <= o' /\ 0 < sz) by (apply (tiles_below _ _ _ _ _ H3 Hin)).
    assert (Ne : entry (o', sz', f') =? o = false).
    { apply N.eqb_neq. cbn [entry]. destruct f'; [|lia]. pose proof (mark_big _ Ho'). unfold MSB, MAX_FILE in *. lia. }
    rewrite Ne. destruct (IH o' H3 ltac:(unfold MSB, MAX_FILE in *; lia) Hin) as [g1 [g2 [-> [-> Hg]]]].
    exists ((o', sz', f') :: g1), g2. repeat split; auto. intros r [<-|Hr]; [lia|]. apply Hg. exact Hr.
Qed.
Lemma mark_first_none g e o : tiles e g -> e <= MAX_FILE -> o < MSB -> (forall sz, ~ In (o, sz, false) g) -> mark_first (map entry g) o = None.
Proof.
  revert e. induction g as [|[[o' sz'] f'] g IH]; intros e H Hm Ho Hin; [reflexivity|]. cbn [map mark_first].
  pose proof (entry_lt _ _ _ H Hm (or_introl eq_refl)) as Ho'. cbn in Ho'. cbn [tiles] in H. destruct H as [H1 [H2 H3]].
  assert (Ne : entry (o', sz', f') =? o = false).
  { apply N.eqb_neq. cbn [entry]. destruct f'; [pose proof (mark_big _ Ho'); lia|]. intros ->. apply (Hin sz'). left. reflexivity. }
  rewrite Ne, (IH o'); auto; [unfold MSB, MAX_FILE in *; lia|]. intros sz X. apply (Hin sz). right. exact X.
Qed.

(** The reclaiming loop removes exactly the freed prefix. *)
Fixpoint drop_freed (g : list rec) (e : N) : N * list rec :=
  match g with
  | [] => (e, [])
  | (o, sz, f) :: g' => if f then drop_freed g' o else (e, g)
  end.
Lemma reclaim_spec g e n : tiles e g -> e <= MAX_FILE -> n = e -> reclaim (map entry g) n = (fst (drop_freed g e), map entry (snd (drop_freed g e))).
Proof.
  revert e n. induction g as [|[[o sz] f] g IH]; intros e n H Hm ->; [reflexivity|]. cbn [map reclaim drop_freed].
  pose proof (entry_lt _ _ _ H Hm (or_introl eq_refl)) as Ho. cbn in Ho. cbn [tiles] in H. destruct H as [H1 [H2 H3]].
  cbn [entry]. destruct f.
  - rewrite is_marked_mark, (unmarked_mark o Ho). apply IH; auto. unfold MSB, MAX_FILE in *. lia.
  - rewrite (is_marked_small o Ho). reflexivity.
Qed.
Lemma drop_freed_spec g e : tiles e g -> let '(e', g') := drop_freed g e in
  tiles e' g' /\ head_live g' /\ live_of g' = live_of g /\ e' <= e /\ (exists g0, g = g0 ++ g') /\ (forall P : N -> Prop, P e -> Forall (fun r : rec => let '(o, _, _) := r in P o) g -> P e').
Proof.
  revert e. induction g as [|[[o sz] f] g IH]; intros e H; cbn [drop_freed].
  - repeat split; auto; [lia|]. exists []. reflexivity.
  - destruct f.
    + pose proof (proj2 (proj2 H)) as H3. destruct H as [H1 [H2 _]]. specialize (IH o H3). destruct (drop_freed g o) as [e' g']. destruct IH as [A [B [C [D [[g0 E] F]]]]].
      repeat split; auto; [lia| |]. { exists ((o, sz, true) :: g0). rewrite E. reflexivity. }
      intros P Pe Pg. inversion Pg; subst. apply F; auto.
    + repeat split; auto; [apply H|apply H|apply H|lia|]. exists []. reflexivity.
Qed.

Lemma page_size_ok P size : power_of_two P -> P < 2 ^ 64 -> 0 < size -> size < 2 ^ 64 -> size <= ceil_to_next_page P size ->
  multiple_of P (ceil_to_next_page P size) /\ ceil_to_next_page P size < 2 ^ 64.
Proof.
  intros HP HP64 Hz Hs Hc. assert (P <> 0) by (destruct HP as [k ->]; apply N.pow_nonzero; discriminate).
  pose proof (C05_ceil_to_next_page P size HP HP64 Hs _ (ceil_div_least size P H)) as E. rewrite E in *.
  destruct (N.ltb_spec ((size + (P - 1)) / P * P) (2 ^ 64)); [|lia]. split; [eexists; reflexivity|assumption].
Qed.

Lemma page_le P size : power_of_two P -> P < 2 ^ 64 -> size < 2 ^ 63 -> P <= 2 ^ 63 -> ceil_to_next_page P size <= 2 ^ 63.
Proof.
  intros HP HP64 Hs HPm. assert (P <> 0) by (destruct HP as [k ->]; apply N.pow_nonzero; discriminate).
  pose proof (ceil_div_least size P H) as L. rewrite (C05_ceil_to_next_page P size HP HP64 ltac:(lia) _ L). destruct L as [_ [_ L]].
  destruct (N.ltb_spec ((size + (P - 1)) / P * P) (2 ^ 64)); [|lia]. apply L; [|lia].
  destruct HP as [k ->]. assert (k <= 63) by (apply (N.pow_le_mono_r_iff 2); lia). exists (2 ^ (63 - k)). rewrite <- N.pow_add_r. f_equal. lia.
Qed.

Lemma inv_alloc P s live g size ok s' m : power_of_two P -> P <= 2 ^ 63 -> LInv P s live g -> size < 2 ^ 64 -> allocate P s size ok = AOk s' m ->
  exists sz, m = (off s, sz) /\ size <= sz /\ LInv P s' (m :: live) ((off s, sz, false) :: g).
Proof.
  intros HP HPm I Hs H. unfold allocate in H. destruct (N.eqb_spec size 0) as [|Nz]; [discriminate|].
  set (al := ceil_to_next_page P size) in *. cbv zeta in H. destruct (N.ltb_spec al size) as [|Hal]; [discriminate|].
  destruct (N.ltb_spec MAX_FILE (wr 64 (off s + al))) as [|Hfs]; [discriminate|].
  destruct (negb ok || (MSB <=? al)) eqn:E; [discriminate|]. apply orb_false_iff in E. destruct E as [_ E]. apply N.leb_gt in E.
  injection H as <- <-. exists al. split; [reflexivity|]. split; [exact Hal|].
  destruct (page_size_ok P size HP ltac:(lia) ltac:(lia) Hs Hal) as [Hm _]. fold al in Hm.
  pose proof (li_max _ _ _ _ I) as Mx. assert (Ew : wr 64 (off s + al) = off s + al) by (unfold wr; apply N.mod_small; unfold MAX_FILE, MSB in *; lia).
  rewrite Ew in *. destruct (li_page _ _ _ _ I) as [Pg Po]. constructor; cbn [off allocs fsize].
  - cbn [tiles]. split; [lia|]. split; [reflexivity|]. apply (li_tiles _ _ _ _ I).
  - cbn [map entry]. f_equal. apply (li_allocs _ _ _ _ I).
  - unfold live_of. cbn [filter livef negb map fst]. apply perm_skip. apply (li_live _ _ _ _ I).
  - reflexivity.
  - exact Hfs.
  - lia.
  - split; [constructor; auto|]. destruct Po as [a Ea], Hm as [b Eb]. exists (a + b). lia.
Qed.
Lemma inv_fail P s live g size ok s' : power_of_two P -> P <= 2 ^ 63 -> LInv P s live g -> size < 2 ^ 63 -> allocate P s size ok = AFail s' -> LInv P s' live g.
Proof.
  intros HP HPm I Hs H. unfold allocate in H. destruct (N.eqb_spec size 0) as [|Nz]; [discriminate|].
  pose proof (page_le P size HP ltac:(lia) Hs HPm) as Hle.
  set (al := ceil_to_next_page P size) in *. cbv zeta in H. destruct (N.ltb_spec al size) as [|Hal]; [injection H as <-; exact I|].
  destruct (N.ltb_spec MAX_FILE (wr 64 (off s + al))) as [|Hfs]; [injection H as <-; exact I|].
  destruct (negb ok || (MSB <=? al)); [|discriminate]. injection H as <-.
  pose proof (li_max _ _ _ _ I) as Mx. assert (Ew : wr 64 (off s + al) = off s + al) by (unfold wr; apply N.mod_small; unfold MAX_FILE, MSB in *; lia).
  destruct I. constructor; cbn [off allocs fsize]; auto. rewrite Ew. lia.
Qed.
Lemma filter_mid g1 o sz f g2 : live_of (g1 ++ (o, sz, f) :: g2) = live_of g1 ++ (if f then [] else [(o, sz)]) ++ live_of g2.
Proof. unfold live_of. rewrite filter_app, map_app. cbn [filter livef]. destruct f; reflexivity. Qed.
Lemma tiles_mid e g1 o sz f f' g2 : tiles e (g1 ++ (o, sz, f) :: g2) -> tiles e (g1 ++ (o, sz, f') :: g2).
Proof. revert e. induction g1 as [|[[o1 sz1] f1] g1 IH]; intros e H; cbn [app tiles] in *; [exact H|]. destruct H as [A [B C]]. auto. Qed.

Lemma inv_free P s l1 m l2 g : LInv P s (l1 ++ m :: l2) g -> exists s' g', deallocate s m = Some s' /\ LInv P s' (l1 ++ l2) g'.
Proof.
  intros I. destruct m as [o sz]. pose proof (li_tiles _ _ _ _ I) as T. pose proof (li_max _ _ _ _ I) as Mx.
  assert (Hin : In (o, sz, false) g).
  { assert (X : In (o, sz) (live_of g)) by (eapply Permutation_in; [apply (li_live _ _ _ _ I)|apply in_elt]).
    unfold live_of in X. apply in_map_iff in X. destruct X as [[[o' sz'] f] [E X]]. cbn in E. injection E as -> ->. apply filter_In in X. destruct X as [X Y].
    destruct f; [discriminate|]. exact X. }
  destruct (mark_first_spec g (off s) o sz T Mx Hin) as [g1 [g2 [-> [Hmk Hg1]]]].
  unfold deallocate. cbn [fst]. rewrite (li_allocs _ _ _ _ I), Hmk.
  assert (HP : Permutation (l1 ++ l2) (live_of g1 ++ live_of g2)).
  { pose proof (li_live _ _ _ _ I) as L. rewrite filter_mid in L. cbn [app] in L. apply Permutation_app_inv in L. exact L. }
  destruct (li_page _ _ _ _ I) as [Pg Po].
  assert (Pg' : Forall (fun r : rec => let '(o, sz, _) := r in multiple_of P o /\ multiple_of P sz) (g1 ++ (o, sz, true) :: g2)).
  { apply Forall_app in Pg. destruct Pg as [A B]. inversion B; subst. apply Forall_app. split; [assumption|]. constructor; assumption. }
  pose proof (tiles_mid _ _ _ _ _ true _ T) as T'.
  destruct g1 as [|[[o1 sz1] f1] g1].
  - cbn [app map entry]. rewrite N.eqb_refl. cbn [app] in *.
    change (mark o :: map entry g2) with (map entry ((o, sz, true) :: g2)).
    rewrite (surjective_pairing (reclaim _ 0)).
    assert (E : reclaim (map entry ((o, sz, true) :: g2)) 0 = reclaim (map entry ((o, sz, true) :: g2)) (off s)).
    { cbn [map reclaim entry]. rewrite is_marked_mark. reflexivity. }
    rewrite E, (reclaim_spec _ (off s) (off s) T' Mx eq_refl). cbn [fst snd].
    pose proof (drop_freed_spec _ _ T') as D. destruct (drop_freed ((o, sz, true) :: g2) (off s)) as [e' g']. destruct D as [D1 [D2 [D3 [D4 [[g0 D5] D6]]]]]. cbn [fst snd].
    exists (mkLA e' (map entry g') e'), g'. split; [reflexivity|]. constructor; cbn [off allocs fsize]; auto; try lia.
    + rewrite D3. unfold live_of in *. cbn [filter livef negb map app] in *. exact HP.
    + split.
      * rewrite D5 in Pg'. apply Forall_app in Pg'. apply Pg'.
      * apply (D6 (multiple_of P)); [exact Po|]. eapply Forall_impl; [|exact Pg']. intros [[a b] c] [X _]. exact X.
  - cbn [app map].
    assert (Ne : entry (o1, sz1, f1) =? o = false).
    { apply N.eqb_neq. pose proof (Hg1 _ (or_introl eq_refl)) as X. cbn in X. pose proof (entry_lt _ _ _ T Mx (or_introl eq_refl)) as Y. cbn in Y.
      cbn [entry]. destruct f1; [pose proof (mark_big _ Y); lia|lia]. }
    rewrite Ne. eexists _, (((o1, sz1, f1) :: g1) ++ (o, sz, true) :: g2). split; [reflexivity|]. constructor; cbn [off allocs fsize]; auto.
    + rewrite filter_mid. cbn [app]. exact HP.
    + pose proof (li_head _ _ _ _ I) as H. exact H.
    + apply (li_file _ _ _ _ I).
Qed.
Lemma reach_inv P s live : power_of_two P -> P <= 2 ^ 63 -> la_reach P s live -> exists g, LInv P s live g.
Proof.
  intros HP HPm R. induction R as [|s live size ok s' m R [g I] Hs H|s live size ok s' R [g I] Hs H|s l1 m l2 s' R [g I] H].
  - exists []. constructor; cbn; auto; try (unfold MAX_FILE; lia). split; [constructor|]. exists 0. reflexivity.
  - destruct (inv_alloc P s live g size ok s' m HP HPm I Hs H) as [sz [_ [_ I']]]. eauto.
  - exists g. eapply inv_fail; eauto.
  - destruct (inv_free P s l1 m l2 g I) as [s2 [g' [H' I']]]. rewrite H in H'. injection H' as <-. eauto.
Qed.

(** ** C24 *)
Definition disjoint (a b : N * N) : Prop := fst a + snd a <= fst b \/ fst b + snd b <= fst a.
Lemma live_pairwise e g : tiles e g -> ForallOrdPairs disjoint (live_of g).
Proof.
  revert e. induction g as [|[[o sz] f] g IH]; intros e H; [constructor|]. cbn [tiles] in H. destruct H as [H1 [H2 H3]]. unfold live_of. cbn [filter livef].
  destruct f; cbn [negb]; [apply (IH o H3)|]. cbn [map fst]. constructor; [|apply (IH o H3)].
  apply Forall_forall. intros [o' sz'] X. apply in_map_iff in X. destruct X as [[[a b] c] [E X]]. cbn in E. injection E as -> ->. apply filter_In in X.
  pose proof (tiles_below _ _ _ _ _ H3 (proj1 X)). right. cbn. lia.
Qed.
Lemma fop_perm {A} (R : A -> A -> Prop) l l' : (forall a b, R a b -> R b a) -> Permutation l l' -> ForallOrdPairs R l -> ForallOrdPairs R l'.
Proof.
  intros Hs Hp. induction Hp as [|x l l' Hp IH|x y l|l l' l'' Hp1 IH1 Hp2 IH2]; intros H; auto.
  - inversion H; subst. constructor; [|auto]. eapply Permutation_Forall; eauto.
  - inversion H; subst. inversion H3; subst. inversion H2; subst. constructor; [constructor; auto|]. constructor; auto.
Qed.

(** Memory that is in use is pairwise disjoint, page aligned, non-empty, and inside the memory file. *)
Theorem C24_live_disjoint P s live : power_of_two P -> P <= 2 ^ 63 -> la_reach P s live ->
  ForallOrdPairs disjoint live /\
  forall o sz, In (o, sz) live -> 0 < sz /\ o + sz <= fsize s /\ multiple_of P o /\ multiple_of P sz.
Proof.
  intros HP HPm R. destruct (reach_inv P s live HP HPm R) as [g I].
  split.
  - eapply fop_perm; [|apply Permutation_sym; apply (li_live _ _ _ _ I)|apply (live_pairwise _ _ (li_tiles _ _ _ _ I))]. unfold disjoint. intros a b H. tauto.
  - intros o sz Hin. assert (X : In (o, sz) (live_of g)) by (eapply Permutation_in; [apply (li_live _ _ _ _ I)|exact Hin]).
    unfold live_of in X. apply in_map_iff in X. destruct X as [[[a b] c] [E X]]. cbn in E. injection E as -> ->. apply filter_In in X. destruct X as [X _].
    pose proof (tiles_below _ _ _ _ _ (li_tiles _ _ _ _ I) X) as [A B]. pose proof (li_file _ _ _ _ I).
    destruct (li_page _ _ _ _ I) as [Pg _]. rewrite Forall_forall in Pg. specialize (Pg _ X). cbn in Pg.
    repeat split; try lia; apply Pg.
Qed.
(** Releasing memory that is in use always succeeds; releasing anything else is rejected. *)
Theorem C24_free_accepts_live P s l1 m l2 : power_of_two P -> P <= 2 ^ 63 -> la_reach P s (l1 ++ m :: l2) -> exists s', deallocate s m = Some s'.
Proof.
  intros HP HPm R. destruct (reach_inv P s _ HP HPm R) as [g I]. destruct (inv_free P s l1 m l2 g I) as [s' [g' [H _]]]. eauto.
Qed.
Theorem C24_free_rejects_unknown P s live o sz : power_of_two P -> P <= 2 ^ 63 -> la_reach P s live -> o < 2 ^ 63 ->
  (forall sz', ~ In (o, sz') live) -> deallocate s (o, sz) = None.
Proof.
  intros HP HPm R Ho Hn. destruct (reach_inv P s live HP HPm R) as [g I]. unfold deallocate. cbn [fst]. rewrite (li_allocs _ _ _ _ I).
  rewrite (mark_first_none g (off s) o (li_tiles _ _ _ _ I) (li_max _ _ _ _ I) Ho); [reflexivity|].
  intros sz' X. apply (Hn sz'). eapply Permutation_in; [apply Permutation_sym; apply (li_live _ _ _ _ I)|].
  unfold live_of. change (o, sz') with (fst (o, sz', false)). apply in_map. apply filter_In. auto.
Qed.
(** The allocation frontier is the end of the last allocation in use: memory is reclaimed as soon as every later allocation is released... *)
Theorem C24_frontier P s live : power_of_two P -> P <= 2 ^ 63 -> la_reach P s live ->
  (live = [] /\ off s = 0 /\ allocs s = []) \/
  (exists o sz, In (o, sz) live /\ o + sz = off s /\ forall o' sz', In (o', sz') live -> o' + sz' <= o + sz).
Proof.
  intros HP HPm R. destruct (reach_inv P s live HP HPm R) as [g I]. destruct g as [|[[o sz] f] g].
  - left. pose proof (li_live _ _ _ _ I) as L. pose proof (li_tiles _ _ _ _ I) as T. pose proof (li_allocs _ _ _ _ I) as A. cbn in *.
    apply Permutation_sym, Permutation_nil in L. auto.
  - right. pose proof (li_head _ _ _ _ I) as H. cbn in H. destruct f; [discriminate|]. exists o, sz.
    pose proof (li_tiles _ _ _ _ I) as T. split; [|split].
    + eapply Permutation_in; [apply Permutation_sym; apply (li_live _ _ _ _ I)|]. left. reflexivity.
    + apply T.
    + intros o' sz' Hin. assert (X : In (o', sz') (live_of ((o, sz, false) :: g))) by (eapply Permutation_in; [apply (li_live _ _ _ _ I)|exact Hin]).
      unfold live_of in X. apply in_map_iff in X. destruct X as [[[a b] c] [E X]]. cbn in E. injection E as -> ->. apply filter_In in X. destruct X as [X _].
      pose proof (tiles_below _ _ _ _ _ T X) as [Y _]. destruct T as [_ [-> _]]. exact Y.
Qed.
(** ... so that once everything is released, in whatever order, the allocator is empty again; and after the last release so is the file. *)
Theorem C24_all_freed P s : power_of_two P -> P <= 2 ^ 63 -> la_reach P s [] -> off s = 0 /\ allocs s = [].
Proof.
  intros HP HPm R. destruct (C24_frontier P s [] HP HPm R) as [H|[o [sz [[] _]]]]. apply H.
Qed.
Theorem C24_last_free_truncates P s m s' : power_of_two P -> P <= 2 ^ 63 -> la_reach P s [m] -> deallocate s m = Some s' -> s' = la_init.
Proof.
  intros HP HPm R H. assert (R' : la_reach P s' []) by (apply (lr_free P s [] m [] s' R H)).
  destruct (C24_all_freed P s' HP HPm R') as [E1 E2]. destruct (reach_inv P s [m] HP HPm R) as [g I].
  assert (E3 : fsize s' = off s').
  { unfold deallocate in H. destruct (mark_first (allocs s) (fst m)) as [l|] eqn:El; [|discriminate].
    destruct (match allocs s with [] => false | x :: _ => x =? fst m end) eqn:Eh.
    - destruct (reclaim l 0). injection H as <-. reflexivity.
    - injection H as <-. cbn in E2. subst l. destruct (allocs s) as [|x r]; cbn in El; [discriminate|]. rewrite Eh in El. destruct (mark_first r (fst m)); discriminate. }
  destruct s' as [a b c]. cbn in *. subst. reflexivity.
Qed.
(** An allocation provides at least the requested number of bytes, and leaves all other memory in use. *)
Theorem C24_allocate_size P s live size ok s' m : power_of_two P -> P <= 2 ^ 63 -> la_reach P s live -> size < 2 ^ 64 -> allocate P s size ok = AOk s' m ->
  size <= snd m /\ fst m = off s /\ off s' = off s + snd m.
Proof.
  intros HP HPm R Hs H. destruct (reach_inv P s live HP HPm R) as [g I].
  destruct (inv_alloc P s live g size ok s' m HP HPm I Hs H) as [sz [-> [Hle I']]]. cbn. split; [exact Hle|]. split; [reflexivity|].
  pose proof (li_tiles _ _ _ _ I') as T. cbn in T. lia.
Qed.
(** Exactly which requests succeed: those for which the file, extended by the request rounded up to whole pages, does not exceed the
    largest file size, provided the system grants the mapping.  Requests of zero bytes give the empty memory object. *)
Theorem C24_allocate_succeeds P s live size need ok : power_of_two P -> P <= 2 ^ 63 -> la_reach P s live -> size < 2 ^ 64 ->
  least_above (multiple_of P) size need ->
  (allocate P s size ok = AEmpty <-> size = 0) /\
  ((exists s' m, allocate P s size ok = AOk s' m) <-> size <> 0 /\ ok = true /\ off s + need <= 2 ^ 63 - 1).
Proof.
  intros HP HPm R Hs L. destruct (reach_inv P s live HP HPm R) as [g I]. pose proof (li_max _ _ _ _ I) as Mx. clear I R.
  assert (HP64 : P < 2 ^ 64) by lia. pose proof (C05_ceil_to_next_page P size HP HP64 Hs need L) as E.
  assert (Hle : size <= need) by (destruct L as [L1 [L2 L3]]; lia). clear L.
  unfold allocate. rewrite E. unfold MAX_FILE, MSB in *. destruct (N.eqb_spec size 0) as [->|Nz].
  - split; [split; reflexivity|]. split; [intros [s' [m X]]; discriminate|intros [X _]; contradiction].
  - destruct (N.ltb_spec need (2 ^ 64)) as [Hn|Hn].
    + destruct (N.ltb_spec need size); [lia|]. cbv zeta.
      destruct (N.leb_spec (2 ^ 63) need) as [Hb|Hb].
      * rewrite orb_true_r. destruct (2 ^ 63 - 1 <? wr 64 (off s + need)).
        -- split; [split; [discriminate|intros; contradiction]|]. split; [intros [? [? X]]; discriminate X|intros [_ [_ X]]; lia].
        -- split; [split; [discriminate|intros; contradiction]|]. split; [intros [? [? X]]; discriminate X|intros [_ [_ X]]; lia].
      * assert (Ew : wr 64 (off s + need) = off s + need) by (unfold wr; apply N.mod_small; lia). rewrite Ew.
        destruct (N.ltb_spec (2 ^ 63 - 1) (off s + need)).
        -- split; [split; [discriminate|intros; contradiction]|]. split; [intros [? [? X]]; discriminate X|intros [_ [_ X]]; lia].
        -- destruct ok; cbn [negb orb].
           ++ split; [split; [discriminate|intros; contradiction]|]. split; [intros _; split; [assumption|split; [reflexivity|assumption]]|eauto].
           ++ split; [split; [discriminate|intros; contradiction]|]. split; [intros [? [? X]]; discriminate X|intros [_ [X _]]; discriminate X].
    + replace (0 <? size) with true by (symmetry; apply N.ltb_lt; lia).
      split; [split; [discriminate|intros; contradiction]|]. split; [intros [? [? X]]; discriminate X|intros [_ [_ X]]; lia].
Qed.
(** Finding: a request of almost 2^64 bytes makes the file size computation wrap around: the call throws, but it has truncated the file
    below memory that is in use. *)
Theorem C24_huge_request_refuted : exists s live size s', la_reach 4096 s live /\ size < 2 ^ 64 /\ (forall ok, allocate 4096 s size ok = AFail s') /\
  exists o sz, In (o, sz) live /\ fsize s' < o + sz.
Proof.
  exists (mkLA 8192 [0] 8192), [(0, 8192)], (2 ^ 64 - 4096), (mkLA 8192 [0] 4096).
  split; [eapply (lr_alloc _ la_init [] 8192 true); [constructor|reflexivity|vm_compute; reflexivity]|].
  split; [reflexivity|]. split; [intros []; vm_compute; reflexivity|]. exists 0, 8192. split; [left; reflexivity|reflexivity].
Qed.
(** Non-vacuity: out-of-order releases. *)
Example C24_example : exists s, la_reach 4096 s [(8192, 4096)] /\ allocs s = [8192; mark 4096; mark 0] /\ off s = 12288.
Proof.
  eexists. split.
  - eapply (lr_free _ _ [(8192, 4096)] (0, 4096) []).
    + cbn [app]. eapply (lr_free _ _ [(8192, 4096)] (4096, 4096) [(0, 4096)]).
      * cbn [app]. eapply (lr_alloc _ _ _ 1 true); [eapply (lr_alloc _ _ _ 1 true); [eapply (lr_alloc _ _ _ 1 true); [apply lr_init| |]| |]| |]; try reflexivity; vm_compute; reflexivity.
      * vm_compute. reflexivity.
    + vm_compute. reflexivity.
  - split; vm_compute; reflexivity.
Qed.
