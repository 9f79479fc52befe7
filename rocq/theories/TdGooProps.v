(** * C64: top-down greedy operator ordering *)
From Coq Require Import Arith NArith List Bool Permutation Lia.
From Verif Require Import Word WordProofs Bitset BitsetProofs GraphSpec Graph GraphProofs ClosureProofs CSGProofs PlanSpec PlanEnum PlanProofs PlanInst PlanTD PlanMinCut Goo GooSpec GooProps TdGoo TdGooSpec.
Import ListNotations.
Open Scope N_scope.
Arguments N.pow : simpl never.
Arguments N.testbit : simpl never.

Lemma best_cut_spec card cuts : forall best,
  match best_cut card cuts best with
  | Some (c, (l, r)) =>
      (best = Some (c, (l, r)) \/ In (l, r) cuts /\ c = card l + card r) /\ (forall a b, In (a, b) cuts -> c <= card a + card b) /\
      (forall c' x, best = Some (c', x) -> c <= c')
  | None => best = None /\ cuts = []
  end.
Proof.
  induction cuts as [|(a, b) cuts IH]; intros best; cbn [best_cut].
  - destruct best as [[c [l r]]|]; [|auto]. split; [now left|]. split; [intros ? ? []|]. intros c' x E. inversion E; subst. apply N.le_refl.
  - match goal with |- context [best_cut card cuts ?B] => specialize (IH B); destruct (best_cut card cuts B) as [[c [l r]]|] end; cbv zeta in IH.
    + destruct IH as (I1 & I2 & I3). destruct best as [[c0 x0]|].
      * destruct (card a + card b <? c0) eqn:L.
        -- apply N.ltb_lt in L. pose proof (I3 _ _ eq_refl) as I4. split; [|split].
           ++ right. destruct I1 as [E | (E1 & E2)]; [inversion E; subst; split; [now left | reflexivity] | split; [now right | exact E2]].
           ++ intros a' b' [E | E]; [inversion E; subst; exact I4 | now apply I2].
           ++ intros c' x E. inversion E; subst. lia.
        -- apply N.ltb_ge in L. pose proof (I3 _ _ eq_refl) as I4. split; [|split].
           ++ destruct I1 as [E | (E1 & E2)]; [now left | right; split; [now right | exact E2]].
           ++ intros a' b' [E | E]; [inversion E; subst; lia | now apply I2].
           ++ intros c' x E. inversion E; subst. exact I4.
      * pose proof (I3 _ _ eq_refl) as I4. split; [|split; [|discriminate]].
        -- right. destruct I1 as [E | (E1 & E2)]; [inversion E; subst; split; [now left | reflexivity] | split; [now right | exact E2]].
        -- intros a' b' [E | E]; [inversion E; subst; exact I4 | now apply I2].
    + destruct IH as (I1 & I2). destruct best as [[c0 x0]|]; [destruct (card a + card b <? c0)|]; discriminate.
Qed.

Lemma lor_diff A B : W64 (N.lor A B) -> W64 A -> disjoint A B -> sbs_diff (N.lor A B) A = B.
Proof.
  intros W WA D. apply mem_ext. intros i. rewrite mem_diff by assumption. change (N.lor A B) with (sbs_union A B). rewrite mem_union. split.
  - tauto.
  - intros I. split; [now right|]. intros J. exact (D i J I).
Qed.
Lemma mem_nonzero a x : mem x a -> a <> 0.
Proof. intros M ->. exact (mem_0 _ M). Qed.

Section Loop.
Variables (n : N) (m : matrix) (card : sbs -> N) (f : nat).
Hypotheses (Gr : graph n m) (Sy : symmetric m) (En : enough f).

Definition todo (S : N) : Prop := W64 S /\ S <> 0 /\ connected m S.
Definition pot (W : list N) : N := fold_right (fun S acc => 2 * sbs_size S - 1 + acc) 0 W.

Lemma cut_of S D : todo S -> Sub D S -> D <> S -> D <> 0 -> connected m D -> connected m (sbs_diff S D) -> cut m S D (sbs_diff S D).
Proof.
  intros (W & NZ & C) H1 H2 H3 H4 H5. assert (OK : ok (adjacent m) S) by (apply (ok_connected m Sy S W); auto).
  split; [exact (union_compl D S W H1)|]. split; [exact (disjoint_compl D S W H1)|]. split; [exact (nonzero_mem D H3)|].
  split; [exact (nonzero_mem _ (diff_nz D S W H1 H2))|]. split; auto. split; auto. exact (connected_split m Sy S D W OK H1 H3 H2).
Qed.
Lemma step S : todo S -> sbs_size S <> 1 -> exists cuts c l r, mc_partition m f S = Some cuts /\ best_cut card cuts None = Some (c, (l, r)) /\
  cut m S l r /\ (forall A B, cut m S A B -> card l + card r <= card A + card B).
Proof.
  intros T N1. assert (T' := T). destruct T' as (W & NZ & C). destruct (mc_partition_spec n m S Gr Sy W C f N1 NZ En) as (cuts & E & Sp).
  assert (X : forall A B, cut m S A B -> In (A, B) cuts \/ In (B, A) cuts).
  { intros A B (U & D & (a & Ma) & (b & Mb) & CA & CB & _). assert (Mc : mem (ctz S) S) by (apply (as_set_inhabited S W NZ)).
    assert (WA : W64 A). { apply (Sub_W64 A S); auto. intros i M. rewrite <- U. apply mem_union. now left. }
    assert (WB : W64 B). { apply (Sub_W64 B S); auto. intros i M. rewrite <- U. apply mem_union. now right. }
    rewrite <- U in Mc at 2. change (N.lor A B) with (sbs_union A B) in Mc. apply mem_union in Mc. destruct Mc as [M | M].
    - left. apply Sp. exists A. assert (Q : sbs_diff S A = B) by (rewrite <- U; apply lor_diff; auto; now rewrite U). rewrite Q.
      split; [intros i Mi; rewrite <- U; apply mem_union; now left|]. repeat split; auto. intros ->. exact (D b (eq_ind_r (fun s => mem b s) (proj2 (mem_union b S B) (or_intror Mb)) (eq_sym U)) Mb).
    - right. apply Sp. exists B. assert (Q : sbs_diff S B = A).
      { rewrite <- U, N.lor_comm. apply lor_diff; auto; [now rewrite N.lor_comm, U | now apply disjoint_sym]. }
      rewrite Q. split; [intros i Mi; rewrite <- U; apply mem_union; now right|]. repeat split; auto. intros ->.
      exact (D a Ma (eq_ind_r (fun s => mem a s) (proj2 (mem_union a A S) (or_introl Ma)) (eq_sym U))). }
  assert (Y : forall p, In p cuts -> cut m S (fst p) (snd p)).
  { intros p I. apply Sp in I. destruct I as (D & H1 & H2 & H3 & H4 & H5 & ->). cbn [fst snd]. apply cut_of; auto. exact (mem_nonzero _ _ H3). }
  exists cuts. pose proof (best_cut_spec card cuts None) as B. destruct (best_cut card cuts None) as [[c [l r]]|].
  - destruct B as ([B | (B1 & ->)] & B2 & _); [discriminate|]. exists (card l + card r), l, r. split; auto. split; auto. split; [exact (Y (l, r) B1)|].
    intros A0 B0 Cu. destruct (X A0 B0 Cu) as [I | I]; apply B2 in I; lia.
  - destruct B as (_ & ->). exfalso. assert (OK : ok (adjacent m) S) by (apply (ok_connected m Sy S W); auto).
    destruct (ok_split (fun _ => 0) (adjacent m) 0 S OK) as [Q | (a & b & Oa & Ob & D & J & Q)]; [contradiction|].
    destruct (ok_W64 _ a Oa) as (Wa & Za). destruct (ok_W64 _ b Ob) as (Wb & Zb).
    assert (Cu : cut m S a b).
    { split; [now rewrite Q|]. split; auto. split; [now apply nonzero_mem|]. split; [now apply nonzero_mem|].
      split; [now apply (ok_connected m Sy a Wa)|]. split; [now apply (ok_connected m Sy b Wb)|]. exact J. }
    destruct (X a b Cu) as [[] | []].
Qed.

Lemma loop_best fuel : forall W, Forall todo W -> pot W <= N.of_nat fuel ->
  exists ts, cut_loop f m card fuel W = Some (concat (map (fun t => rev (postorder t)) ts)) /\ map root ts = W /\ Forall (best_cuts m card) ts.
Proof.
  induction fuel as [|fuel IH]; intros W F P.
  - destruct W as [|S W].
    + exists []. repeat split; constructor.
    + inversion F as [|? ? (WS & NZ & _) _]; subst. cbn [pot fold_right] in P. pose proof (size_pos S NZ). lia.
  - destruct W as [|S W]; [exists []; repeat split; constructor|]. inversion F as [|? ? T F']; subst. assert (T' := T). destruct T' as (WS & NZ & C).
    cbn [pot fold_right] in P. fold (pot W) in P. pose proof (size_pos S NZ) as Sp. cbn [cut_loop]. destruct (sbs_is_singleton S) eqn:Sg.
    + destruct (IH W F' ltac:(lia)) as (ts & E & R & B). unfold sbs_is_singleton in Sg. destruct (proj1 (singleton_iff S WS) Sg) as (i & _ & Q).
      exists (Leaf (2 ^ i) :: ts). cbn [map concat postorder rev app root]. split; [exact E|]. split; [now rewrite R, <- Q|]. constructor; [apply B_leaf | exact B].
    + assert (N1 : sbs_size S <> 1) by (apply N.eqb_neq; exact Sg).
      destruct (step S T N1) as (cuts & c & l & r & E1 & E2 & Cu & Mi). rewrite E1, E2.
      assert (Cu' := Cu). destruct Cu' as (U & D & (a & Ma) & (b & Mb) & Cl & Cr & Ad).
      assert (Wl : W64 l). { apply (Sub_W64 l S); auto. intros i M. rewrite <- U. apply mem_union. now left. }
      assert (Wr : W64 r). { apply (Sub_W64 r S); auto. intros i M. rewrite <- U. apply mem_union. now right. }
      pose proof (union_add l r Wl Wr D) as Sz. change (sbs_union l r) with (N.lor l r) in Sz. rewrite U in Sz.
      destruct (IH (r :: l :: W)) as (ts & E & R & B).
      * constructor; [split; auto; split; auto; exact (mem_nonzero _ _ Mb)|]. constructor; auto. split; auto. split; auto. exact (mem_nonzero _ _ Ma).
      * cbn [pot fold_right]. fold (pot W). pose proof (size_pos l (mem_nonzero _ _ Ma)). pose proof (size_pos r (mem_nonzero _ _ Mb)). lia.
      * destruct ts as [|tr [|tl ts]]; try discriminate. cbn [map] in R. inversion R; subst. inversion B as [|? ? B1 B']; subst. inversion B' as [|? ? B2 B3]; subst.
        exists (Node tl tr :: ts). cbn [map root postorder]. split; [|split; [reflexivity | constructor; [|exact B3]; apply B_node; auto; rewrite U; auto]].
        rewrite E. cbn [option_map map concat]. f_equal. rewrite !rev_app_distr. cbn [rev app]. now rewrite <- !app_assoc.
Qed.
End Loop.

Lemma concat_rev (ts : list tree) : rev (concat (map (fun t => rev (postorder t)) ts)) = concat (map postorder (rev ts)).
Proof.
  induction ts as [|t ts IH]; [reflexivity|]. cbn [map concat rev]. rewrite rev_app_distr, IH, rev_involutive, map_app, concat_app.
  cbn [map concat]. now rewrite app_nil_r.
Qed.
(** From any worklist of connected subproblems: the joins of a tree for each, bottom up, every cut the best one. *)
Theorem C64_topdown : forall n m card worklist, graph n m -> symmetric m ->
  (forall S, In S worklist -> W64 S /\ S <> 0 /\ connected m S) ->
  exists f0, forall f, (f0 <= f)%nat ->
  exists trees, tdgoo f m card (rev worklist) = Some (concat (map postorder trees)) /\ map root trees = worklist /\ Forall (best_cuts m card) trees.
Proof.
  intros n m card W Gr Sy T. exists (K0 + N.to_nat (pot (rev W)))%nat. intros f Ff.
  destruct (loop_best n m card f Gr Sy) with (fuel := f) (W := rev W) as (ts & E & R & B).
  - unfold enough. lia.
  - apply Forall_forall. intros S I. apply in_rev in I. exact (T S I).
  - lia.
  - exists (rev ts). unfold tdgoo. rewrite E. cbn [option_map]. split; [|split].
    + f_equal. exact (concat_rev ts).
    + now rewrite map_rev, R, rev_involutive.
    + rewrite Forall_forall in *. intros t I. apply B. now apply in_rev.
Qed.
(** the whole query *)
Theorem C64_topdown_query : forall n m card, graph n m -> symmetric m -> 0 < n ->
  (forall i j, i < n -> j < n -> path m (fun x => x < n) i j) ->
  exists f0, forall f, (f0 <= f)%nat ->
  exists t, tdgoo f m card [N.ones n] = Some (postorder t) /\ root t = N.ones n /\ best_cuts m card t.
Proof.
  intros n m card Gr Sy P C.
  assert (M : forall x, mem x (N.ones n) <-> x < n).
  { intros x. unfold mem. destruct (N.lt_ge_cases x n) as [L | L].
    - rewrite N.ones_spec_low by exact L. tauto.
    - rewrite N.ones_spec_high by exact L. split; [discriminate | lia]. }
  assert (L64 : n <= 64) by apply Gr.
  destruct (C64_topdown n m card [N.ones n] Gr Sy) as (f0 & H).
  - intros S [<- | []]. split; [|split].
    + unfold W64. rewrite N.ones_equiv. pose proof (N.pow_le_mono_r 2 n 64 ltac:(lia) L64). assert (0 < 2 ^ n) by (apply N.neq_0_lt_0, N.pow_nonzero; lia). lia.
    + apply (mem_nonzero _ 0). apply M. exact P.
    + intros i j I J. apply M in I, J. apply (path_mono m (fun x => x < n)); [intros x X; now apply M | now apply C].
  - exists f0. intros f Ff. destruct (H f Ff) as (ts & E & R & B). destruct ts as [|t [|? ?]]; try discriminate. cbn [map] in R. inversion R as [[R1]].
    inversion B; subst. exists t. split; [|split; auto]. rewrite R1. change [N.ones n] with (rev [N.ones n]). rewrite E. cbn [map concat]. now rewrite app_nil_r.
Qed.
(** What such trees are: the joins are not Cartesian products … *)
Theorem C64_topdown_cuts : forall m card t, best_cuts m card t -> forall l r, In (l, r) (postorder t) ->
  cut m (N.lor l r) l r /\ forall A B, cut m (N.lor l r) A B -> card l + card r <= card A + card B.
Proof.
  intros m card t B. induction B as [i | t1 t2 B1 IH1 B2 IH2 Cu Mi]; intros l r I; [destruct I|].
  cbn [postorder] in I. apply in_app_or in I. destruct I as [I | I]; [now apply IH1|]. apply in_app_or in I. destruct I as [I | [E | []]]; [now apply IH2|].
  inversion E; subst. auto.
Qed.
(** … and are issued when both sides are there: single sources or results of joins issued before. *)
Theorem C64_topdown_bottom_up : forall m card t, best_cuts m card t -> forall before l r behind, postorder t = before ++ (l, r) :: behind ->
  ((exists i, l = 2 ^ i) \/ exists a b, In (a, b) before /\ l = N.lor a b) /\ ((exists i, r = 2 ^ i) \/ exists a b, In (a, b) before /\ r = N.lor a b).
Proof.
  assert (Root : forall m card t, best_cuts m card t -> (exists i, root t = 2 ^ i) \/ exists a b, In (a, b) (postorder t) /\ root t = N.lor a b).
  { intros m card t B. destruct B as [i | t1 t2 B1 B2 Cu Mi]; [left; now exists i|]. right. exists (root t1), (root t2). split; [|reflexivity].
    cbn [postorder]. apply in_or_app. right. apply in_or_app. right. now left. }
  assert (Split : forall (a b before behind : list (N * N)) x, a ++ b = before ++ x :: behind ->
            (exists k, a = before ++ x :: k) \/ exists k, before = a ++ k /\ b = k ++ x :: behind).
  { induction a as [|y a IH]; intros b before behind x E; [right; now exists before|]. destruct before as [|z before]; cbn [app] in E; inversion E; subst.
    - left. now exists a.
    - destruct (IH _ _ _ _ H1) as [(k & ->) | (k & -> & ->)]; [left; now exists k | right; now exists k]. }
  intros m card t B. induction B as [i | t1 t2 B1 IH1 B2 IH2 Cu Mi]; intros before l r behind E; cbn [postorder] in E; [destruct before; discriminate|].
  apply Split in E. destruct E as [(k & E) | (k & -> & E)]; [exact (IH1 _ _ _ _ E)|].
  apply Split in E. destruct E as [(k' & E) | (k' & -> & E)].
  - destruct (IH2 _ _ _ _ E) as (H1 & H2). split; [destruct H1 as [H | (a & b & I & Q)] | destruct H2 as [H | (a & b & I & Q)]]; auto; right; exists a, b;
      (split; [apply in_or_app; now right | exact Q]).
  - destruct k' as [|? k']; [|cbn [app] in E; inversion E as [[E1 E2]]; destruct k'; discriminate]. cbn [app] in E. inversion E; subst.
    split; [destruct (Root _ _ _ B1) as [H | (a & b & I & Q)] | destruct (Root _ _ _ B2) as [H | (a & b & I & Q)]]; auto; right; exists a, b; (split; [|exact Q]); apply in_or_app.
    + now left.
    + right. apply in_or_app. now left.
Qed.

Example C64_ex_topdown : tdgoo 100 chain chain_card [15] = Some [(1, 2); (4, 8); (3, 12)].
Proof. vm_compute. reflexivity. Qed.
(** not optimal, either *)
Definition td_card (S : N) : N := match S with 14 => 10 | 12 => 100 | 6 => 100 | 7 => 20 | 3 => 1 | _ => 5 end.
Theorem C64_refuted_topdown_optimal : exists joins t, tdgoo 100 chain td_card [15] = Some joins /\
  Permutation (leaves t) [1; 2; 4; 8] /\ (forall l r, In (l, r) (inner t) -> adjacent chain l r) /\
  let cost js := fold_right (fun '(l, r) c => td_card (N.lor l r) + c) 0 js in cost joins = 115 /\ cost (inner t) = 26.
Proof.
  exists [(4, 8); (2, 12); (1, 14)], (Node (Node (Node (Leaf 1) (Leaf 2)) (Leaf 4)) (Leaf 8)).
  split; [vm_compute; reflexivity|]. split; [apply Permutation_refl|]. split; [|split; reflexivity].
  cbn. intros l r [E | [E | [E | []]]]; inversion E; subst.
  - exists 2, 3. repeat split.
  - exists 1, 2. repeat split.
  - exists 0, 1. repeat split.
Qed.
(** Cartesian products when the query graph is not connected, where [GOO] fails *)
Theorem C64_refuted_topdown_disconnected : forall card, tdgoo 10 (fun _ => 0) card [3] = Some [(1, 2)] /\ ~ adjacent (fun _ => 0) 1 2.
Proof. intros card. split; [vm_compute; reflexivity|]. intros (a & b & _ & _ & E). exact (mem_0 _ E). Qed.
