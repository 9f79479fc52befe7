(** * C64: greedy operator ordering *)
From Coq Require Import Arith NArith List Bool Permutation Lia.
From Verif Require Import Word WordProofs Bitset BitsetProofs GraphSpec Graph GraphProofs Goo GooSpec.
Import ListNotations.
Open Scope N_scope.
Arguments N.pow : simpl never.
Arguments N.testbit : simpl never.

(** ** The scan *)
Definition good (nodes : list node) (i j : nat) : Prop := can_merge_with (nth i nodes (0, 0)) (nth j nodes (0, 0)) = true.
Definition joined (nodes : list node) (i j : nat) : N := N.lor (fst (nth i nodes (0, 0))) (fst (nth j nodes (0, 0))).
Lemma scan_spec card nodes ps : forall best,
  match scan card nodes ps best with
  | Some (c, (i, j)) =>
      (best = Some (c, (i, j)) \/ In (i, j) ps /\ good nodes i j /\ c = card (joined nodes i j)) /\
      (forall a b, In (a, b) ps -> good nodes a b -> c <= card (joined nodes a b)) /\
      (forall c' x, best = Some (c', x) -> c <= c')
  | None => best = None /\ forall a b, In (a, b) ps -> ~ good nodes a b
  end.
Proof.
  induction ps as [|(a, b) ps IH]; intros best; cbn [scan].
  - destruct best as [[c [i j]]|].
    + split; [now left|]. split; [intros ? ? []|]. intros c' x E. replace c' with c by congruence. apply N.le_refl.
    + split; auto.
  - match goal with |- context [scan card nodes ps ?B] => specialize (IH B); destruct (scan card nodes ps B) as [[c [i j]]|]; cbv zeta in IH end.
    + destruct IH as (I1 & I2 & I3). destruct (can_merge_with (nth a nodes (0, 0)) (nth b nodes (0, 0))) eqn:G.
      * fold (joined nodes a b) in *. unfold sbs_union in *. fold (joined nodes a b) in *.
        assert (X : (best = Some (c, (i, j)) \/ In (i, j) ((a, b) :: ps) /\ good nodes i j /\ c = card (joined nodes i j)) /\ c <= card (joined nodes a b) /\
                    (forall c' x, best = Some (c', x) -> c <= c')).
        { destruct best as [[c0 x0]|].
          - destruct (card (joined nodes a b) <? c0) eqn:L.
            + apply N.ltb_lt in L. pose proof (I3 _ _ eq_refl) as I4. split; [|split; auto].
              * destruct I1 as [E | (E1 & E2)]; [right|right; split; [now right|exact E2]]. inversion E; subst. split; [now left|]. split; auto.
              * intros c' x E. inversion E; subst. lia.
            + apply N.ltb_ge in L. pose proof (I3 _ _ eq_refl) as I4. split; [|split; auto; lia].
              destruct I1 as [E | (E1 & E2)]; [now left|right; split; [now right|exact E2]].
          - pose proof (I3 _ _ eq_refl) as I4. split; [|split; auto; discriminate].
            destruct I1 as [E | (E1 & E2)]; [right|right; split; [now right|exact E2]]. inversion E; subst. split; [now left|]. split; auto. }
        destruct X as (X1 & X2 & X3). split; [exact X1|]. split; [|exact X3].
        intros a' b' [E | E] G'; [inversion E; subst; exact X2 | now apply I2].
      * split; [|split; auto].
        -- destruct I1 as [E | (E1 & E2)]; [now left|right; split; [now right|exact E2]].
        -- intros a' b' [E | E] G'; [inversion E; subst; unfold good in G'; congruence | now apply I2].
    + destruct IH as (I1 & I2). destruct (can_merge_with (nth a nodes (0, 0)) (nth b nodes (0, 0))) eqn:G.
      * destruct best as [[c0 x0]|]; [|discriminate]. destruct (card _ <? c0); discriminate.
      * split; [exact I1|]. intros a' b' [E | E] G'; [inversion E; subst; unfold good in G'; congruence | now apply (I2 a' b')].
Qed.
Lemma pairs_in n i j : In (i, j) (pairs n) <-> (i < j < n)%nat.
Proof.
  unfold pairs. rewrite in_flat_map. split.
  - intros (k & K & I). apply in_map_iff in I. destruct I as (l & E & L). inversion E; subst. apply in_seq in K, L. lia.
  - intros (L1 & L2). exists i. split; [apply in_seq; lia|]. apply in_map_iff. exists j. split; auto. apply in_seq. lia.
Qed.

(** ** The array *)
Lemma set_nth_app (l1 l2 : list node) x y : set_nth (length l1) y (l1 ++ x :: l2) = l1 ++ y :: l2.
Proof. unfold set_nth. f_equal.
  - rewrite firstn_app, firstn_all, Nat.sub_diag. cbn [firstn]. apply app_nil_r.
  - f_equal. replace (S (length l1)) with (length (l1 ++ [x])) by (rewrite app_length; cbn; lia).
    change (x :: l2) with ([x] ++ l2). rewrite app_assoc. rewrite skipn_app, skipn_all, Nat.sub_diag. reflexivity.
Qed.
Lemma two_split (l : list node) i j : (i < j < length l)%nat ->
  exists l1 l2 l3, l = l1 ++ nth i l (0,0) :: l2 ++ nth j l (0,0) :: l3 /\ length l1 = i /\ length (l1 ++ nth i l (0,0) :: l2) = j.
Proof.
  intros (L1 & L2). destruct (nth_split l (0,0) L2) as (k & l3 & E & K). set (y := nth j l (0,0)) in *. clearbody y.
  assert (L1' : (i < length k)%nat) by lia. destruct (nth_split k (0,0) L1') as (l1 & l2 & E' & K'). exists l1, l2, l3.
  assert (X : nth i l (0,0) = nth i k (0,0)) by (rewrite E; now apply app_nth1). rewrite X, <- E'. split; [|split; auto].
  rewrite E, E' at 1. now rewrite <- app_assoc.
Qed.
Lemma array_step (l : list node) i j x : (i < j < length l)%nat ->
  let l1 := set_nth i x l in
  exists rest, Permutation l (nth i l (0,0) :: nth j l (0,0) :: rest) /\
               Permutation (removelast (set_nth j (last l1 (0,0)) l1)) (x :: rest).
Proof.
  intros L. destruct (two_split l i j L) as (a & b & c & E & Ka & Kb). set (u := nth i l (0,0)) in *. set (v := nth j l (0,0)) in *. clearbody u v. subst l.
  cbv zeta. rewrite <- Ka. rewrite set_nth_app. exists (a ++ b ++ c). split.
  - apply Permutation_sym. eapply perm_trans; [|apply Permutation_middle]. constructor. rewrite !app_assoc. apply Permutation_middle.
  - assert (Kb' : length (a ++ x :: b) = j) by (rewrite app_length in *; cbn [length] in *; exact Kb).
    replace (a ++ x :: b ++ v :: c) with ((a ++ x :: b) ++ v :: c) by now rewrite <- app_assoc.
    rewrite <- Kb'. rewrite set_nth_app. destruct c as [|z c] using rev_ind.
    + rewrite removelast_last, app_nil_r. apply Permutation_sym, Permutation_middle.
    + clear IHc. change (v :: c ++ [z]) with ((v :: c) ++ [z]). rewrite (app_assoc (a ++ x :: b)), last_last.
      change (z :: c ++ [z]) with ((z :: c) ++ [z]). rewrite app_assoc, removelast_last. rewrite <- app_assoc. cbn [app].
      eapply perm_trans; [apply Permutation_sym, Permutation_middle|]. constructor. apply Permutation_app_head, Permutation_app_head.
      apply Permutation_cons_append.
Qed.

(** ** Lists of sets *)
Lemma FOP_perm {A} (R : A -> A -> Prop) (l l' : list A) : (forall x y, R x y -> R y x) -> Permutation l l' -> ForallOrdPairs R l -> ForallOrdPairs R l'.
Proof.
  intros Sy P. induction P; intros F.
  - constructor.
  - inversion F; subst. constructor; auto. rewrite Forall_forall in *. intros y Y. apply H1. apply (Permutation_in _ (Permutation_sym P)). exact Y.
  - inversion F as [|? ? F1 F2]; subst. inversion F2 as [|? ? F3 F4]; subst. inversion F1; subst. constructor.
    + constructor; auto.
    + constructor; auto.
  - auto.
Qed.
Lemma mem_whole x l : mem x (whole l) <-> exists p, In p l /\ mem x p.
Proof.
  induction l as [|p l IH]; cbn [whole fold_right].
  - split; [intros M; now apply mem_0 in M | intros (p & [] & _)].
  - change (N.lor p (fold_right N.lor 0 l)) with (sbs_union p (whole l)). rewrite mem_union, IH. split.
    + intros [M | (q & I & M)]; [exists p | exists q]; split; auto; [now left | now right].
    + intros (q & [-> | I] & M); [now left | right; now exists q].
Qed.
Lemma whole_perm l l' : Permutation l l' -> whole l = whole l'.
Proof.
  intros P. apply mem_ext. intros i. rewrite !mem_whole. split; intros (p & I & M); exists p; split; auto.
  - exact (Permutation_in _ P I).
  - exact (Permutation_in _ (Permutation_sym P) I).
Qed.
Lemma disjoint_sym A B : disjoint A B -> disjoint B A.
Proof. intros D i I J. exact (D i J I). Qed.
Lemma adjacent_sym m A B : symmetric m -> adjacent m A B -> adjacent m B A.
Proof. intros Sy (a & b & I & J & E). exists b, a. repeat split; auto. Qed.
Lemma partition_perm l l' : Permutation l l' -> partition l -> partition l'.
Proof.
  intros P (F & D). split.
  - rewrite Forall_forall in *. intros p I. apply F. exact (Permutation_in _ (Permutation_sym P) I).
  - exact (FOP_perm disjoint l l' disjoint_sym P D).
Qed.
Lemma partition_union l r rest : partition (l :: r :: rest) -> partition (N.lor l r :: rest).
Proof.
  intros (F & D). inversion F as [|? ? (Wl & x & X) F']; subst. inversion F' as [|? ? (Wr & y & Y) F'']; subst.
  inversion D as [|? ? D1 D']; subst. inversion D' as [|? ? D2 D'']; subst. inversion D1 as [|? ? D3 D4]; subst. split.
  - constructor; auto. split; [now apply W64_union|]. exists x. apply mem_union. now left.
  - constructor; auto. rewrite Forall_forall in *. intros p I i M. change (N.lor l r) with (sbs_union l r) in M. apply mem_union in M. destruct M; [now apply (D4 p I) | now apply (D2 p I)].
Qed.
Lemma two_of (l : list N) a b rest : Permutation l (a :: b :: rest) ->
  exists i j, (i < j < length l)%nat /\ (nth i l 0 = a /\ nth j l 0 = b \/ nth i l 0 = b /\ nth j l 0 = a).
Proof.
  intros P. assert (I : In a l) by (apply (Permutation_in _ (Permutation_sym P)); now left).
  destruct (in_split _ _ I) as (l1 & l2 & ->). assert (P' : Permutation (l1 ++ l2) (b :: rest)).
  { apply (Permutation_cons_inv (a := a)). eapply perm_trans; [apply Permutation_middle|exact P]. }
  assert (J : In b (l1 ++ l2)) by (apply (Permutation_in _ (Permutation_sym P')); now left).
  apply in_app_or in J. destruct J as [J | J]; destruct (in_split _ _ J) as (k1 & k2 & ->).
  - exists (length k1), (length (k1 ++ b :: k2)). rewrite !app_length. cbn [length]. split; [lia|]. right. split.
    + rewrite <- app_assoc. rewrite app_nth2, Nat.sub_diag by lia. reflexivity.
    + rewrite app_nth2; rewrite app_length; cbn [length]; [|lia]. now rewrite Nat.sub_diag.
  - exists (length l1), (length l1 + S (length k1))%nat. rewrite !app_length. cbn [length]. rewrite app_length. cbn [length]. split; [lia|]. left. split.
    + rewrite app_nth2, Nat.sub_diag by lia. reflexivity.
    + rewrite app_nth2 by lia. replace (length l1 + S (length k1) - length l1)%nat with (S (length k1)) by lia. cbn [nth].
      rewrite app_nth2, Nat.sub_diag by lia. reflexivity.
Qed.
Lemma greedy_perm m card parts js : greedy m card parts js -> forall parts', Permutation parts parts' -> greedy m card parts' js.
Proof.
  induction 1 as [p | parts l r rest js P A M G IH]; intros parts' P'.
  - apply Permutation_length_1_inv in P'. subst. constructor.
  - apply (G_join _ _ _ l r rest); auto.
    + eapply perm_trans; [apply Permutation_sym; exact P' | exact P].
    + intros a b rest' Q. apply M with (rest' := rest'). eapply perm_trans; [exact P' | exact Q].
Qed.

(** ** The loop *)
Section Loop.
Variables (n : N) (m : matrix) (card : sbs -> N).
Hypotheses (Gr : graph n m) (Sy : symmetric m).

Definition node_ok (nd : node) : Prop :=
  W64 (snd nd) /\ forall j, mem j (snd nd) <-> ~ mem j (fst nd) /\ exists i, mem i (fst nd) /\ edge m i j.
Lemma node_start p : W64 p -> node_ok (p, neighbors m p).
Proof.
  intros W. split; cbn [fst snd].
  - exact (neighbors_W64 n m p Gr).
  - intros j. exact (neighbors_spec n m p j Gr W).
Qed.
Lemma node_merge a b : W64 (fst a) -> W64 (fst b) -> node_ok a -> node_ok b -> node_ok (merge a b).
Proof.
  intros Wa Wb (Na & Ha) (Nb & Hb). unfold merge. split; cbn [fst snd].
  - apply W64_diff. now apply W64_union.
  - intros j. rewrite mem_diff by (now apply W64_union). rewrite !mem_union, Ha, Hb. split.
    + intros ([(_ & i & I & E) | (_ & i & I & E)] & D); split; auto; exists i; split; auto; apply mem_union; auto.
    + intros (D & i & I & E). split; auto. apply mem_union in I. destruct I as [I | I]; [left | right]; (split; [tauto | now exists i]).
Qed.
Lemma can_merge_adjacent a b : node_ok b -> disjoint (fst a) (fst b) -> can_merge_with a b = true <-> adjacent m (fst a) (fst b).
Proof.
  intros (_ & H) D. unfold can_merge_with. rewrite negb_true_iff, empty_false_mem. split.
  - intros (x & X). apply mem_inter in X. destruct X as (X & Y). apply H in Y. destruct Y as (_ & i & I & E).
    exists x, i. repeat split; auto.
  - intros (x & y & X & Y & E). exists x. apply mem_inter. split; auto. apply H. split; [exact (D x X)|]. exists y. split; auto.
Qed.
Lemma nth_disjoint (parts : list N) i j : ForallOrdPairs disjoint parts -> (i < j < length parts)%nat -> disjoint (nth i parts 0) (nth j parts 0).
Proof.
  intros F. revert i j. induction F as [|p l P F IH]; intros i j L; cbn [length] in L; [lia|].
  destruct j as [|j]; [lia|]. destruct i as [|i]; cbn [nth].
  - rewrite Forall_forall in P. apply P, nth_In. lia.
  - apply IH. lia.
Qed.
Lemma good_adjacent nodes i j : partition (map fst nodes) -> Forall node_ok nodes -> (i < j < length nodes)%nat ->
  good nodes i j <-> adjacent m (nth i (map fst nodes) 0) (nth j (map fst nodes) 0).
Proof.
  intros (_ & D) F L. pose proof (nth_disjoint _ i j D) as D'. rewrite map_length in D'. specialize (D' L).
  change 0 with (fst (0, 0)) in D' |- *. rewrite !map_nth in *. apply can_merge_adjacent; auto.
  rewrite Forall_forall in F. apply F, nth_In. lia.
Qed.
Lemma progress nodes : partition (map fst nodes) -> Forall node_ok nodes -> connected m (whole (map fst nodes)) -> (2 <= length nodes)%nat ->
  exists i j, (i < j < length nodes)%nat /\ good nodes i j.
Proof.
  intros P F C L. destruct nodes as [|a [|b nodes]]; cbn [length] in L; try lia.
  assert (P' := P). destruct P' as (P1 & P2). cbn [map] in P1, P2. inversion P1 as [|? ? (_ & x & X) P1']; subst. inversion P1' as [|? ? (_ & y & Y) _]; subst.
  inversion P2 as [|? ? P3 _]; subst. inversion P3 as [|? ? P4 _]; subst.
  assert (Mx : mem x (whole (map fst (a :: b :: nodes)))) by (apply mem_whole; exists (fst a); split; [now left | exact X]).
  assert (My : mem y (whole (map fst (a :: b :: nodes)))) by (apply mem_whole; exists (fst b); split; [right; now left | exact Y]).
  pose proof (C x y Mx My) as Pa.
  assert (E : exists u v, mem u (fst a) /\ ~ mem v (fst a) /\ edge m u v /\ mem v (whole (map fst (a :: b :: nodes)))).
  { assert (NY : ~ mem y (fst a)) by (intros Z; exact (P4 y Z Y)). clear - Pa X NY. induction Pa as [i Hi | i j k Q IH He Hk]; [contradiction|].
    destruct (mem_dec j (fst a)) as [J | J]; [exists j, k; auto | now apply IH]. }
  destruct E as (u & v & U & V & E & W). apply mem_whole in W. destruct W as (p & I & W).
  destruct (In_nth _ _ 0 I) as (k & K & N). exists 0%nat, k. rewrite map_length in K.
  assert (K0 : (0 < k < length (a :: b :: nodes))%nat).
  { split; [|exact K]. destruct k; [|lia]. cbn in N. subst p. contradiction. }
  split; [exact K0|]. apply good_adjacent; auto. rewrite N. exists u, v. auto.
Qed.

Lemma loop_greedy fuel : forall nodes, (length nodes <= fuel)%nat -> nodes <> [] -> partition (map fst nodes) -> Forall node_ok nodes ->
  connected m (whole (map fst nodes)) ->
  exists js, for_each_join fuel card nodes = Some js /\ greedy m card (map fst nodes) js.
Proof.
  induction fuel as [|f IH]; intros nodes L NE P F C.
  - destruct nodes; [congruence | cbn in L; lia].
  - destruct nodes as [|a [|b nodes']]; [congruence | exists []; split; [reflexivity | constructor] |].
    remember (a :: b :: nodes') as nodes eqn:En. assert (L2 : (2 <= length nodes)%nat) by (subst; cbn; lia).
    assert (Un : for_each_join (S f) card nodes =
      match scan card nodes (pairs (length nodes)) None with
      | Some (_, (i, j)) =>
        let left := nth i nodes (0, 0) in let right := nth j nodes (0, 0) in let nodes1 := set_nth i (merge left right) nodes in
        option_map (cons (fst left, fst right)) (for_each_join f card (removelast (set_nth j (last nodes1 (0, 0)) nodes1)))
      | None => None end) by (subst nodes; reflexivity).
    rewrite Un. clear Un a b nodes' En. pose proof (scan_spec card nodes (pairs (length nodes)) None) as Sc.
    destruct (scan card nodes (pairs (length nodes)) None) as [[c [i j]]|].
    + destruct Sc as ([E | (I & G & Ec)] & Min & _); [discriminate|]. apply pairs_in in I. cbv zeta.
      pose proof (proj1 (good_adjacent nodes i j P F I) G) as A.
      destruct (array_step nodes i j (merge (nth i nodes (0,0)) (nth j nodes (0,0))) I) as (rest & Q1 & Q2). cbv zeta in Q2.
      set (nodes2 := removelast _) in *. clearbody nodes2.
      pose proof (Permutation_map fst Q1) as R1. pose proof (Permutation_map fst Q2) as R2. cbn [map] in R1, R2. unfold merge in R2; cbn [fst] in R2.
      change (sbs_union (fst (nth i nodes (0,0))) (fst (nth j nodes (0,0)))) with (N.lor (fst (nth i nodes (0,0))) (fst (nth j nodes (0,0)))) in R2.
      assert (PF : Forall node_ok (nth i nodes (0,0) :: nth j nodes (0,0) :: rest)).
      { rewrite Forall_forall in *. intros x X. apply F. exact (Permutation_in _ (Permutation_sym Q1) X). }
      pose proof (partition_perm _ _ R1 P) as PP. assert (PP' := PP). destruct PP' as (PW & _).
      inversion PW as [|? ? (W1 & _) PW']; subst. inversion PW' as [|? ? (W2 & _) _]; subst.
      assert (Len : (length nodes2 <= f)%nat).
      { apply Permutation_length in Q1, Q2. cbn [length] in Q1, Q2. clear - Q1 Q2 L. unfold node, sbs in *. lia. }
      assert (Ne2 : nodes2 <> []) by (intros ->; apply Permutation_nil in Q2; discriminate).
      assert (P2 : partition (map fst nodes2)).
      { apply (partition_perm _ _ (Permutation_sym R2)). now apply partition_union. }
      assert (F2 : Forall node_ok nodes2).
      { inversion PF as [|? ? O1 PF']; subst. inversion PF' as [|? ? O2 O3]; subst.
        assert (X : Forall node_ok (merge (nth i nodes (0,0)) (nth j nodes (0,0)) :: rest)) by (constructor; auto; now apply node_merge).
        rewrite Forall_forall in *. intros x Y. apply X. exact (Permutation_in _ Q2 Y). }
      assert (C2 : connected m (whole (map fst nodes2))).
      { pose proof (eq_rect _ (connected m) C _ (whole_perm _ _ R1)) as C0. apply (eq_rect _ (connected m) C0). rewrite (whole_perm _ _ R2). cbn [whole fold_right]. now rewrite <- N.lor_assoc. }
      destruct (IH nodes2 Len Ne2 P2 F2 C2) as (js & E & Gd). rewrite E. cbn [option_map]. eexists. split; [reflexivity|].
      apply (G_join _ _ _ _ _ (map fst rest)).
      * exact R1.
      * change 0 with (fst (0, 0)) in A. rewrite !map_nth in A. exact A.
      * intros a b rest' Qa Ad. destruct (two_of _ _ _ _ Qa) as (i' & j' & L' & Nt). rewrite map_length in L'.
        assert (G' : good nodes i' j').
        { apply good_adjacent; auto. destruct Nt as [(-> & ->) | (-> & ->)]; auto. now apply adjacent_sym. }
        pose proof (Min i' j' (proj2 (pairs_in _ _ _) L') G') as M. unfold joined in M. 
        replace (N.lor a b) with (N.lor (fst (nth i' nodes (0, 0))) (fst (nth j' nodes (0, 0)))); [exact M|].
        rewrite <- !(map_nth fst). cbn [fst]. destruct Nt as [(-> & ->) | (-> & ->)]; [reflexivity | apply N.lor_comm].
      * exact (greedy_perm _ _ _ _ Gd _ R2).
    + destruct Sc as (_ & Sc). destruct (progress nodes P F C L2) as (i & j & I & G). now contradiction (Sc i j (proj2 (pairs_in _ _ _) I)).
Qed.
End Loop.

(** From any partition into parts whose union is connected, a greedy sequence of joins down to one part is issued. *)
Theorem C64_goo : forall n m card parts, graph n m -> symmetric m -> parts <> [] -> partition parts -> connected m (whole parts) ->
  exists joins, goo m card parts = Some joins /\ greedy m card parts joins.
Proof.
  intros n m card parts Gr Sy NE P C. unfold goo. set (nodes := map (fun S => (S, neighbors m S)) parts).
  assert (E : map fst nodes = parts) by (unfold nodes; rewrite map_map; apply map_id).
  destruct (loop_greedy n m card Sy (length parts) nodes) as (js & E1 & E2).
  - unfold nodes. rewrite map_length. apply Nat.le_refl.
  - unfold nodes. destruct parts; [congruence | discriminate].
  - exact (eq_ind_r partition P E).
  - unfold nodes. apply Forall_forall. intros nd I. apply in_map_iff in I. destruct I as (p & <- & I).
    apply (node_start n m Gr). destruct P as (F & _). rewrite Forall_forall in F. now apply F.
  - exact (eq_ind_r (fun l => connected m (whole l)) C E).
  - exists js. split; [exact E1|]. exact (eq_ind _ (fun l => greedy m card l js) E2 _ E).
Qed.

(** the whole query, from its sources *)
Lemma singles_disjoint n : forall k, ForallOrdPairs disjoint (map (fun i => 2 ^ N.of_nat i) (seq k n)).
Proof.
  induction n as [|n IH]; intros k; cbn [seq map]; constructor; auto. apply Forall_forall. intros p I.
  apply in_map_iff in I. destruct I as (i & <- & I). apply in_seq in I. intros x X Y. apply mem_pow2 in X, Y. lia.
Qed.
Theorem C64_query : forall n m card, graph (N.of_nat n) m -> symmetric m -> (0 < n)%nat ->
  (forall i j, i < N.of_nat n -> j < N.of_nat n -> path m (fun x => x < N.of_nat n) i j) ->
  exists joins, goo_query n m card = Some joins /\ greedy m card (map (fun i => 2 ^ N.of_nat i) (seq 0 n)) joins.
Proof.
  intros n m card Gr Sy P C. unfold goo_query.
  assert (W : forall x, mem x (whole (map (fun i => 2 ^ N.of_nat i) (seq 0 n))) <-> x < N.of_nat n).
  { intros x. rewrite mem_whole. split.
    - intros (p & I & M). apply in_map_iff in I. destruct I as (i & <- & I). apply in_seq in I. apply mem_pow2 in M. lia.
    - intros L. exists (2 ^ x). split; [|now apply mem_pow2]. apply in_map_iff. exists (N.to_nat x). rewrite N2Nat.id. split; auto. apply in_seq. lia. }
  apply (C64_goo (N.of_nat n)); auto.
  - destruct n; [lia | discriminate].
  - split; [|apply singles_disjoint]. apply Forall_forall. intros p I. apply in_map_iff in I. destruct I as (i & <- & I). apply in_seq in I.
    split; [|exists (N.of_nat i); now apply mem_pow2]. destruct Gr as (G & _). unfold W64. apply N.pow_lt_mono_r; lia.
  - intros i j I J. apply W in I, J. apply (path_mono m (fun x => x < N.of_nat n)); [intros x X; now apply W | now apply C].
Qed.

(** What greedy sequences of joins are: join trees over all parts … *)
Lemma grow t l r : forall a b, leaves t = a ++ N.lor l r :: b ->
  exists t', root t' = root t /\ leaves t' = a ++ l :: r :: b /\ Permutation (inner t') ((l, r) :: inner t).
Proof.
  induction t as [p | t1 IH1 t2 IH2]; intros a b E; cbn [leaves] in E.
  - destruct a as [|? [|? ?]]; [|discriminate|discriminate]. inversion E; subst. exists (Node (Leaf l) (Leaf r)). repeat split. cbn. apply Permutation_refl.
  - destruct (Nat.lt_ge_cases (length a) (length (leaves t1))) as [L | L].
    + assert (X : exists b', leaves t1 = a ++ N.lor l r :: b' /\ b = b' ++ leaves t2).
      { clear - E L. revert a E L. induction (leaves t1) as [|x k IH]; intros a E L; [cbn in L; lia|]. destruct a as [|y a]; cbn [app] in E; inversion E; subst.
        - exists k. split; auto.
        - destruct (IH a) as (b' & -> & ->); [auto | cbn in L; lia|]. exists b'. split; auto. }
      destruct X as (b' & E1 & ->). destruct (IH1 a b' E1) as (t' & R & Lv & In'). exists (Node t' t2). cbn [root leaves inner]. rewrite R, Lv. split; auto.
      split; [now rewrite <- app_assoc|]. eapply perm_trans; [apply perm_skip, Permutation_app_tail; exact In'|]. cbn [app]. apply perm_swap.
    + assert (X : exists a', leaves t2 = a' ++ N.lor l r :: b /\ a = leaves t1 ++ a').
      { clear - E L. revert a E L. induction (leaves t1) as [|x k IH]; intros a E L; cbn [app] in E; [now exists a|]. destruct a as [|y a]; [cbn in L; lia|].
        cbn [app] in E. inversion E; subst. destruct (IH a) as (a' & -> & ->); [auto | cbn in L; lia|]. exists a'. split; auto. }
      destruct X as (a' & E1 & ->). destruct (IH2 a' b E1) as (t' & R & Lv & In'). exists (Node t1 t'). cbn [root leaves inner]. rewrite R, Lv. split; auto.
      split; [now rewrite <- app_assoc|]. eapply perm_trans; [apply perm_skip, Permutation_app_head; exact In'|].
      eapply perm_trans; [apply perm_skip, Permutation_sym, Permutation_middle | apply perm_swap].
Qed.
Theorem C64_tree : forall m card parts joins, greedy m card parts joins ->
  exists t, Permutation (leaves t) parts /\ Permutation (inner t) joins /\ root t = whole parts.
Proof.
  intros m card parts js G. induction G as [p | parts l r rest js P A M G (t & L & I & R)].
  - exists (Leaf p). repeat split; auto. cbn. now rewrite N.lor_0_r.
  - assert (X : In (N.lor l r) (leaves t)) by (apply (Permutation_in _ (Permutation_sym L)); now left).
    destruct (in_split _ _ X) as (a & b & E). destruct (grow t l r a b E) as (t' & R' & L' & I'). exists t'.
    rewrite E in L. apply (perm_trans (Permutation_middle a b (N.lor l r))) in L. apply Permutation_cons_inv in L. rewrite L'. split; [|split].
    + eapply perm_trans; [|apply Permutation_sym; exact P]. eapply perm_trans; [apply Permutation_sym, Permutation_middle|]. constructor.
      eapply perm_trans; [apply Permutation_sym, Permutation_middle|]. now constructor.
    + eapply perm_trans; [exact I'|]. now constructor.
    + rewrite R', R, (whole_perm _ _ P). cbn [whole fold_right]. symmetry. apply N.lor_assoc.
Qed.

(** … without Cartesian products: every join combines two disjoint connected sets of sources between which there is a join. *)
Lemma connected_union m l r : symmetric m -> connected m l -> connected m r -> adjacent m l r -> connected m (N.lor l r).
Proof.
  intros Sy Cl Cr (a & b & A & B & E).
  assert (Pl : forall i j, mem i l -> mem j l -> path m (fun x => mem x (N.lor l r)) i j).
  { intros i j I J. apply (path_mono m (fun x => mem x l)); [|now apply Cl]. intros x X. apply mem_union. now left. }
  assert (Pr : forall i j, mem i r -> mem j r -> path m (fun x => mem x (N.lor l r)) i j).
  { intros i j I J. apply (path_mono m (fun x => mem x r)); [|now apply Cr]. intros x X. apply mem_union. now right. }
  assert (Plr : forall i j, mem i l -> mem j r -> path m (fun x => mem x (N.lor l r)) i j).
  { intros i j I J. eapply path_trans; [|exact (Pr b j B J)]. apply (path_step m _ i a b); [exact (Pl i a I A) | exact E|]. apply mem_union. now right. }
  intros i j I J. change (N.lor l r) with (sbs_union l r) in I, J. apply mem_union in I, J. destruct I as [I | I], J as [J | J]; auto.
  apply path_sym; auto.
Qed.
Theorem C64_no_cartesian_product : forall m card parts joins, symmetric m -> greedy m card parts joins -> partition parts -> Forall (connected m) parts ->
  forall l r, In (l, r) joins -> disjoint l r /\ connected m l /\ connected m r /\ adjacent m l r.
Proof.
  intros m card parts js Sy G. induction G as [p | parts l r rest js P A M G IH]; intros Pt F a b I; [destruct I|].
  pose proof (partition_perm _ _ P Pt) as Pt'.
  assert (F' : Forall (connected m) (l :: r :: rest)) by (rewrite Forall_forall in *; intros x X; apply F; exact (Permutation_in _ (Permutation_sym P) X)).
  inversion F' as [|? ? F1 F2]; subst. inversion F2 as [|? ? F3 F4]; subst. destruct I as [E | I].
  - inversion E; subst. destruct Pt' as (_ & D). inversion D as [|? ? D1 _]; subst. inversion D1; subst. auto.
  - apply IH; auto; [now apply partition_union|]. constructor; auto. now apply connected_union.
Qed.
(** one join less than parts *)
Theorem C64_number : forall m card parts joins, greedy m card parts joins -> length parts = S (length joins).
Proof.
  intros m card parts js G. induction G as [p | parts l r rest js P A M G IH]; [reflexivity|].
  apply Permutation_length in P. cbn [length] in *. lia.
Qed.

(** ** Examples: a chain of four sources; cardinalities such that the greedy joins are not the best *)
Definition chain (i : N) : N := match i with 0 => 2 | 1 => 5 | 2 => 10 | 3 => 4 | _ => 0 end.
Definition chain_card (S : N) : N := match S with 3 => 2 | 6 => 1 | 12 => 2 | 7 => 100 | 14 => 100 | _ => 5 end.
Lemma chain_edge i j : edge chain i j -> (i = 0 /\ j = 1) \/ (i = 1 /\ j = 0) \/ (i = 1 /\ j = 2) \/ (i = 2 /\ j = 1) \/ (i = 2 /\ j = 3) \/ (i = 3 /\ j = 2).
Proof.
  unfold edge, mem. intros E.
  assert (L : j < 4).
  { destruct (N.lt_ge_cases j 4) as [L | L]; auto. exfalso. assert (X : chain i < 2 ^ 4) by (unfold chain; destruct i as [|[[?|?|]|[?|?|]|]]; reflexivity).
    rewrite N.bits_above_log2 in E; [discriminate|]. destruct (N.eq_dec (chain i) 0) as [-> | NZ]; [cbn; lia|]. apply N.log2_lt_pow2 in X; lia. }
  destruct i as [|[[?|?|]|[?|?|]|]]; cbn [chain] in E; try (rewrite N.bits_0 in E; discriminate);
    destruct j as [|[[?|?|]|[?|?|]|]]; try lia; try discriminate; auto 10; cbn in E; try discriminate.
Qed.
Example C64_ex_chain : graph 4 chain /\ symmetric chain /\
  (forall i j, i < 4 -> j < 4 -> path chain (fun x => x < 4) i j) /\
  goo_query 4 chain chain_card = Some [(2, 4); (1, 6); (7, 8)].
Proof.
  split; [|split; [|split]].
  - split; [lia|]. intros i j E. apply chain_edge in E. lia.
  - intros i j E. apply chain_edge in E. intuition subst; reflexivity.
  - assert (Z : forall i, i < 4 -> path chain (fun x => x < 4) 0 i).
    { assert (Z0 : path chain (fun x => x < 4) 0 0) by (constructor; lia).
      assert (Z1 : path chain (fun x => x < 4) 0 1) by (apply (path_step _ _ _ 0); [exact Z0 | reflexivity | lia]).
      assert (Z2 : path chain (fun x => x < 4) 0 2) by (apply (path_step _ _ _ 1); [exact Z1 | reflexivity | lia]).
      assert (Z3 : path chain (fun x => x < 4) 0 3) by (apply (path_step _ _ _ 2); [exact Z2 | reflexivity | lia]).
      intros i L. assert (i = 0 \/ i = 1 \/ i = 2 \/ i = 3) as [-> | [-> | [-> | ->]]] by lia; assumption. }
    assert (Sy : symmetric chain) by (intros i j E; apply chain_edge in E; intuition subst; reflexivity).
    intros i j I J. eapply path_trans; [apply path_sym; [exact Sy | now apply Z] | now apply Z].
  - vm_compute. reflexivity.
Qed.

(** ** Refutations *)
(** the sum of the cardinalities of the joins is not the least one without Cartesian products *)
Theorem C64_refuted_optimal : exists joins t, goo_query 4 chain chain_card = Some joins /\
  Permutation (leaves t) [1; 2; 4; 8] /\ (forall l r, In (l, r) (inner t) -> adjacent chain l r) /\
  let cost js := fold_right (fun '(l, r) c => chain_card (N.lor l r) + c) 0 js in cost joins = 106 /\ cost (inner t) = 9.
Proof.
  exists [(2, 4); (1, 6); (7, 8)], (Node (Node (Leaf 1) (Leaf 2)) (Node (Leaf 4) (Leaf 8))).
  split; [vm_compute; reflexivity|]. split; [apply Permutation_refl|]. split; [|split; reflexivity].
  cbn. intros l r [E | [E | [E | []]]]; inversion E; subst.
  - exists 1, 2. repeat split.
  - exists 0, 1. repeat split.
  - exists 2, 3. repeat split.
Qed.
(** query graphs that are not connected: a null pointer is dereferenced *)
Theorem C64_refuted_disconnected : forall card, graph 2 (fun _ => 0) /\ symmetric (fun _ => 0) /\ goo_query 2 (fun _ => 0) card = None.
Proof.
  intros card. split; [|split].
  - split; [lia|]. intros i j E. now apply mem_0 in E.
  - intros i j E. now apply mem_0 in E.
  - vm_compute. reflexivity.
Qed.
