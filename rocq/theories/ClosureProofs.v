(** * Proofs about transitive closures. *)
From Coq Require Import NArith List Bool Lia Sorting.Sorted.
From Verif Require Import Word WordProofs Bitset BitsetProofs GraphSpec Graph GraphProofs.
Import ListNotations.
Open Scope N_scope.
Arguments N.pow : simpl never.
Arguments N.testbit : simpl never.

Lemma in_range a n i : In i (range a n) <-> a <= i < n.
Proof.
  unfold range. rewrite in_map_iff. split.
  - intros [x [<- Hx]]. apply in_seq in Hx. lia.
  - intros H. exists (N.to_nat i). split; [lia|]. apply in_seq. lia.
Qed.
Lemma range_cons a n : a < n -> range a n = a :: range (a + 1) n.
Proof.
  intros H. unfold range. replace (N.to_nat (n - a)) with (S (N.to_nat (n - (a + 1)))) by lia. cbn [seq map].
  rewrite N2Nat.id. do 3 f_equal. lia.
Qed.
Lemma range_NoDup a n : NoDup (range a n).
Proof. unfold range. apply FinFun.Injective_map_NoDup; [intros x y; lia|apply seq_NoDup]. Qed.
Lemma range_sorted a n : StronglySorted N.lt (range a n).
Proof. apply sorted_idx_seq. Qed.

Lemma mset_mem m i j v a b : W64 (m i) -> j < 64 ->
  mem b (mset m i j v a) <-> (if (a =? i) && (b =? j) then v = true else mem b (m a)).
Proof.
  intros HW Hj. unfold mset. destruct (N.eqb_spec a i) as [E|E]; [|reflexivity]. rewrite E. cbn [andb].
  destruct (set_spec (m i) j v HW Hj) as [r [-> [_ Hr]]]. unfold mem. rewrite Hr.
  destruct (b =? j); reflexivity.
Qed.
Lemma mset_W64 m i j v : (forall x, W64 (m x)) -> j < 64 -> forall a, W64 (mset m i j v a).
Proof.
  intros HW Hj a. unfold mset. destruct (a =? i); [|apply HW].
  destruct (set_spec (m i) j v (HW i) Hj) as [r [-> [Hr _]]]. exact Hr.
Qed.

Definition minc (a b : matrix) : Prop := forall i j, edge a i j -> edge b i j.
Definition weight (n : N) (c : matrix) : N := fold_right (fun i s => popcount (c i) + s) 0 (range 0 n).

Lemma weight_bound n c : n <= 64 -> (forall i, W64 (c i)) -> weight n c <= 4096.
Proof.
  intros Hn HW. unfold weight.
  assert (H : forall l, fold_right (fun i s => popcount (c i) + s) 0 l <= 64 * N.of_nat (length l)).
  { induction l as [|x l IH]; cbn [fold_right length]; [lia|]. pose proof (popcount_le64 (c x) (HW x)). lia. }
  specialize (H (range 0 n)). unfold range in H at 2. rewrite map_length, seq_length in H. lia.
Qed.
Lemma weight_mono_l l (a b : matrix) : (forall i, W64 (b i)) -> minc a b ->
  fold_right (fun i s => popcount (a i) + s) 0 l <= fold_right (fun i s => popcount (b i) + s) 0 l.
Proof.
  intros HW H. induction l as [|x l IH]; cbn [fold_right]; [lia|].
  pose proof (popcount_mono (a x) (b x) (HW x) (fun j Hj => H x j Hj)). lia.
Qed.
Lemma weight_mono n a b : (forall i, W64 (b i)) -> minc a b -> weight n a <= weight n b.
Proof. apply weight_mono_l. Qed.
Lemma weight_strict n a b i j : (forall i, W64 (b i)) -> minc a b -> i < n -> edge b i j -> ~ edge a i j ->
  weight n a < weight n b.
Proof.
  intros HW H Hi Hb Ha. unfold weight. assert (Hin : In i (range 0 n)) by (apply in_range; lia).
  induction (range 0 n) as [|x l IH]; [destruct Hin|]. cbn [fold_right].
  pose proof (weight_mono_l l a b HW H) as HL.
  pose proof (popcount_mono (a x) (b x) (HW x) (fun j Hj => H x j Hj)) as HX.
  destruct Hin as [->|Hin].
  - pose proof (popcount_strict (a i) (b i) j (HW i) (fun j Hj => H i j Hj) Hb Ha). lia.
  - specialize (IH Hin). lia.
Qed.

Lemma walk_trans m i j k : walk m i j -> walk m j k -> walk m i k.
Proof.
  intros H1 H2. induction H2 as [j k He|j k l H2 IH He]; [exact (walk_step m i j k H1 He)|].
  exact (walk_step m i k l (IH H1) He).
Qed.
Lemma walk_sym m : symmetric m -> forall i j, walk m i j -> walk m j i.
Proof.
  intros Hs i j H. induction H as [i j He|i j k H IH He]; [apply walk_edge, Hs, He|].
  apply walk_trans with j; [apply walk_edge, Hs, He|exact IH].
Qed.

Definition closed_at (c : matrix) (i j : N) : Prop := (exists k, edge c i k /\ edge c k j) -> edge c i j.

(** Progress of one pass over the matrix. *)
Record pass (n : N) (m c0 : matrix) (done : N -> N -> Prop) (c : matrix) (changed : bool) : Prop := {
  ps_graph : graph n c;
  ps_orig : minc m c;
  ps_walk : forall i j, edge c i j -> walk m i j;
  ps_inc : minc c0 c;
  ps_same : changed = false -> minc c c0 /\ forall i j, done i j -> closed_at c0 i j;
  ps_grow : changed = true -> weight n c0 < weight n c }.

(** Adding one edge justified by a 2-step connection. *)
Lemma pass_add n m c0 done c ch c' i j : pass n m c0 done c ch -> minc c c' -> (forall a, W64 (c' a)) ->
  (forall a b, edge c' a b -> edge c a b \/ (a < n /\ b < n /\ walk m a b)) -> i < n -> edge c' i j -> ~ edge c i j ->
  pass n m c0 (fun a b => (a = i /\ b = j) \/ done a b) c' true.
Proof.
  intros [G O W I S Gr] Hinc HW' Hnew Hi He Hne. constructor.
  - split; [apply G|]. intros a b H. destruct (Hnew a b H) as [H'|H']; [apply G, H'|tauto].
  - intros a b H. apply Hinc, O, H.
  - intros a b H. destruct (Hnew a b H) as [H'|H']; [apply W, H'|tauto].
  - intros a b H. apply Hinc, I, H.
  - discriminate.
  - intros _. pose proof (weight_strict n c c' i j HW' Hinc Hi He Hne).
    destruct ch; [specialize (Gr eq_refl); lia|].
    pose proof (weight_mono n c0 c (graph_W64 n c G) I). lia.
Qed.
Lemma pass_keep n m c0 done c ch c' i j : pass n m c0 done c ch -> minc c c' -> minc c' c -> closed_at c i j ->
  pass n m c0 (fun a b => (a = i /\ b = j) \/ done a b) c' ch.
Proof.
  intros [G O W I S Gr] H1 H2 Hc.
  assert (G' : graph n c') by (split; [apply G|intros a b H; apply G, H2, H]).
  constructor.
  - exact G'.
  - intros a b H. apply H1, O, H.
  - intros a b H. apply W, H2, H.
  - intros a b H. apply H1, I, H.
  - intros E. destruct (S E) as [S1 S2]. split; [intros a b H; apply S1, H2, H|].
    intros a b [[-> ->]|Hd]; [|apply S2, Hd]. intros [k [Hk1 Hk2]]. apply S1, Hc. exists k. split; apply I; assumption.
  - intros E. specialize (Gr E). pose proof (weight_mono n c c' (graph_W64 n c' G') H1). lia.
Qed.

(** Directed cell. *)
Lemma tcd_cell_pass n m c0 done c ch i j : i < n -> j < n -> pass n m c0 done c ch ->
  let st := tcd_cell (c, ch) i j in pass n m c0 (fun a b => (a = i /\ b = j) \/ done a b) (fst st) (snd st).
Proof.
  intros Hi Hj HP. cbn zeta. unfold tcd_cell. destruct (N.testbit (c i) j) eqn:E.
  - cbn [fst snd]. apply pass_keep with c; auto; try (intros a b H; exact H). intros _. exact E.
  - assert (Hn : n <= 64) by apply (ps_graph _ _ _ _ _ _ HP).
    pose proof (graph_W64 n c (ps_graph _ _ _ _ _ _ HP)) as HW.
    destruct (Singleton_spec j ltac:(lia)) as [s [Hs [_ Hsb]]]. rewrite Hs.
    assert (Hex : existsb (fun k => negb (sbs_empty (sbs_inter (c k) s))) (sbs_list (c i)) = true
                  <-> exists k, edge c i k /\ edge c k j).
    { rewrite existsb_exists. split.
      - intros [k [Hk Hb]]. apply in_sbs_list in Hk; [|apply HW]. apply negb_true_iff in Hb.
        apply empty_false_mem in Hb. destruct Hb as [x Hx]. apply mem_inter in Hx. destruct Hx as [Hx1 Hx2].
        unfold mem in Hx2. rewrite Hsb in Hx2. apply N.eqb_eq in Hx2. subst x. exists k. split; assumption.
      - intros [k [Hk1 Hk2]]. exists k. split; [apply in_sbs_list; [apply HW|exact Hk1]|]. apply negb_true_iff.
        apply empty_false_mem. exists j. apply mem_inter. split; [exact Hk2|]. unfold mem. rewrite Hsb. apply N.eqb_refl. }
    destruct (existsb _ _) eqn:Eb; cbn [fst snd].
    + apply pass_add with (c := c) (ch := ch); auto.
      * intros a b H. unfold edge. rewrite mset_mem by (auto; lia).
        destruct ((a =? i) && (b =? j)); [reflexivity|exact H].
      * apply mset_W64; [exact HW|lia].
      * intros a b H. unfold edge in H. rewrite mset_mem in H by (auto; lia).
        destruct (N.eqb_spec a i) as [Ea|Ea]; [|left; exact H].
        destruct (N.eqb_spec b j) as [Ebj|Ebj]; [|left; exact H]. cbn [andb] in H. right. subst a b.
        split; [exact Hi|]. split; [exact Hj|]. destruct (proj1 Hex eq_refl) as [k [K1 K2]].
        apply walk_trans with k; apply (ps_walk _ _ _ _ _ _ HP); assumption.
      * unfold edge. rewrite mset_mem by (auto; lia). rewrite !N.eqb_refl. reflexivity.
      * unfold edge, mem. rewrite E. discriminate.
    + apply pass_keep with c; auto; try (intros a b H; exact H). intros H. apply Hex in H. discriminate.
Qed.

Lemma pass_done n m c0 (d1 d2 : N -> N -> Prop) c ch : (forall i j, d2 i j -> d1 i j) -> pass n m c0 d1 c ch -> pass n m c0 d2 c ch.
Proof.
  intros H [G O W I S Gr]. constructor; auto. intros E. destruct (S E) as [S1 S2]. split; [exact S1|]. auto.
Qed.

Lemma tcd_body_pass n m c0 : graph n c0 -> minc m c0 -> (forall i j, edge c0 i j -> walk m i j) ->
  let st := tcd_body n c0 in pass n m c0 (fun a b => a < n /\ b < n) (fst st) (snd st).
Proof.
  intros G O W. cbn zeta. unfold tcd_body.
  assert (Hrow : forall i l done st, i < n -> (forall j, In j l -> j < n) -> pass n m c0 done (fst st) (snd st) ->
     let st' := fold_left (fun st j => tcd_cell st i j) l st in
     pass n m c0 (fun a b => (a = i /\ In b l) \/ done a b) (fst st') (snd st')).
  { intros i l. induction l as [|j l IH]; intros done st Hi Hl HP; cbn [fold_left].
    - apply pass_done with done; [|exact HP]. intros a b [[_ []]|H]; exact H.
    - destruct st as [c ch]. cbn [fst snd] in HP.
      pose proof (tcd_cell_pass n m c0 done c ch i j Hi (Hl j (or_introl eq_refl)) HP) as H1.
      specialize (IH _ (tcd_cell (c, ch) i j) Hi (fun x Hx => Hl x (or_intror Hx)) H1).
      eapply pass_done; [|exact IH]. intros a b [[-> [<-|Hb]]|H]; [right; left; tauto|left; tauto|right; right; exact H]. }
  assert (Hall : forall l done st, (forall i, In i l -> i < n) -> pass n m c0 done (fst st) (snd st) ->
     let st' := fold_left (fun st i => fold_left (fun st j => tcd_cell st i j) (range 0 n) st) l st in
     pass n m c0 (fun a b => (In a l /\ b < n) \/ done a b) (fst st') (snd st')).
  { intros l. induction l as [|i l IH]; intros done st Hl HP; cbn [fold_left].
    - apply pass_done with done; [|exact HP]. intros a b [[[] _]|H]; exact H.
    - pose proof (Hrow i (range 0 n) done st (Hl i (or_introl eq_refl)) (fun j Hj => proj2 (proj1 (in_range 0 n j) Hj)) HP) as H1.
      specialize (IH _ _ (fun x Hx => Hl x (or_intror Hx)) H1). eapply pass_done; [|exact IH].
      intros a b [[[<-|Ha] Hb]|H]; [right; left; split; [reflexivity|apply in_range; lia]|left; tauto|right; right; exact H]. }
  assert (H0 : pass n m c0 (fun _ _ => False) (fst (c0, false)) (snd (c0, false))).
  { constructor; cbn [fst snd]; auto; try discriminate; try (intros a b H; exact H).
    intros _. split; [intros a b H; exact H|intros i j []]. }
  specialize (Hall (range 0 n) _ _ (fun i Hi => proj2 (proj1 (in_range 0 n i) Hi)) H0).
  eapply pass_done; [|exact Hall]. intros a b [Ha Hb]. left. split; [apply in_range; lia|exact Hb].
Qed.

(** Undirected cell. *)
Lemma tcu_cell_pass n m c0 done c ch i j : symmetric m -> i <= j -> j < n -> pass n m c0 done c ch -> symmetric c ->
  (i < j -> (exists k, edge c i k) -> edge c i i) ->
  let st := tcu_cell (c, ch) i j in
  pass n m c0 (fun a b => (a = i /\ b = j) \/ done a b) (fst st) (snd st) /\ symmetric (fst st) /\
  ((exists k, edge (fst st) i k) -> edge (fst st) i i).
Proof.
  intros Hm Hij Hj HP Hsym Hpre. cbn zeta. unfold tcu_cell. cbn [fst snd].
  assert (Hn : n <= 64) by apply (ps_graph _ _ _ _ _ _ HP).
  pose proof (graph_W64 n c (ps_graph _ _ _ _ _ _ HP)) as HW.
  set (dot := negb (sbs_empty (sbs_inter (c i) (c j)))).
  assert (Hdot : dot = true <-> exists k, edge c i k /\ edge c j k).
  { unfold dot. rewrite negb_true_iff, empty_false_mem. split; intros [k Hk]; exists k; apply mem_inter; exact Hk. }
  clearbody dot.
  set (c' := mset (mset c j i dot) i j dot).
  assert (HW1 : forall a, W64 (mset c j i dot a)) by (apply mset_W64; [exact HW|lia]).
  assert (HW' : forall a, W64 (c' a)) by (apply mset_W64; [exact HW1|lia]).
  assert (Hc' : forall a b, edge c' a b <->
     (if ((a =? i) && (b =? j)) || ((a =? j) && (b =? i)) then dot = true else edge c a b)).
  { intros a b. unfold edge, c'. rewrite mset_mem by (auto; lia).
    destruct ((a =? i) && (b =? j)); cbn [orb]; [reflexivity|]. apply mset_mem; [apply HW|lia]. }
  clearbody c'. clear HW1.
  assert (Hkeep : edge c i j -> dot = true).
  { intros He. apply Hdot. destruct (N.eq_dec i j) as [E|E].
    - subst j. exists i. split; exact He.
    - exists i. split; [apply Hpre; [lia|exists j; exact He]|apply Hsym; exact He]. }
  assert (Hinc : minc c c').
  { intros a b H. apply Hc'. destruct (N.eqb_spec a i) as [E1|E1]; destruct (N.eqb_spec b j) as [E2|E2];
      destruct (N.eqb_spec a j) as [E3|E3]; destruct (N.eqb_spec b i) as [E4|E4]; cbn [andb orb]; try exact H;
      apply Hkeep; subst; auto. }
  assert (Hsame : edge c' i j <-> dot = true) by (rewrite Hc', !N.eqb_refl; reflexivity).
  assert (Hnew : forall a b, edge c' a b -> edge c a b \/ (a < n /\ b < n /\ walk m a b)).
  { intros a b H. apply Hc' in H.
    destruct (((a =? i) && (b =? j)) || ((a =? j) && (b =? i))) eqn:E; [|left; exact H]. right.
    destruct (proj1 Hdot H) as [k [K1 K2]]. apply (ps_walk _ _ _ _ _ _ HP) in K1, K2.
    assert (Hw : walk m i j) by (apply walk_trans with k; [exact K1|apply walk_sym; assumption]).
    apply orb_true_iff in E. destruct E as [E|E]; apply andb_true_iff in E; destruct E as [E1 E2];
      apply N.eqb_eq in E1, E2; subst a b; (split; [lia|split; [lia|]]); [exact Hw|apply walk_sym; assumption]. }
  split; [|split].
  - destruct (N.testbit (c i) j) eqn:Eb.
    + rewrite (Hkeep Eb) in *. cbn [xorb]. rewrite orb_false_r. apply pass_keep with c; auto.
      * intros a b H. apply Hc' in H. destruct (((a =? i) && (b =? j)) || ((a =? j) && (b =? i))) eqn:E; [|exact H].
        apply orb_true_iff in E. destruct E as [E|E]; apply andb_true_iff in E; destruct E as [E1 E2];
        apply N.eqb_eq in E1, E2; subst a b; [exact Eb|apply Hsym; exact Eb].
      * intros _. exact Eb.
    + destruct dot; cbn [xorb].
      * rewrite orb_true_r. apply pass_add with (c := c) (ch := ch); auto; [lia|apply Hsame; reflexivity|].
        unfold edge, mem. rewrite Eb. discriminate.
      * rewrite orb_false_r. apply pass_keep with c; auto.
        -- intros a b H. apply Hc' in H. destruct (_ || _); [discriminate|exact H].
        -- intros [k [K1 K2]]. exfalso. assert (false = true); [|discriminate]. apply Hdot. exists k.
           split; [exact K1|apply Hsym; exact K2].
  - intros a b H. apply Hc'. apply Hc' in H. rewrite (andb_comm (b =? i)), (andb_comm (b =? j)), orb_comm.
    destruct (_ || _); [exact H|apply Hsym; exact H].
  - intros [k Hk]. destruct (N.eq_dec i j) as [E|E].
    + subst j. apply Hsame. apply Hc' in Hk. rewrite N.eqb_refl in Hk. cbn [andb] in Hk.
      destruct (k =? i) eqn:E; cbn [orb] in Hk; [exact Hk|]. apply Hdot. exists k. split; exact Hk.
    + apply Hinc. apply Hpre; [lia|]. apply Hc' in Hk.
      destruct (((i =? i) && (k =? j)) || ((i =? j) && (k =? i))) eqn:E'; [|exists k; exact Hk].
      destruct (proj1 Hdot Hk) as [x [X _]]. exists x. exact X.
Qed.

Lemma tcu_body_pass n m c0 : symmetric m -> graph n c0 -> symmetric c0 -> minc m c0 -> (forall i j, edge c0 i j -> walk m i j) ->
  let st := tcu_body n c0 in pass n m c0 (fun a b => a <= b /\ b < n) (fst st) (snd st) /\ symmetric (fst st).
Proof.
  intros Hm G S0 O W. cbn zeta. unfold tcu_body.
  assert (Hrow : forall i l done st, i < n -> (forall j, In j l -> i < j < n) -> pass n m c0 done (fst st) (snd st) ->
     symmetric (fst st) -> ((exists k, edge (fst st) i k) -> edge (fst st) i i) ->
     let st' := fold_left (fun st j => tcu_cell st i j) l st in
     pass n m c0 (fun a b => (a = i /\ In b l) \/ done a b) (fst st') (snd st') /\ symmetric (fst st')).
  { intros i l. induction l as [|j l IH]; intros done st Hi Hl HP Hs Hpre; cbn [fold_left].
    - split; [|exact Hs]. apply pass_done with done; [|exact HP]. intros a b [[_ []]|H]; exact H.
    - destruct st as [c ch]. cbn [fst snd] in HP, Hs, Hpre. pose proof (Hl j (or_introl eq_refl)) as Hj.
      destruct (tcu_cell_pass n m c0 done c ch i j Hm ltac:(lia) ltac:(lia) HP Hs (fun _ => Hpre)) as [H1 [H2 H3]].
      destruct (IH _ (tcu_cell (c, ch) i j) Hi (fun x Hx => Hl x (or_intror Hx)) H1 H2 H3) as [I1 I2]. split; [|exact I2].
      eapply pass_done; [|exact I1]. intros a b [[-> [<-|Hb]]|H]; [right; left; tauto|left; tauto|right; right; exact H]. }
  assert (Hall : forall l done st, (forall i, In i l -> i < n) -> pass n m c0 done (fst st) (snd st) -> symmetric (fst st) ->
     let st' := fold_left (fun st i => fold_left (fun st j => tcu_cell st i j) (range i n) st) l st in
     pass n m c0 (fun a b => (In a l /\ a <= b /\ b < n) \/ done a b) (fst st') (snd st') /\ symmetric (fst st')).
  { intros l. induction l as [|i l IH]; intros done st Hl HP Hs; cbn [fold_left].
    - split; [|exact Hs]. apply pass_done with done; [|exact HP]. intros a b [[[] _]|H]; exact H.
    - pose proof (Hl i (or_introl eq_refl)) as Hi. rewrite (range_cons i n Hi). cbn [fold_left].
      destruct st as [c ch]. cbn [fst snd] in HP, Hs.
      destruct (tcu_cell_pass n m c0 done c ch i i Hm ltac:(lia) ltac:(lia) HP Hs ltac:(lia)) as [H1 [H2 H3]].
      destruct (Hrow i (range (i + 1) n) _ (tcu_cell (c, ch) i i) Hi
                  ltac:(intros j Hj; apply in_range in Hj; lia) H1 H2 H3) as [R1 R2].
      destruct (IH _ _ (fun x Hx => Hl x (or_intror Hx)) R1 R2) as [I1 I2]. split; [|exact I2].
      eapply pass_done; [|exact I1]. intros a b [[[<-|Ha] Hb]|H]; [|left; tauto|right; right; right; exact H].
      destruct (N.eq_dec i b) as [->|Hne]; [right; right; left; tauto|]. right. left. split; [reflexivity|apply in_range; lia]. }
  assert (H0 : pass n m c0 (fun _ _ => False) (fst (c0, false)) (snd (c0, false))).
  { constructor; cbn [fst snd]; auto; try discriminate; try (intros a b H; exact H).
    intros _. split; [intros a b H; exact H|intros i j []]. }
  destruct (Hall (range 0 n) _ (c0, false) (fun i Hi => proj2 (proj1 (in_range 0 n i) Hi)) H0 S0) as [A1 A2].
  split; [|exact A2]. eapply pass_done; [|exact A1]. intros a b [Ha Hb]. left. split; [apply in_range; lia|lia].
Qed.

Section Loop.
  Variables (n : N) (m : matrix) (body : matrix -> matrix * bool) (I : matrix -> Prop) (done : N -> N -> Prop).
  Hypothesis body_ok : forall c0, graph n c0 -> minc m c0 -> (forall i j, edge c0 i j -> walk m i j) -> I c0 ->
    pass n m c0 done (fst (body c0)) (snd (body c0)) /\ I (fst (body c0)).
  Lemma closure_loop_spec f : forall c0, graph n c0 -> minc m c0 -> (forall i j, edge c0 i j -> walk m i j) -> I c0 ->
    4097 <= N.of_nat f + weight n c0 ->
    exists c, closure_loop body f c0 = Some c /\ graph n c /\ minc m c /\ (forall i j, edge c i j -> walk m i j) /\ I c /\
      (forall i j, done i j -> closed_at c i j).
  Proof.
    induction f as [|f IH]; intros c0 G O W HI Hf.
    - pose proof (weight_bound n c0 (proj1 G) (graph_W64 n c0 G)). lia.
    - cbn [closure_loop]. destruct (body_ok c0 G O W HI) as [HP HI']. destruct (body c0) as [c' ch]. cbn [fst snd] in *.
      destruct HP as [G' O' W' Inc Same Grow]. destruct ch.
      + apply IH; auto. specialize (Grow eq_refl). lia.
      + exists c'. split; [reflexivity|]. destruct (Same eq_refl) as [S1 S2]. repeat (split; [assumption|]).
        intros i j Hd [k [K1 K2]]. apply Inc, (S2 i j Hd). exists k. split; apply S1; assumption.
  Qed.
End Loop.

Lemma closed_walk n m c : graph n c -> minc m c -> (forall i j, i < n -> j < n -> closed_at c i j) ->
  forall i j, walk m i j -> edge c i j.
Proof.
  intros G O Hc i j H. induction H as [i j He|i j k H IH He]; [apply O, He|].
  apply O in He. apply Hc; [apply (proj2 G i j IH)|apply (proj2 G j k He)|]. exists j. split; assumption.
Qed.

Lemma tcd_spec n m : graph n m ->
  exists c, transitive_closure_directed n m = Some c /\ graph n c /\ forall i j, edge c i j <-> walk m i j.
Proof.
  intros G. unfold transitive_closure_directed.
  destruct (closure_loop_spec n m (tcd_body n) (fun _ => True) (fun a b => a < n /\ b < n)) with (f := N.to_nat 4098) (c0 := m)
    as [c [H1 [H2 [H3 [H4 [_ H5]]]]]]; auto.
  - intros c0 G0 O0 W0 _. split; [|exact I]. apply tcd_body_pass; assumption.
  - intros a b H. exact H.
  - intros i j H. apply walk_edge. exact H.
  - lia.
  - exists c. split; [exact H1|]. split; [exact H2|]. intros i j. split; [apply H4|].
    apply closed_walk with n; auto.
Qed.
Lemma tcu_spec n m : graph n m -> symmetric m ->
  exists c, transitive_closure_undirected n m = Some c /\ graph n c /\ symmetric c /\ forall i j, edge c i j <-> walk m i j.
Proof.
  intros G Hm. unfold transitive_closure_undirected.
  destruct (closure_loop_spec n m (tcu_body n) symmetric (fun a b => a <= b /\ b < n)) with (f := N.to_nat 4098) (c0 := m)
    as [c [H1 [H2 [H3 [H4 [Hs H5]]]]]]; auto.
  - intros c0 G0 O0 W0 S0. apply tcu_body_pass; assumption.
  - intros a b H. exact H.
  - intros i j H. apply walk_edge. exact H.
  - lia.
  - exists c. split; [exact H1|]. split; [exact H2|]. split; [exact Hs|]. intros i j. split; [apply H4|].
    apply closed_walk with n; auto. intros a b Ha Hb. destruct (N.le_gt_cases a b) as [H|H]; [apply H5; lia|].
    intros [k [K1 K2]]. apply Hs. apply (H5 b a ltac:(lia)). exists k. split; apply Hs; assumption.
Qed.
