(** * C16, C17: index look-ups *)
From Coq Require Import List Bool ZArith Lia Permutation.
From Verif Require Import Index IndexFloat.
Import ListNotations.
Local Open Scope Z_scope.

(** ** Specification *)
(** [lt] is a strict weak order (what [std::sort] and the binary searches require). *)
Definition strict_weak {K} (lt : K -> K -> bool) : Prop :=
  (forall a, lt a a = false) /\
  (forall a b c, lt a b = true -> lt b c = true -> lt a c = true) /\
  (forall a b c, lt a b = false -> lt b c = false -> lt a c = false).
Definition sorted {K} (lt : K -> K -> bool) (es : list (K * Z)) : Prop :=
  forall i j a b, (i < j)%nat -> nth_error es i = Some a -> nth_error es j = Some b -> lt (fst b) (fst a) = false.
(** The contract of [std::sort]. *)
Definition sorts {K} (lt : K -> K -> bool) (sort : list (K * Z) -> list (K * Z)) : Prop :=
  forall l, Permutation l (sort l) /\ sorted lt (sort l).
(** [r] is the position of the first entry whose key is not less than [k]; ... greater than [k]. *)
Definition is_lower_bound {K} (lt : K -> K -> bool) (es : list (K * Z)) (k : K) (r : Z) : Prop :=
  0 <= r <= Z.of_nat (length es) /\
  (forall i e, nth_error es i = Some e -> (Z.of_nat i < r <-> lt (fst e) k = true)).
Definition is_upper_bound {K} (lt : K -> K -> bool) (es : list (K * Z)) (k : K) (r : Z) : Prop :=
  0 <= r <= Z.of_nat (length es) /\
  (forall i e, nth_error es i = Some e -> (r <= Z.of_nat i <-> lt k (fst e) = true)).

Lemma nth_lt {A} (l : list A) i e : nth_error l i = Some e -> (i < length l)%nat.
Proof. intros H. apply nth_error_Some. rewrite H. discriminate. Qed.

(** ** Searching *)
Definition split_at (P : Z -> bool) (lo hi r : Z) : Prop :=
  lo <= r <= hi /\ (forall i, lo <= i < r -> P i = true) /\ (forall i, r <= i < hi -> P i = false).
Definition mono (P : Z -> bool) (n : Z) : Prop := forall i j, 0 <= i <= j -> j < n -> P j = true -> P i = true.

Lemma bisect_spec P n : mono P n -> forall fuel first len, 0 <= first -> 0 <= len -> first + len <= n -> (Z.to_nat len < fuel)%nat ->
  exists r, bisect P fuel first len = Some r /\ split_at P first (first + len) r.
Proof.
  intros M fuel. induction fuel as [|f IH]; intros first len H0 Hl Hn Hf; [lia|]. cbn [bisect].
  destruct (Z.ltb_spec 0 len) as [Hp|Hp].
  - assert (Hh : 0 <= len / 2 < len) by (split; [apply Z.div_pos; lia|apply Z.div_lt; lia]).
    remember (len / 2) as half. destruct (P (first + half)) eqn:EP.
    + destruct (IH (first + half + 1) (len - half - 1)) as [r [E [Hr [L R]]]]; try lia. exists r. split; [exact E|]. split; [lia|]. split.
      * intros i Hi. destruct (Z_lt_le_dec (first + half) i) as [Hlt|Hle]; [apply L; lia|]. apply (M i (first + half)); lia || exact EP.
      * intros i Hi. apply R. lia.
    + destruct (IH first half) as [r [E [Hr [L R]]]]; try lia. exists r. split; [exact E|]. split; [lia|]. split; [exact L|].
      intros i Hi. destruct (Z_lt_le_dec i (first + half)) as [Hlt|Hle]; [apply R; lia|].
      destruct (P i) eqn:Ei; [|reflexivity]. rewrite (M (first + half) i) in EP by (lia || exact Ei). discriminate.
  - exists first. split; [reflexivity|]. split; [lia|]. split; intros; lia.
Qed.
Lemma std_bound_spec P n lo hi : mono P n -> 0 <= lo <= hi -> hi <= n -> exists r, std_bound P lo hi = Some r /\ split_at P lo hi r.
Proof.
  intros M H1 H2. unfold std_bound. destruct (bisect_spec P n M (S (Z.to_nat (hi - lo))) lo (hi - lo)) as [r [E S]]; try lia.
  exists r. split; [exact E|]. replace (lo + (hi - lo)) with hi in S by lia. exact S.
Qed.

Lemma exp_right_spec P n : mono P n -> forall fuel bound prev curr, 0 < bound -> 0 <= prev -> prev < n -> prev < curr -> P prev = true ->
  (Z.to_nat (n - prev) <= fuel)%nat -> exists r, exp_right P n fuel bound prev curr = Some r /\ split_at P 0 n r.
Proof.
  intros M fuel. induction fuel as [|f IH]; intros bound prev curr Hb H0 Hn Hc HP Hf; [lia|]. cbn [exp_right].
  destruct ((curr <? n) && P curr) eqn:E.
  - apply andb_true_iff in E. destruct E as [E1 E2]. apply Z.ltb_lt in E1. apply IH; try lia. exact E2.
  - destruct (std_bound_spec P n prev (Z.min (curr + 1) n) M) as [r [Er [Hr [L R]]]]; try lia. exists r. split; [exact Er|].
    split; [lia|]. split.
    + intros i Hi. destruct (Z_lt_le_dec i prev) as [Hlt|Hle]; [apply (M i prev); lia || exact HP|apply L; lia].
    + intros i Hi. destruct (Z_lt_le_dec i (Z.min (curr + 1) n)) as [Hlt|Hle]; [apply R; lia|].
      destruct (P i) eqn:Ei; [|reflexivity]. assert (C : curr < n) by lia.
      rewrite (M curr i) in E by (lia || exact Ei). apply Z.ltb_lt in C. rewrite C in E. discriminate.
Qed.
Lemma exp_left_spec P n : mono P n -> forall fuel bound prev curr, 0 < bound -> 0 <= prev <= n -> curr < prev ->
  (prev < n -> P prev = false) -> (Z.to_nat prev <= fuel)%nat -> (0 < fuel)%nat ->
  exists r, exp_left P fuel bound prev curr = Some r /\ split_at P 0 n r.
Proof.
  intros M fuel. induction fuel as [|f IH]; intros bound prev curr Hb H0 Hc HP Hf Hf0; [lia|]. cbn [exp_left].
  destruct ((0 <? curr) && negb (P curr)) eqn:E.
  - apply andb_true_iff in E. destruct E as [E1 E2]. apply Z.ltb_lt in E1. apply negb_true_iff in E2.
    apply IH; try lia. intros _. exact E2.
  - destruct (std_bound_spec P n (Z.max 0 curr) prev M) as [r [Er [Hr [L R]]]]; try lia. exists r. split; [exact Er|].
    split; [lia|]. split.
    + intros i Hi. destruct (Z_lt_le_dec i (Z.max 0 curr)) as [Hlt|Hle]; [|apply L; lia].
      destruct (P i) eqn:Ei; [reflexivity|]. assert (C : 0 < curr) by lia.
      destruct (P curr) eqn:Ec.
      * rewrite (M i curr) in Ei by (lia || exact Ec). discriminate.
      * apply Z.ltb_lt in C. rewrite C in E. discriminate.
    + intros i Hi. destruct (Z_lt_le_dec i prev) as [Hlt|Hle]; [apply R; lia|].
      destruct (P i) eqn:Ei; [|reflexivity]. rewrite <- (HP ltac:(lia)). symmetry. apply (M prev i); lia || exact Ei.
Qed.
Lemma exp_search_spec P n pred : mono P n -> 0 <= pred <= n -> (pred = n -> P n = false) ->
  exists r, exp_search P n pred = Some r /\ split_at P 0 n r.
Proof.
  intros M Hp Hn. unfold exp_search. destruct (P pred) eqn:E.
  - assert (pred <> n) by (intros ->; rewrite Hn in E by reflexivity; discriminate).
    apply exp_right_spec; auto; lia.
  - apply exp_left_spec; auto; lia.
Qed.

Section Keys.
  Context {K : Type}.
  Variable lt : K -> K -> bool.
  Variable junk : K.
  Hypothesis SW : strict_weak lt.
  Lemma key_at_nth (es : list (K * Z)) i e : nth_error es i = Some e -> key_at junk es (Z.of_nat i) = fst e.
  Proof.
    intros H. unfold key_at. rewrite Nat2Z.id. apply nth_error_nth. rewrite nth_error_map, H. reflexivity.
  Qed.
  Lemma nth_of (es : list (K * Z)) i : 0 <= i < Z.of_nat (length es) -> exists e, nth_error es (Z.to_nat i) = Some e /\ key_at junk es i = fst e.
  Proof.
    intros H. destruct (nth_error es (Z.to_nat i)) as [e|] eqn:E.
    - exists e. split; [reflexivity|]. rewrite <- (key_at_nth es _ _ E). f_equal. lia.
    - apply nth_error_None in E. lia.
  Qed.
  Lemma lt_chain a b k : lt b a = false -> lt b k = true -> lt a k = true.
  Proof.
    destruct SW as [_ [_ S3]]. intros H1 H2. destruct (lt a k) eqn:E; [reflexivity|]. rewrite (S3 b a k H1 E) in H2. discriminate.
  Qed.
  Lemma mono_lower es k : sorted lt es -> mono (fun i => lt (key_at junk es i) k) (Z.of_nat (length es)).
  Proof.
    intros S i j Hi Hj H. destruct (Z.eq_dec i j) as [->|N]; [exact H|].
    destruct (nth_of es i) as [a [Ea ->]]; [lia|]. destruct (nth_of es j) as [b [Eb Kb]]; [lia|]. rewrite Kb in H.
    apply (lt_chain _ (fst b)); [|exact H]. apply (S (Z.to_nat i) (Z.to_nat j) a b); auto. lia.
  Qed.
  Lemma mono_upper es k : sorted lt es -> mono (fun i => negb (lt k (key_at junk es i))) (Z.of_nat (length es)).
  Proof.
    intros S i j Hi Hj H. destruct (Z.eq_dec i j) as [->|N]; [exact H|].
    destruct (nth_of es i) as [a [Ea ->]]; [lia|]. destruct (nth_of es j) as [b [Eb Kb]]; [lia|]. rewrite Kb in H.
    apply negb_true_iff in H. apply negb_true_iff. destruct SW as [_ [_ S3]]. apply (S3 _ (fst b)); [exact H|].
    apply (S (Z.to_nat i) (Z.to_nat j) a b); auto. lia.
  Qed.
  Lemma lower_of_split es k r : split_at (fun i => lt (key_at junk es i) k) 0 (Z.of_nat (length es)) r -> is_lower_bound lt es k r.
  Proof.
    intros [Hr [L R]]. split; [exact Hr|]. intros i e E. assert (Hi : (i < length es)%nat) by (exact (nth_lt _ _ _ E)).
    pose proof (key_at_nth es i e E) as Kk. split; intros H.
    - rewrite <- Kk. apply L. lia.
    - destruct (Z_lt_le_dec (Z.of_nat i) r); [assumption|]. rewrite <- Kk, R in H by lia. discriminate.
  Qed.
  Lemma upper_of_split es k r : split_at (fun i => negb (lt k (key_at junk es i))) 0 (Z.of_nat (length es)) r -> is_upper_bound lt es k r.
  Proof.
    intros [Hr [L R]]. split; [exact Hr|]. intros i e E. assert (Hi : (i < length es)%nat) by (exact (nth_lt _ _ _ E)).
    pose proof (key_at_nth es i e E) as Kk. split; intros H.
    - rewrite <- Kk. apply negb_false_iff. apply R. lia.
    - destruct (Z_lt_le_dec (Z.of_nat i) r); [|assumption]. specialize (L (Z.of_nat i) ltac:(lia)). cbv beta in L.
      rewrite Kk, H in L. discriminate.
  Qed.
End Keys.

(** ** Histories of an array index *)
Inductive op (K : Type) := OAdd (k : K) (v : Z) | OFinalize.
Arguments OAdd {K} k v.
Arguments OFinalize {K}.
(** Execution; an [add] that throws leaves the index unchanged. *)
Definition exec {K} (cap : Z) (sort : list (K * Z) -> list (K * Z)) (ix : @index K) (o : op K) : @index K :=
  match o with
  | OAdd k v => match add cap k v ix with Ok ix' => ix' | Throw => ix end
  | OFinalize => finalize sort ix
  end.
Definition run {K} cap sort (ops : list (op K)) : @index K := fold_left (exec cap sort) ops empty_index.
(** What was added successfully: as long as there is room. *)
Fixpoint added {K} (cap : Z) (n : Z) (ops : list (op K)) : list (K * Z) :=
  match ops with
  | [] => []
  | OAdd k v :: ops' => if n <? cap then (k, v) :: added cap (n + 1) ops' else added cap n ops'
  | OFinalize :: ops' => added cap n ops'
  end.
(** Finalized since the last successful addition? *)
Fixpoint is_final {K} (cap : Z) (n : Z) (f : bool) (ops : list (op K)) : bool :=
  match ops with
  | [] => f
  | OAdd _ _ :: ops' => if n <? cap then is_final cap (n + 1) false ops' else is_final cap n f ops'
  | OFinalize :: ops' => is_final cap n true ops'
  end.

Lemma run_inv {K} (lt : K -> K -> bool) cap sort : sorts lt sort -> forall ops (ix : @index K),
  (finalized ix = true -> sorted lt (entries ix)) ->
  let ix' := fold_left (exec cap sort) ops ix in
  Permutation (entries ix ++ added cap (num_entries ix) ops) (entries ix') /\
  finalized ix' = is_final cap (num_entries ix) (finalized ix) ops /\ (finalized ix' = true -> sorted lt (entries ix')).
Proof.
  intros HS ops. induction ops as [|o ops IH]; intros ix HI; cbn [fold_left added is_final].
  - rewrite app_nil_r. auto.
  - destruct o as [k v|]; cbn [exec].
    + unfold add. destruct (Z.ltb_spec cap (num_entries ix + 1)) as [H|H].
      * destruct (Z.ltb_spec (num_entries ix) cap); [lia|]. apply IH. exact HI.
      * destruct (Z.ltb_spec (num_entries ix) cap); [|lia].
        destruct (IH (mkIndex (entries ix ++ [(k, v)]) false)) as [A [B C]]; [discriminate|].
        assert (E : num_entries (mkIndex (entries ix ++ [(k, v)]) false) = num_entries ix + 1).
        { unfold num_entries. cbn [entries]. rewrite app_length. cbn [length]. lia. }
        rewrite E in A, B. cbn [entries finalized] in A, B. rewrite <- app_assoc in A. cbn [app] in A. auto.
    + destruct (HS (entries ix)) as [P S]. destruct (IH (finalize sort ix)) as [A [B C]]; [intros _; exact S|].
      assert (E : num_entries (finalize sort ix) = num_entries ix).
      { unfold num_entries, finalize. cbn [entries]. f_equal. symmetry. apply Permutation_length. exact P. }
      rewrite E in A, B. cbn [entries finalized finalize] in A, B. split; [|auto].
      etransitivity; [|exact A]. apply Permutation_app_tail. exact P.
Qed.

(** C16: after any history the index holds exactly the added entries; it is usable iff it was finalized after the last
    addition; then both look-ups return the exact bounds, otherwise they throw. *)
Theorem C16_array_index : forall (K : Type) (lt : K -> K -> bool) (junk : K) (cap : Z) (sort : list (K * Z) -> list (K * Z)) (ops : list (op K)) (k : K),
  strict_weak lt -> sorts lt sort ->
  let ix := run cap sort ops in
  Permutation (added cap 0 ops) (entries ix) /\ finalized ix = is_final cap 0 false ops /\
  if is_final cap 0 false ops
  then sorted lt (entries ix) /\
       (exists r, lower_bound lt junk ix k = Ok (Some r) /\ is_lower_bound lt (entries ix) k r) /\
       (exists r, upper_bound lt junk ix k = Ok (Some r) /\ is_upper_bound lt (entries ix) k r)
  else lower_bound lt junk ix k = Throw /\ upper_bound lt junk ix k = Throw.
Proof.
  intros K lt junk cap sort ops k SW HS ix. destruct (run_inv lt cap sort HS ops empty_index ltac:(discriminate)) as [A [B C]].
  fold (run cap sort ops) in A, B, C. fold ix in A, B, C. change (num_entries empty_index) with 0 in A, B. cbn [entries empty_index app finalized] in A, B.
  split; [exact A|]. split; [exact B|]. unfold lower_bound, upper_bound. rewrite <- B. destruct (finalized ix) eqn:F; [|auto].
  specialize (C eq_refl). split; [exact C|]. split.
  - destruct (std_bound_spec _ _ 0 (num_entries ix) (mono_lower lt junk SW (entries ix) k C)) as [r [E S]]; try (unfold num_entries; lia).
    exists r. split; [rewrite E; reflexivity|]. apply (lower_of_split lt junk); exact S.
  - destruct (std_bound_spec _ _ 0 (num_entries ix) (mono_upper lt junk SW (entries ix) k C)) as [r [E S]]; try (unfold num_entries; lia).
    exists r. split; [rewrite E; reflexivity|]. apply (upper_of_split lt junk); exact S.
Qed.
Print Assumptions C16_array_index.

(** The two bounds delimit exactly the entries with an equivalent key. *)
Theorem C16_equal_range : forall (K : Type) (lt : K -> K -> bool) (es : list (K * Z)) (k : K) lo hi, strict_weak lt ->
  is_lower_bound lt es k lo -> is_upper_bound lt es k hi ->
  lo <= hi /\ forall i e, nth_error es i = Some e -> (lo <= Z.of_nat i < hi <-> lt (fst e) k = false /\ lt k (fst e) = false).
Proof.
  intros K lt es k lo hi [S1 [S2 S3]] [Hlo L] [Hhi U].
  assert (B : forall i e, nth_error es i = Some e -> (lo <= Z.of_nat i < hi <-> lt (fst e) k = false /\ lt k (fst e) = false)).
  { intros i e E. specialize (L i e E). specialize (U i e E). destruct L as [L1 L2], U as [U1 U2].
    destruct (Z_lt_le_dec (Z.of_nat i) lo) as [C|C]; destruct (Z_lt_le_dec (Z.of_nat i) hi) as [D|D].
    - rewrite (L1 C). split; [lia|intros [H _]; discriminate].
    - rewrite (L1 C). split; [lia|intros [H _]; discriminate].
    - split; [intros _|lia]. split.
      + destruct (lt (fst e) k); [specialize (L2 eq_refl); lia|reflexivity].
      + destruct (lt k (fst e)); [specialize (U2 eq_refl); lia|reflexivity].
    - rewrite (U1 D). split; [lia|intros [_ H]; discriminate]. }
  split; [|exact B]. destruct (Z_lt_le_dec hi lo) as [C|C]; [|exact C]. exfalso.
  destruct (nth_error es (Z.to_nat hi)) as [e|] eqn:E; [|apply nth_error_None in E; lia].
  assert (H1 : lt (fst e) k = true) by (apply (L _ _ E); lia). assert (H2 : lt k (fst e) = true) by (apply (U _ _ E); lia).
  pose proof (S2 _ _ _ H1 H2) as H3. rewrite S1 in H3. discriminate.
Qed.
Print Assumptions C16_equal_range.

(** Bulk loading a column adds one entry per non-NULL value, labelled with its row number, and finalizes. *)
Fixpoint column_entries {K} (id : Z) (col : list (option K)) : list (K * Z) :=
  match col with [] => [] | None :: c => column_entries (id + 1) c | Some k :: c => (k, id) :: column_entries (id + 1) c end.
Lemma bulk_add_spec {K} cap : forall (col : list (option K)) id ix, num_entries ix + Z.of_nat (length (column_entries id col)) <= cap ->
  exists f, bulk_add cap id col ix = Ok (mkIndex (entries ix ++ column_entries id col) f).
Proof.
  induction col as [|[k|] col IH]; intros id ix H; cbn [bulk_add column_entries] in *.
  - exists (finalized ix). rewrite app_nil_r. destruct ix. reflexivity.
  - cbn [length] in H. unfold add. destruct (Z.ltb_spec cap (num_entries ix + 1)); [lia|].
    destruct (IH (id + 1) (mkIndex (entries ix ++ [(k, id)]) false)) as [f E].
    + unfold num_entries in *. cbn [entries]. rewrite app_length. cbn [length]. lia.
    + exists f. rewrite E. cbn [entries]. rewrite <- app_assoc. reflexivity.
  - apply IH. exact H.
Qed.
Theorem C16_bulkload : forall (K : Type) (lt : K -> K -> bool) (junk : K) cap sort (col : list (option K)) (k : K), strict_weak lt -> sorts lt sort ->
  Z.of_nat (length (column_entries 0 col)) <= cap ->
  exists ix, bulkload cap sort col empty_index = Ok ix /\ Permutation (column_entries 0 col) (entries ix) /\ sorted lt (entries ix) /\
    (exists r, lower_bound lt junk ix k = Ok (Some r) /\ is_lower_bound lt (entries ix) k r) /\
    (exists r, upper_bound lt junk ix k = Ok (Some r) /\ is_upper_bound lt (entries ix) k r).
Proof.
  intros K lt junk cap sort col k SW HS Hc. destruct (bulk_add_spec cap col 0 empty_index) as [f E]; [cbn; lia|].
  unfold bulkload. rewrite E. exists (finalize sort (mkIndex (column_entries 0 col) f)). split; [reflexivity|].
  destruct (HS (column_entries 0 col)) as [P S]. cbn [finalize entries]. split; [exact P|]. split; [exact S|].
  unfold lower_bound, upper_bound. cbn [finalize finalized entries]. split.
  - destruct (std_bound_spec _ _ 0 (Z.of_nat (length (sort (column_entries 0 col)))) (mono_lower lt junk SW _ k S)) as [r [Er Sr]]; try lia.
    exists r. split; [f_equal; exact Er|]. apply (lower_of_split lt junk); exact Sr.
  - destruct (std_bound_spec _ _ 0 (Z.of_nat (length (sort (column_entries 0 col)))) (mono_upper lt junk SW _ k S)) as [r [Er Sr]]; try lia.
    exists r. split; [f_equal; exact Er|]. apply (upper_of_split lt junk); exact Sr.
Qed.
Print Assumptions C16_bulkload.

(** ** C17: the learned index *)
(** Whatever position inside the array the models predict, the search returns the exact bound; and also for the position one
    past the end if the memory there happens to hold a key that is not less than (not at most) the searched one. *)
Theorem C17_lower : forall (K : Type) (lt : K -> K -> bool) (junk : K) (es : list (K * Z)) (pred : Z) (k : K), strict_weak lt -> sorted lt es ->
  0 <= pred <= Z.of_nat (length es) -> (pred = Z.of_nat (length es) -> lt junk k = false) ->
  exists r, lower_bound_exponential_search lt junk es pred k = Some r /\ is_lower_bound lt es k r.
Proof.
  intros K lt junk es pred k SW S Hp Hj. unfold lower_bound_exponential_search.
  destruct (exp_search_spec _ _ pred (mono_lower lt junk SW es k S) Hp) as [r [E Sp]].
  - intros ->. unfold key_at. rewrite Nat2Z.id. rewrite nth_overflow by (rewrite map_length; lia). apply Hj. reflexivity.
  - exists r. split; [exact E|]. apply (lower_of_split lt junk). exact Sp.
Qed.
Print Assumptions C17_lower.
Theorem C17_upper : forall (K : Type) (lt : K -> K -> bool) (junk : K) (es : list (K * Z)) (pred : Z) (k : K), strict_weak lt -> sorted lt es ->
  0 <= pred <= Z.of_nat (length es) -> (pred = Z.of_nat (length es) -> lt k junk = true) ->
  exists r, upper_bound_exponential_search lt junk es pred k = Some r /\ is_upper_bound lt es k r.
Proof.
  intros K lt junk es pred k SW S Hp Hj. unfold upper_bound_exponential_search.
  destruct (exp_search_spec _ _ pred (mono_upper lt junk SW es k S) Hp) as [r [E Sp]].
  - intros ->. unfold key_at. rewrite Nat2Z.id. rewrite nth_overflow by (rewrite map_length; lia). rewrite Hj by reflexivity. reflexivity.
  - exists r. split; [exact E|]. apply (upper_of_split lt junk). exact Sp.
Qed.
Print Assumptions C17_upper.
(** In the remaining case (prediction one past the end, smaller key in the memory behind the array) the answer is always the
    end of the index. *)
Theorem C17_past_end : forall (K : Type) (lt : K -> K -> bool) (junk : K) (es : list (K * Z)) (k : K),
  (lt junk k = true -> lower_bound_exponential_search lt junk es (Z.of_nat (length es)) k = Some (Z.of_nat (length es))) /\
  (lt k junk = false -> upper_bound_exponential_search lt junk es (Z.of_nat (length es)) k = Some (Z.of_nat (length es))).
Proof.
  intros K lt junk es k. assert (Kj : key_at junk es (Z.of_nat (length es)) = junk).
  { unfold key_at. rewrite Nat2Z.id. apply nth_overflow. rewrite map_length. lia. }
  assert (G : forall P n, 0 <= n -> P n = true -> exp_search P n n = Some n).
  { intros P n Hn HP. unfold exp_search. rewrite HP. cbn [exp_right]. destruct (Z.ltb_spec (n + 1) n); [lia|]. cbn [andb].
    unfold std_bound. replace (Z.min (n + 1 + 1) n) with n by lia. rewrite Z.sub_diag. reflexivity. }
  split; intros H; apply G; try lia; cbv beta; rewrite Kj, H; reflexivity.
Qed.
Print Assumptions C17_past_end.

(** Hence, for every prediction from the first position to one past the end, the exact condition under which the search is
    right. *)
Theorem C17_lower_exact : forall (K : Type) (lt : K -> K -> bool) (junk : K) (es : list (K * Z)) (pred : Z) (k : K), strict_weak lt -> sorted lt es ->
  0 <= pred <= Z.of_nat (length es) ->
  ((exists r, lower_bound_exponential_search lt junk es pred k = Some r /\ is_lower_bound lt es k r) <->
   pred < Z.of_nat (length es) \/ lt junk k = false \/ forall e, In e es -> lt (fst e) k = true).
Proof.
  intros K lt junk es pred k SW S Hp. split.
  - intros [r [E [Hr L]]]. destruct (Z_lt_le_dec pred (Z.of_nat (length es))) as [H|H]; [auto|]. right. assert (pred = Z.of_nat (length es)) by lia. subst pred.
    destruct (lt junk k) eqn:J; [|auto]. right. intros e He. rewrite (proj1 (C17_past_end K lt junk es k) J) in E. injection E as <-.
    apply In_nth_error in He. destruct He as [i Hi]. apply (L i e Hi). pose proof (nth_lt _ _ _ Hi). lia.
  - intros H. destruct (Z_lt_le_dec pred (Z.of_nat (length es))) as [H1|H1]; [apply C17_lower; auto; lia|].
    destruct H as [H|H]; [lia|]. assert (pred = Z.of_nat (length es)) by lia. subst pred.
    destruct (lt junk k) eqn:J; [|apply C17_lower; auto]. destruct H as [H|H]; [discriminate|].
    exists (Z.of_nat (length es)). split; [apply (proj1 (C17_past_end K lt junk es k) J)|]. split; [lia|]. intros i e E. split; [intros _; apply H; eapply nth_error_In; exact E|].
    intros _. pose proof (nth_lt _ _ _ E). lia.
Qed.
Print Assumptions C17_lower_exact.
Theorem C17_upper_exact : forall (K : Type) (lt : K -> K -> bool) (junk : K) (es : list (K * Z)) (pred : Z) (k : K), strict_weak lt -> sorted lt es ->
  0 <= pred <= Z.of_nat (length es) ->
  ((exists r, upper_bound_exponential_search lt junk es pred k = Some r /\ is_upper_bound lt es k r) <->
   pred < Z.of_nat (length es) \/ lt k junk = true \/ forall e, In e es -> lt k (fst e) = false).
Proof.
  intros K lt junk es pred k SW S Hp. split.
  - intros [r [E [Hr L]]]. destruct (Z_lt_le_dec pred (Z.of_nat (length es))) as [H|H]; [auto|]. right. assert (pred = Z.of_nat (length es)) by lia. subst pred.
    destruct (lt k junk) eqn:J; [auto|]. right. intros e He. rewrite (proj2 (C17_past_end K lt junk es k) J) in E. injection E as <-.
    apply In_nth_error in He. destruct He as [i Hi]. pose proof (nth_lt _ _ _ Hi). destruct (lt k (fst e)) eqn:Q; [|reflexivity].
    apply (L i e Hi) in Q. lia.
  - intros H. destruct (Z_lt_le_dec pred (Z.of_nat (length es))) as [H1|H1]; [apply C17_upper; auto; lia|].
    destruct H as [H|H]; [lia|]. assert (pred = Z.of_nat (length es)) by lia. subst pred.
    destruct (lt k junk) eqn:J; [apply C17_upper; auto|]. destruct H as [H|H]; [discriminate|].
    exists (Z.of_nat (length es)). split; [apply (proj2 (C17_past_end K lt junk es k) J)|]. split; [lia|]. intros i e E. pose proof (nth_lt _ _ _ E).
    split; [lia|]. rewrite (H e) by (eapply nth_error_In; exact E). discriminate.
Qed.
Print Assumptions C17_upper_exact.

(** The complete index: any history of additions and (re-)finalizations.  [add] is inherited from the array index. *)
Inductive rmi_op := RAdd (k v : Z) | RFinalize.
Definition rmi_exec (cap : Z) (sort : list (Z * Z) -> list (Z * Z)) (r : option rmi) (o : rmi_op) : option rmi :=
  match r, o with
  | None, _ => None
  | Some r, RAdd k v => Some (match add cap k v (base r) with Ok b => mkRMI b (models r) | Throw => r end)
  | Some r, RFinalize => rmi_finalize sort r
  end.
Definition rmi_run cap sort (ops : list rmi_op) : option rmi := fold_left (rmi_exec cap sort) ops (Some empty_rmi).
Definition array_op (o : rmi_op) : op Z := match o with RAdd k v => OAdd k v | RFinalize => OFinalize end.
Lemma rmi_run_inv cap sort ops : forall r r', Forall small_model (models r) -> fold_left (rmi_exec cap sort) ops (Some r) = Some r' ->
  Forall small_model (models r') /\ base r' = fold_left (exec cap sort) (map array_op ops) (base r).
Proof.
  induction ops as [|o ops IH]; intros r r' Hm H; cbn [fold_left map] in *; [injection H as <-; auto|]. destruct o as [k v|]; cbn [rmi_exec array_op exec] in *.
  - destruct (add cap k v (base r)) as [b|]; apply IH in H; auto.
  - unfold rmi_finalize in H. destruct (train _ _) as [ms|] eqn:E.
    + apply IH in H; [|cbn [models]; eapply train_small; eassumption]. exact H.
    + exfalso. clear IH. induction ops as [|o ops IH]; [discriminate|]. destruct o; apply IH; exact H.
Qed.
(** After any history (fewer than 2^53 entries) the predicted position is at most one past the end, and each look-up returns
    the bound that the binary search over the same entries returns iff the prediction lies inside the array, or the memory
    behind the array happens to hold a larger key, or the bound is the end. *)
Theorem C17_lookup : forall (junk cap : Z) (sort : list (Z * Z) -> list (Z * Z)) (ops : list rmi_op) (r : rmi) (k p : Z), sorts Z.ltb sort ->
  rmi_run cap sort ops = Some r -> is_final cap 0 false (map array_op ops) = true -> num_entries (base r) < 2 ^ 53 ->
  predict (models r) (num_entries (base r)) k = Some p ->
  Permutation (added cap 0 (map array_op ops)) (entries (base r)) /\ sorted Z.ltb (entries (base r)) /\ 0 <= p <= num_entries (base r) /\
  ((exists i, rmi_lower_bound junk r k = Ok (Some i) /\ is_lower_bound Z.ltb (entries (base r)) k i) <->
    p < num_entries (base r) \/ k <= junk \/ forall e, In e (entries (base r)) -> fst e < k) /\
  ((exists i, rmi_upper_bound junk r k = Ok (Some i) /\ is_upper_bound Z.ltb (entries (base r)) k i) <->
    p < num_entries (base r) \/ k < junk \/ forall e, In e (entries (base r)) -> fst e <= k).
Proof.
  intros junk cap sort ops r k p HS HR HF Hn HP.
  assert (SW : strict_weak Z.ltb) by (split; [|split]; intros *; rewrite ?Z.ltb_lt, ?Z.ltb_ge; lia).
  destruct (rmi_run_inv cap sort ops empty_rmi r (Forall_nil _) HR) as [SM B]. cbn [base empty_rmi] in B.
  destruct (C16_array_index Z Z.ltb junk cap sort (map array_op ops) k SW HS) as [P [F C]]. fold (run cap sort (map array_op ops)) in B.
  rewrite <- B in P, F, C. rewrite HF in F, C. destruct C as [So _]. split; [exact P|]. split; [exact So|].
  assert (Hp : 0 <= p <= num_entries (base r)) by (eapply predict_bound; [exact SM| |exact HP]; unfold num_entries in *; lia).
  split; [exact Hp|]. unfold rmi_lower_bound, rmi_upper_bound. rewrite F, HP. unfold num_entries in *.
  pose proof (C17_lower_exact Z Z.ltb junk _ p k SW So Hp) as L. pose proof (C17_upper_exact Z Z.ltb junk _ p k SW So Hp) as U. split.
  - rewrite Z.ltb_ge in L. setoid_rewrite Z.ltb_lt in L. rewrite <- L. split; intros [i [E Hi]]; exists i; split; congruence || exact Hi.
  - rewrite Z.ltb_lt in U. setoid_rewrite Z.ltb_ge in U. rewrite <- U. split; intros [i [E Hi]]; exists i; split; congruence || exact Hi.
Qed.
Print Assumptions C17_lookup.
Theorem C17_not_finalized : forall junk r k, finalized (base r) = false -> rmi_lower_bound junk r k = Throw /\ rmi_upper_bound junk r k = Throw.
Proof. intros junk r k H. unfold rmi_lower_bound, rmi_upper_bound. rewrite H. auto. Qed.
Print Assumptions C17_not_finalized.

(** Finding: the models do predict the position one past the end.  With the keys below (each labelled with itself), freshly
    mapped (zero) memory behind them and binary64 arithmetic throughout, looking up the existing key 30 (position 13) returns
    the end of the index for both bounds: the entry is not found. *)
Definition w_keys : list Z := [0; 1; 2; 3; 4; 5; 6; 7; 8; 9; 15; 20; 25; 30].
Definition w_entries : list (Z * Z) := map (fun k => (k, k)) w_keys.
Theorem C17_refuted : exists r, rmi_finalize (fun l => l) (mkRMI (mkIndex w_entries false) []) = Some r /\
  sorted Z.ltb (entries (base r)) /\ nth_error (entries (base r)) 13 = Some (30, 30) /\
  rmi_lower_bound 0 r 30 = Ok (Some 14) /\ rmi_upper_bound 0 r 30 = Ok (Some 14) /\ num_entries (base r) = 14.
Proof.
  assert (S : sorted Z.ltb w_entries).
  { intros i j a b Hij Ha Hb.
    assert (Hj : (j < 14)%nat) by (change 14%nat with (length w_entries); apply nth_error_Some; congruence).
    assert (G : forallb (fun p => match nth_error w_entries (fst p), nth_error w_entries (snd p) with Some a, Some b => negb (fst b <? fst a) | _, _ => true end)
             (filter (fun p => Nat.ltb (fst p) (snd p)) (list_prod (seq 0 14) (seq 0 14))) = true) by (vm_compute; reflexivity).
    rewrite forallb_forall in G. specialize (G (i, j)). cbn [fst snd] in G. rewrite Ha, Hb in G. apply negb_true_iff. apply G.
    apply filter_In. split; [apply in_prod; apply in_seq; lia|]. cbn [fst snd]. apply Nat.ltb_lt. exact Hij. }
  remember (rmi_finalize (fun l => l) (mkRMI (mkIndex w_entries false) [])) as o eqn:E.
  assert (B : option_map base o = Some (mkIndex w_entries true)) by (rewrite E; vm_compute; reflexivity).
  assert (L : option_map (fun r => (rmi_lower_bound 0 r 30, rmi_upper_bound 0 r 30)) o = Some (Ok (Some 14), Ok (Some 14))) by (rewrite E; vm_compute; reflexivity).
  destruct o as [r|]; [|discriminate]. exists r. split; [reflexivity|]. cbn [option_map] in B, L. injection B as B. injection L as L1 L2.
  rewrite B. split; [exact S|]. split; [reflexivity|]. split; [exact L1|]. split; [exact L2|]. reflexivity.
Qed.
Print Assumptions C17_refuted.

(** Non-vacuity. *)
Definition ins (e : Z * Z) := fix go (l : list (Z * Z)) : list (Z * Z) := match l with [] => [e] | x :: l' => if fst e <? fst x then e :: l else x :: go l' end.
Definition isort (l : list (Z * Z)) : list (Z * Z) := fold_right ins [] l.
Lemma ltb_swo : strict_weak Z.ltb.
Proof. split; [|split]; intros *; rewrite ?Z.ltb_lt, ?Z.ltb_ge; lia. Qed.
Lemma ins_perm e l : Permutation (e :: l) (ins e l).
Proof. induction l as [|x l IH]; cbn [ins]; [reflexivity|]. destruct (fst e <? fst x); [reflexivity|]. rewrite perm_swap. constructor. exact IH. Qed.
Lemma sorted_cons_iff e l : sorted Z.ltb (e :: l) <-> (forall x, In x l -> fst e <= fst x) /\ sorted Z.ltb l.
Proof.
  split.
  - intros H. split.
    + intros x Hx. apply In_nth_error in Hx. destruct Hx as [n Hn]. specialize (H O (S n) e x ltac:(lia) eq_refl Hn). apply Z.ltb_ge in H. lia.
    + intros i j a b Hij Ha Hb. apply (H (S i) (S j) a b); auto. lia.
  - intros [H1 H2] i j a b Hij Ha Hb. destruct j as [|j]; [lia|]. cbn [nth_error] in Hb. destruct i as [|i].
    + injection Ha as <-. apply Z.ltb_ge. apply H1. eapply nth_error_In. exact Hb.
    + apply (H2 i j a b); auto. lia.
Qed.
Lemma isort_sorts : sorts Z.ltb isort.
Proof.
  intros l. induction l as [|e l [P S]]; [split; [reflexivity|intros i j a b _ Ha; destruct i; discriminate]|]. cbn [isort fold_right]. fold (isort l).
  split; [rewrite <- ins_perm; constructor; exact P|]. clear P. induction (isort l) as [|x m IH]; cbn [ins].
  - intros i j a b Hij Ha Hb. destruct j as [|j]; [lia|]. destruct j; discriminate.
  - apply sorted_cons_iff in S. destruct S as [S1 S2]. destruct (Z.ltb_spec (fst e) (fst x)) as [H|H].
    + apply sorted_cons_iff. split; [intros y [<-|Hy]; [lia|specialize (S1 y Hy); lia]|]. apply sorted_cons_iff. auto.
    + apply sorted_cons_iff. split; [|apply IH; exact S2]. intros y Hy. apply (Permutation_in _ (Permutation_sym (ins_perm e m))) in Hy.
      destruct Hy as [<-|Hy]; [exact H|apply S1; exact Hy].
Qed.
Example C16_nonvacuous : strict_weak Z.ltb /\ sorts Z.ltb isort /\
  let ix := run 10 isort [OAdd 5 0; OAdd 2 1; OFinalize; OAdd 5 2; OAdd (-1) 3; OFinalize] in
  lower_bound Z.ltb 0 ix 5 = Ok (Some 2) /\ upper_bound Z.ltb 0 ix 5 = Ok (Some 4).
Proof. split; [exact ltb_swo|]. split; [exact isort_sorts|]. split; vm_compute; reflexivity. Qed.

Example C17_nonvacuous : exists r, rmi_run 100 isort (map (fun k => RAdd k k) w_keys ++ [RFinalize]) = Some r /\
  predict (models r) (num_entries (base r)) 7 = Some 5 /\ rmi_lower_bound 0 r 7 = Ok (Some 7).
Proof.
  remember (rmi_run 100 isort (map (fun k => RAdd k k) w_keys ++ [RFinalize])) as o eqn:E.
  assert (B : option_map (fun r => (predict (models r) (num_entries (base r)) 7, rmi_lower_bound 0 r 7)) o = Some (Some 5, Ok (Some 7))) by (rewrite E; vm_compute; reflexivity).
  destruct o as [r|]; [|discriminate]. exists r. injection B as B1 B2. auto.
Qed.
