(** * C63: cardinality estimates *)
From Coq Require Import Arith List Bool NArith Permutation Lia.
From Verif Require Import CardEst CardEstSpec.
Import ListNotations.
Local Open Scope N_scope.

Lemma limit_size_eq n l o : limit_size n l o = N.min l (n - o).
Proof. unfold limit_size. destruct (n <? o) eqn:E; [apply N.ltb_lt in E | apply N.ltb_ge in E]; lia. Qed.

(** ** The Cartesian-product estimator *)
Theorem C63_exact : forall sizes p, fits sizes p -> cart sizes p = bound sizes p.
Proof.
  intros sizes p. induction p; cbn [fits cart bound]; intros F; auto.
  - rewrite limit_size_eq, IHp; auto.
  - destruct F as (F1 & F2 & F3). rewrite IHp1, IHp2 by auto. unfold mul. apply N.mod_small. exact F3.
Qed.

Lemma rows_bound sizes p n : rows sizes p n -> grouped_by_keys p -> n <= bound sizes p.
Proof.
  induction 1; cbn [grouped_by_keys bound]; intros G.
  - lia.
  - specialize (IHrows G). lia.
  - specialize (IHrows G). lia.
  - destruct G as (_ & G). specialize (IHrows G). lia.
  - destruct G as (G & _). now contradiction G.
  - destruct G as (G1 & G2). specialize (IHrows1 G1). specialize (IHrows2 G2).
    eapply N.le_trans; [eassumption | now apply N.mul_le_mono].
Qed.

Theorem C63_upper_bound : forall sizes p n, grouped_by_keys p -> fits sizes p -> rows sizes p n -> n <= cart sizes p.
Proof. intros sizes p n G F R. rewrite C63_exact by exact F. now apply rows_bound. Qed.

Theorem C63_tight : forall sizes p, grouped_by_keys p -> rows sizes p (bound sizes p).
Proof.
  intros sizes p. induction p; cbn [grouped_by_keys bound]; intros G.
  - constructor.
  - econstructor; [eauto | lia].
  - constructor; auto.
  - destruct G as (K & G). econstructor; eauto; lia.
  - destruct G as (G1 & G2). econstructor; eauto; lia.
Qed.

(** ** Join orders *)
Lemma product_cons sizes i l : product sizes (i :: l) = sizes i * product sizes l.
Proof. reflexivity. Qed.
Lemma product_app sizes l l' : product sizes (l ++ l') = product sizes l * product sizes l'.
Proof.
  induction l as [|i l IH]; cbn [app].
  - change (product sizes []) with 1. now rewrite N.mul_1_l.
  - rewrite !product_cons, IH. now rewrite N.mul_assoc.
Qed.
Lemma product_perm sizes l l' : Permutation l l' -> product sizes l = product sizes l'.
Proof.
  induction 1; rewrite ?product_cons; try congruence.
  rewrite !N.mul_assoc. f_equal. apply N.mul_comm.
Qed.
Lemma cart_product sizes t : (forall i, sizes i < 2 ^ 64) -> is_join_tree t -> cart sizes t = product sizes (sources t) mod 2 ^ 64.
Proof.
  intros B. induction t; cbn [is_join_tree cart sources]; try contradiction; intros T.
  - unfold product; cbn [fold_right]. rewrite N.mul_1_r, N.mod_small; auto.
  - destruct T as (T1 & T2). rewrite IHt1, IHt2, product_app by auto. unfold mul. now rewrite <- N.mul_mod by discriminate.
Qed.

Theorem C63_order : forall sizes t1 t2, (forall i, sizes i < 2 ^ 64) -> is_join_tree t1 -> is_join_tree t2 ->
  Permutation (sources t1) (sources t2) -> cart sizes t1 = cart sizes t2.
Proof. intros sizes t1 t2 B T1 T2 P. rewrite !cart_product by auto. now rewrite (product_perm sizes _ _ P). Qed.

Lemma fold_mul sizes l : forall acc, acc < 2 ^ 64 -> fold_left (fun acc i => mul acc (sizes i)) l acc = (acc * product sizes l) mod 2 ^ 64.
Proof.
  induction l as [|i l IH]; intros acc A; cbn [fold_left].
  - unfold product; cbn [fold_right]. rewrite N.mul_1_r, N.mod_small; auto.
  - rewrite IH by (unfold mul; apply N.mod_lt; discriminate). unfold mul. rewrite N.mul_mod_idemp_l by discriminate.
    unfold product; cbn [fold_right]. now rewrite N.mul_assoc.
Qed.

Theorem C63_join_all : forall sizes to_join t, (forall i, sizes i < 2 ^ 64) -> is_join_tree t -> Permutation to_join (sources t) ->
  cart_all sizes to_join = cart sizes t.
Proof.
  intros sizes to_join t B T P. unfold cart_all. rewrite fold_mul by reflexivity. rewrite N.mul_1_l, cart_product by auto.
  now rewrite (product_perm sizes _ _ P).
Qed.

(** ** Identifiers *)
Lemma le_str_total a : forall b, le_str a b = true \/ le_str b a = true.
Proof.
  induction a as [|x a IH]; intros [|y b]; cbn [le_str]; auto.
  destruct (Nat.lt_trichotomy x y) as [L | [-> | L]].
  - left. apply Nat.ltb_lt in L. now rewrite L.
  - rewrite Nat.ltb_irrefl, Nat.eqb_refl. cbn. apply IH.
  - right. apply Nat.ltb_lt in L. now rewrite L.
Qed.
Lemma le_str_cons x a y b : le_str (x :: a) (y :: b) = true <-> (x < y \/ x = y /\ le_str a b = true)%nat.
Proof.
  cbn [le_str]. rewrite orb_true_iff, andb_true_iff, Nat.ltb_lt, Nat.eqb_eq. tauto.
Qed.
Lemma le_str_antisym a : forall b, le_str a b = true -> le_str b a = true -> a = b.
Proof.
  induction a as [|x a IH]; intros [|y b]; auto; try (cbn; discriminate).
  rewrite !le_str_cons. intros [L | (-> & L)] [M | (E & M)]; try lia. f_equal. now apply IH.
Qed.
Lemma le_str_trans a : forall b c, le_str a b = true -> le_str b c = true -> le_str a c = true.
Proof.
  induction a as [|x a IH]; intros [|y b] [|z c]; auto; try (cbn; discriminate).
  rewrite !le_str_cons. intros [L | (-> & L)] [M | (-> & M)]; try (left; lia). right. split; auto. now apply (IH b).
Qed.
Lemma insert_swap x y l : insert x (insert y l) = insert y (insert x l).
Proof.
  induction l as [|z l IH].
  - cbn [insert]. destruct (le_str x y) eqn:E1, (le_str y x) eqn:E2; auto.
    + now rewrite (le_str_antisym x y E1 E2).
    + destruct (le_str_total x y); congruence.
  - cbn [insert]. destruct (le_str x z) eqn:XZ, (le_str y z) eqn:YZ; cbn [insert].
    + destruct (le_str x y) eqn:E1, (le_str y x) eqn:E2; rewrite ?XZ, ?YZ; auto.
      * now rewrite (le_str_antisym x y E1 E2).
      * destruct (le_str_total x y); congruence.
    + rewrite XZ. destruct (le_str y x) eqn:E2.
      * now rewrite (le_str_trans y x z E2 XZ) in YZ.
      * now rewrite YZ.
    + rewrite YZ. destruct (le_str x y) eqn:E2.
      * now rewrite (le_str_trans x y z E2 YZ) in XZ.
      * now rewrite XZ.
    + rewrite XZ, YZ. now rewrite IH.
Qed.
Lemma sort_perm_eq l l' : Permutation l l' -> sort l = sort l'.
Proof. induction 1; cbn [sort fold_right]; auto; unfold sort in *; try congruence. apply insert_swap. Qed.
Lemma insert_perm x l : Permutation (x :: l) (insert x l).
Proof.
  induction l as [|y l IH]; cbn [insert]; auto. destruct (le_str x y); auto.
  eapply perm_trans; [apply perm_swap|]. now constructor.
Qed.
Lemma sort_perm l : Permutation l (sort l).
Proof. induction l as [|x l IH]; cbn [sort fold_right]; auto. eapply perm_trans; [constructor; exact IH | apply insert_perm]. Qed.

Theorem C63_identifier : forall name ps qs, Permutation ps qs -> identifier name ps = identifier name qs.
Proof. intros name ps qs P. unfold identifier. f_equal. apply sort_perm_eq. now apply Permutation_map. Qed.

Lemma split_dollar (n n' r r' : str) : ~ In 36%nat n -> ~ In 36%nat n' -> n ++ 36%nat :: r = n' ++ 36%nat :: r' -> n = n' /\ r = r'.
Proof.
  revert n'. induction n as [|x n IH]; intros [|y n'] H H' E; cbn [app] in E.
  - inversion E. auto.
  - inversion E as [[E1 E2]]. contradiction H'. now left.
  - inversion E as [[E1 E2]]. contradiction H. now left.
  - inversion E as [[E1 E2]]. destruct (IH n') as (-> & ->); auto; intros I; [apply H | apply H']; now right.
Qed.
Lemma join_names_inj l : forall l', l <> [] -> l' <> [] -> (forall n, In n l -> ~ In 36%nat n) -> (forall n, In n l' -> ~ In 36%nat n) ->
  join_names l = join_names l' -> l = l'.
Proof.
  induction l as [|n l IH]; intros l' N N' D D' E; [congruence|]. destruct l' as [|n' l']; [congruence|].
  assert (Dn : ~ In 36%nat n) by (apply D; now left). assert (Dn' : ~ In 36%nat n') by (apply D'; now left).
  destruct l as [|m l], l' as [|m' l'].
  - cbn [join_names] in E. congruence.
  - change (n = n' ++ 36%nat :: join_names (m' :: l')) in E. subst n. contradiction Dn. apply in_or_app. right. now left.
  - change (n ++ 36%nat :: join_names (m :: l) = n') in E. subst n'. contradiction Dn'. apply in_or_app. right. now left.
  - change (n ++ 36%nat :: join_names (m :: l) = n' ++ 36%nat :: join_names (m' :: l')) in E.
    destruct (split_dollar _ _ _ _ Dn Dn' E) as (-> & E'). f_equal. apply IH; auto; try discriminate.
    + intros k I. apply D. now right.
    + intros k I. apply D'. now right.
Qed.

Theorem C63_identifier_injective : forall name ps qs, (forall i, ~ In 36%nat (name i)) -> ps <> [] -> qs <> [] ->
  identifier name ps = identifier name qs -> Permutation (map name ps) (map name qs).
Proof.
  intros name ps qs D P Q E. unfold identifier in E.
  assert (X : forall rs n, In n (sort (map name rs)) -> ~ In 36%nat n).
  { intros rs n I. apply (Permutation_in _ (Permutation_sym (sort_perm _))) in I. apply in_map_iff in I. destruct I as (i & <- & _). apply D. }
  assert (Y : forall rs, rs <> [] -> sort (map name rs) <> []).
  { intros rs R F. pose proof (sort_perm (map name rs)) as Z. rewrite F in Z. apply Permutation_sym, Permutation_nil in Z. destruct rs; [congruence | discriminate]. }
  pose proof (join_names_inj _ _ (Y ps P) (Y qs Q) (X ps) (X qs) E) as F.
  apply (perm_trans (sort_perm (map name ps))). rewrite F. apply Permutation_sym, sort_perm.
Qed.

(** Groupings by different keys have different entries (names of keys without '#'). *)
Lemma keys_start keys : match flat_map (fun k : str => 35%nat :: k) keys with [] => True | x :: _ => x = 35%nat end.
Proof. destruct keys; cbn; auto. Qed.
Lemma split_hash (k : str) : forall k' r r', ~ In 35%nat k -> ~ In 35%nat k' ->
  match r with [] => True | x :: _ => x = 35%nat end -> match r' with [] => True | x :: _ => x = 35%nat end -> k ++ r = k' ++ r' -> k = k' /\ r = r'.
Proof.
  induction k as [|x k IH]; intros [|y k'] r r' H H' Q Q' E; cbn [app] in E.
  - auto.
  - subst r. contradiction H'. now left.
  - subst r'. contradiction H. now left.
  - inversion E as [[E1 E2]]. destruct (IH k' r r') as (-> & ->); auto; intros I; [apply H | apply H']; now right.
Qed.
Theorem C63_group_identifier_injective : forall keys keys', (forall k, In k keys -> ~ In 35%nat k) -> (forall k, In k keys' -> ~ In 35%nat k) ->
  group_identifier keys = group_identifier keys' -> keys = keys'.
Proof.
  intros keys keys' D D' E. unfold group_identifier in E. apply (f_equal (@tl nat)) in E. cbn [tl] in E. revert keys' D' E.
  induction keys as [|k keys IH]; intros [|k' keys'] D' E; cbn [flat_map app] in E; try discriminate; [reflexivity|].
  apply (f_equal (@tl nat)) in E. cbn [tl] in E.
  destruct (split_hash k k' (flat_map (fun k => 35%nat :: k) keys) (flat_map (fun k => 35%nat :: k) keys')) as (-> & E').
  - apply D. now left.
  - apply D'. now left.
  - exact (keys_start keys).
  - exact (keys_start keys').
  - exact E.
  - f_equal. apply IH; auto.
    + intros x X. apply D. now right.
    + intros x X. apply D'. now right.
Qed.
Example C63_ex_group : group_identifier [[120]; [121; 49]]%nat = [103;35;120;35;121;49]%nat /\ forall k, In k [[120]; [121; 49]]%nat -> ~ In 35%nat k.
Proof. split; [reflexivity|]. intros k [<- | [<- | []]] I; cbn in I; intuition discriminate. Qed.

(** ** Injected cardinalities *)
Lemma inject_sources name sizes table p : fst (inject name sizes table p) = sources p.
Proof.
  induction p as [i|p IH|p IH l o|p IH keys|l IHl r IHr]; cbn [inject sources]; auto.
  - now destruct (inject name sizes table p).
  - destruct keys; now destruct (inject name sizes table p).
  - destruct (inject name sizes table l), (inject name sizes table r). cbn [fst] in *. congruence.
Qed.
Lemma sources_nil t : sources t <> [].
Proof. induction t; cbn [sources]; auto; try discriminate. intros E. apply app_eq_nil in E. tauto. Qed.

Lemma NoDup_app_parts (l r : list nat) : NoDup (l ++ r) -> NoDup l /\ NoDup r.
Proof.
  induction l as [|x l IH]; cbn [app]; intros D; [split; [constructor | exact D]|].
  apply NoDup_cons_iff in D. destruct D as (X & D). destruct (IH D) as (Dl & Dr). split; auto. constructor; auto.
  intros I. apply X, in_or_app. now left.
Qed.

Theorem C63_injected : forall name sizes table all card t, lists_all name table all card -> is_join_tree t -> NoDup (sources t) ->
  incl (sources t) all -> snd (inject name sizes table t) = card (sources t).
Proof.
  intros name sizes table all card t (L1 & L2). induction t as [i|t IH|t IH l o|t IH keys|l IHl r IHr]; cbn [is_join_tree]; try contradiction; intros T D I.
  - cbn [inject snd sources]. cbn [sources] in D, I. pose proof (L1 [i] ltac:(discriminate) D I) as E. unfold identifier in E; cbn in E. now rewrite E.
  - destruct T as (Tl & Tr). cbn [sources] in D, I.
    assert (Dl : NoDup (sources l) /\ NoDup (sources r)).
    { exact (NoDup_app_parts _ _ D). }
    assert (Il : incl (sources l) all) by (intros x X; apply I, in_or_app; now left).
    assert (Ir : incl (sources r) all) by (intros x X; apply I, in_or_app; now right).
    specialize (IHl Tl (proj1 Dl) Il). specialize (IHr Tr (proj2 Dl) Ir).
    cbn [inject]. pose proof (inject_sources name sizes table l) as Fl. pose proof (inject_sources name sizes table r) as Fr.
    destruct (inject name sizes table l) as [ps n], (inject name sizes table r) as [qs m]. cbn [fst snd] in *. subst ps qs n m.
    rewrite (L1 (sources l ++ sources r)) by (auto; intros E; apply app_eq_nil in E; now apply (sources_nil l)).
    cbn [snd sources]. destruct (L2 (sources l) (sources r) (sources_nil _) (sources_nil _) D I) as (L & M).
    unfold mul. rewrite N.mod_small by exact M. now apply N.min_l.
Qed.

(** … whatever the order of the joins, then. *)
Theorem C63_injected_order : forall name sizes table all card t1 t2, lists_all name table all card -> is_join_tree t1 -> is_join_tree t2 ->
  NoDup (sources t1) -> incl (sources t1) all -> Permutation (sources t1) (sources t2) ->
  snd (inject name sizes table t1) = snd (inject name sizes table t2).
Proof.
  intros name sizes table all card t1 t2 L T1 T2 D I P.
  assert (D2 : NoDup (sources t2)) by exact (Permutation_NoDup P D).
  assert (I2 : incl (sources t2) all) by (intros x X; apply I; apply (Permutation_in _ (Permutation_sym P)); exact X).
  rewrite (C63_injected name sizes table all card t1), (C63_injected name sizes table all card t2) by auto.
  destruct L as (L1 & _). pose proof (L1 _ (sources_nil t1) D I) as E1. pose proof (L1 _ (sources_nil t2) D2 I2) as E2.
  rewrite (C63_identifier name _ _ P) in E1. congruence.
Qed.

Theorem C63_injected_bound : forall name sizes table t, is_join_tree t ->
  snd (inject name sizes table t) <= product (leaf name sizes table) (sources t).
Proof.
  intros name sizes table t. induction t as [i|t IH|t IH l o|t IH keys|l IHl r IHr]; cbn [is_join_tree]; try contradiction; intros T.
  - cbn [inject snd sources]. unfold product, leaf; cbn [fold_right]. lia.
  - destruct T as (Tl & Tr). specialize (IHl Tl). specialize (IHr Tr). cbn [inject].
    destruct (inject name sizes table l) as [ps n], (inject name sizes table r) as [qs m]. cbn [snd sources] in *. rewrite product_app.
    assert (M : mul n m <= product (leaf name sizes table) (sources l) * product (leaf name sizes table) (sources r)).
    { unfold mul. eapply N.le_trans; [apply N.mod_le; discriminate | now apply N.mul_le_mono]. }
    destruct (table (identifier name (ps ++ qs))); lia.
Qed.

(** The estimate of a plan is the greatest number of rows it may produce as far as the table tells. *)
Theorem C63_injected_tight : forall name sizes table p, fits_known name sizes table p ->
  rows_known name sizes table p (snd (inject name sizes table p)).
Proof.
  intros name sizes table p. induction p as [i|p IH|p IH l o|p IH keys|l IHl r IHr]; cbn [fits_known]; intros F.
  - apply K_scan.
  - apply (K_filter _ _ _ p (snd (inject name sizes table p))); [now apply IH | cbn [inject]; apply N.le_refl].
  - specialize (IH F). cbn [inject]. destruct (inject name sizes table p) as [ps n]. cbn [snd] in *. rewrite limit_size_eq. now apply K_limit.
  - specialize (IH F). destruct keys as [|k keys]; cbn [inject].
    + destruct (inject name sizes table p) as [ps n]. cbn [snd] in *. now apply (K_aggregate _ _ _ p n).
    + destruct (inject name sizes table p) as [ps n]. cbn [snd] in *. apply (K_group _ _ _ p n); auto; try discriminate;
        destruct (table (group_identifier (k :: keys))) as [c|]; intros; try congruence.
      * apply N.le_min_r.
      * apply N.le_refl.
      * replace c0 with c by congruence. apply N.le_min_l.
  - destruct F as (Fl & Fr & F). specialize (IHl Fl). specialize (IHr Fr). specialize (F _ _ IHl IHr). cbn [inject].
    pose proof (inject_sources name sizes table l) as Sl. pose proof (inject_sources name sizes table r) as Sr.
    destruct (inject name sizes table l) as [ps n], (inject name sizes table r) as [qs m]. cbn [fst snd] in *. subst ps qs.
    unfold mul. rewrite N.mod_small by exact F. apply (K_join _ _ _ l r n m); auto;
      destruct (table (identifier name (sources l ++ sources r))) as [c|]; intros; try congruence.
    + apply N.le_min_r.
    + apply N.le_refl.
    + replace c0 with c by congruence. apply N.le_min_l.
Qed.

Theorem C63_injected_sound : forall name sizes table p n, fits_known name sizes table p -> rows_known name sizes table p n ->
  n <= snd (inject name sizes table p).
Proof.
  intros name sizes table p n F R. induction R; cbn [fits_known] in F.
  - cbn [inject snd]. apply N.le_refl.
  - specialize (IHR F). cbn [inject]. lia.
  - specialize (IHR F). cbn [inject]. destruct (inject name sizes table p) as [ps k]. cbn [snd] in *. rewrite limit_size_eq. lia.
  - specialize (IHR F). destruct keys as [|k keys]; [congruence|]. cbn [inject]. destruct (inject name sizes table p) as [ps k']. cbn [snd] in *.
    destruct (table (group_identifier (k :: keys))) as [c|]; [pose proof (H1 c eq_refl)|]; lia.
  - cbn [inject]. destruct (inject name sizes table p). apply N.le_refl.
  - destruct F as (Fl & Fr & F). specialize (IHR1 Fl). specialize (IHR2 Fr).
    specialize (F _ _ (C63_injected_tight _ _ _ _ Fl) (C63_injected_tight _ _ _ _ Fr)). cbn [inject].
    pose proof (inject_sources name sizes table l) as Sl. pose proof (inject_sources name sizes table r) as Sr.
    destruct (inject name sizes table l) as [ps n], (inject name sizes table r) as [qs k]. cbn [fst snd] in *. subst ps qs.
    unfold mul. rewrite N.mod_small by exact F. pose proof (N.mul_le_mono _ _ _ _ IHR1 IHR2) as M.
    destruct (table (identifier name (sources l ++ sources r))) as [c|]; [pose proof (H0 c eq_refl)|]; lia.
Qed.

(** The join of all sources at once has the injected cardinality, too. *)
Lemma card_product name table all card ps : lists_all name table all card -> ps <> [] -> NoDup ps -> incl ps all ->
  card ps <= product (fun i => card [i]) ps.
Proof.
  intros (L1 & L2). induction ps as [|i ps IH]; intros P D I; [congruence|]. destruct ps as [|j ps].
  - unfold product; cbn [fold_right]. lia.
  - rewrite product_cons. destruct (L2 [i] (j :: ps) ltac:(discriminate) ltac:(discriminate) D I) as (L & _).
    eapply N.le_trans; [exact L|]. apply N.mul_le_mono_l. apply IH; [discriminate | now inversion D | intros x X; apply I; now right].
Qed.
Theorem C63_injected_all : forall name table all card to_join, lists_all name table all card -> to_join <> [] -> NoDup to_join ->
  incl to_join all -> product (fun i => card [i]) to_join < 2 ^ 64 -> inject_all name (fun i => card [i]) table to_join = card to_join.
Proof.
  intros name table all card ps L P D I B. pose proof (card_product name table all card ps L P D I) as C. destruct L as (L1 & _).
  unfold inject_all. rewrite (L1 ps P D I), (fold_mul (fun i => card [i])) by reflexivity. rewrite N.mul_1_l, N.mod_small by exact B. now apply N.min_l.
Qed.
(** Any entry is respected, and never exceeded by an estimate. *)
Theorem C63_injected_all_bound : forall name size table to_join c, table (identifier name to_join) = Some c ->
  product size to_join < 2 ^ 64 -> inject_all name size table to_join = N.min c (product size to_join).
Proof.
  intros name size table ps c E B. unfold inject_all. rewrite E, fold_mul by reflexivity. now rewrite N.mul_1_l, N.mod_small.
Qed.

(** Without entries for joins and sources the two estimators agree on joins. *)
Theorem C63_fallback : forall name sizes table t, (forall s, table s = None) -> is_join_tree t ->
  snd (inject name sizes table t) = cart sizes t.
Proof.
  intros name sizes table t N. induction t as [i|t IH|t IH l o|t IH keys|l IHl r IHr]; cbn [is_join_tree]; try contradiction; intros T.
  - cbn [inject snd cart]. now rewrite N.
  - destruct T as (Tl & Tr). specialize (IHl Tl). specialize (IHr Tr). cbn [inject cart].
    destruct (inject name sizes table l) as [ps n], (inject name sizes table r) as [qs m]. cbn [snd] in *. rewrite N. cbn [snd]. congruence.
Qed.

(** ** Examples; names are single letters *)
Definition ex_name (i : nat) : str := [97 + i]%nat.
Definition ex_sizes (i : nat) : N := match i with O => 10 | 1%nat => 20 | _ => 30 end.
Definition no_table (_ : str) : option N := None.
(** a query: [SELECT … FROM a, b, c WHERE … GROUP BY … LIMIT 100 OFFSET 5] *)
Definition ex_plan := Limit (Group (Join (Join (Filter (Scan 0)) (Scan 1)) (Scan 2)) [[120%nat]]) 10000 5.
Example C63_ex_plan : grouped_by_keys ex_plan /\ fits ex_sizes ex_plan /\ cart ex_sizes ex_plan = 5995 /\ rows ex_sizes ex_plan 7.
Proof.
  split; [cbn; repeat split; discriminate|]. split; [cbn; repeat split; reflexivity|]. split; [reflexivity|].
  change 7 with (N.min 10000 (12 - 5)). constructor. apply (R_group _ _ 100); [|discriminate|discriminate|discriminate].
  apply (R_join _ _ _ 40 30); [|apply (R_scan ex_sizes 2)|discriminate].
  apply (R_join _ _ _ 2 20); [apply (R_filter _ _ 10); [apply (R_scan ex_sizes 0)|discriminate]|apply (R_scan ex_sizes 1)|discriminate].
Qed.
Example C63_ex_order : let t1 := Join (Join (Scan 0) (Scan 1)) (Scan 2) in let t2 := Join (Scan 2) (Join (Scan 0) (Scan 1)) in
  is_join_tree t1 /\ is_join_tree t2 /\ Permutation (sources t1) (sources t2) /\ Permutation [2;0;1]%nat (sources t1) /\ cart ex_sizes t1 = 6000.
Proof. repeat split; cbn; try (apply Permutation_sym, (Permutation_cons_append [0;1]%nat 2%nat)); apply (Permutation_cons_append [0;1]%nat 2%nat). Qed.
Example C63_ex_identifier : identifier ex_name [2;0;1]%nat = [97;36;98;36;99]%nat /\ (forall i, ~ In 36%nat (ex_name i)).
Proof. split; [reflexivity|]. intros i [E|[]]. lia. Qed.

(** a table listing everything about three sources *)
Definition entry (s k : str) (c : N) (t : option N) : option N := if list_eq_dec Nat.eq_dec s k then Some c else t.
Definition ex_table (s : str) : option N :=
  entry s [97]%nat 10 (entry s [98]%nat 10 (entry s [99]%nat 10 (entry s [97;36;98]%nat 20 (entry s [97;36;99]%nat 20 (entry s [98;36;99]%nat 20
  (entry s [97;36;98;36;99]%nat 40 None)))))).
Definition ex_card (ps : list nat) : N := match length ps with 1%nat => 10 | 2%nat => 20 | _ => 40 end.
Lemma short (ps : list nat) : NoDup ps -> incl ps [0;1;2]%nat -> (length ps <= 3)%nat.
Proof. intros D I. exact (NoDup_incl_length D I). Qed.
Example C63_ex_injected : lists_all ex_name ex_table [0;1;2]%nat ex_card /\
  snd (inject ex_name ex_sizes ex_table (Join (Scan 2) (Join (Scan 0) (Scan 1)))) = 40.
Proof.
  split; [|reflexivity]. split.
  - intros ps P D I. pose proof (short ps D I) as L.
    assert (E : forall x, In x ps -> x = 0%nat \/ x = 1%nat \/ x = 2%nat) by (intros x X; apply I in X; cbn in X; intuition).
    destruct ps as [|x [|y [|z [|? ?]]]]; [congruence| | | |cbn in L; lia].
    + destruct (E x) as [-> | [-> | ->]]; [now left| | |]; reflexivity.
    + assert (x <> y) by (inversion D; subst; intros ->; apply H1; now left).
      destruct (E x) as [-> | [-> | ->]]; [now left| | |]; (destruct (E y) as [-> | [-> | ->]]; [right; now left| | |]); try congruence; reflexivity.
    + assert (x <> y /\ x <> z /\ y <> z).
      { apply NoDup_cons_iff in D. destruct D as (D1 & D). apply NoDup_cons_iff in D. destruct D as (D2 & _).
        repeat split; intros ->; [apply D1; now left | apply D1; right; now left | apply D2; now left]. }
      destruct (E x) as [-> | [-> | ->]]; [now left| | |]; (destruct (E y) as [-> | [-> | ->]]; [right; now left| | |]);
        (destruct (E z) as [-> | [-> | ->]]; [right; right; now left| | |]); try (exfalso; lia); reflexivity.
  - intros ps qs P Q D I. pose proof (short _ D I) as L. rewrite app_length in L. unfold ex_card. rewrite app_length.
    destruct ps as [|? [|? [|? ?]]], qs as [|? [|? [|? ?]]]; try congruence; cbn [length Nat.add] in *; try lia; try (split; [discriminate|reflexivity]).
Qed.

(** the plan above with some entries: 2 rows of b, 15 of a ⋈ b, 7 groups of c *)
Definition some_table (s : str) : option N := entry s [98]%nat 2 (entry s [97;36;98]%nat 15 (entry s [103;35;120]%nat 7 None)).
Lemma ex_known_le p n : rows_known ex_name ex_sizes some_table p n ->
  match p with Scan 0 | Filter (Scan 0) => n <= 10 | Scan 1 => n <= 2 | Scan 2 => n <= 30 | Join (Filter (Scan 0)) (Scan 1) => n <= 20 | _ => True end.
Proof.
  induction 1; auto.
  - destruct i as [|[|[|i]]]; auto; vm_compute; discriminate.
  - destruct p as [[|i]| | | |]; auto. lia.
  - destruct l as [|[[|i]| | | |]| | |]; auto. destruct r as [[|[|j]]| | | |]; auto. pose proof (N.mul_le_mono _ _ _ _ IHrows_known1 IHrows_known2). lia.
Qed.
Example C63_ex_known : fits_known ex_name ex_sizes some_table ex_plan /\
  snd (inject ex_name ex_sizes some_table ex_plan) = 2 /\
  snd (inject ex_name ex_sizes some_table (Join (Join (Filter (Scan 0)) (Scan 1)) (Scan 2))) = 450.
Proof.
  split; [|split; reflexivity]. cbn [ex_plan fits_known]. repeat split.
  - intros n m A B. apply ex_known_le in A, B. cbn in A, B. pose proof (N.mul_le_mono _ _ _ _ A B). lia.
  - intros n m A B. apply ex_known_le in A, B. cbn in A, B. pose proof (N.mul_le_mono _ _ _ _ A B). lia.
Qed.
Example C63_ex_all : lists_all ex_name ex_table [0;1;2]%nat ex_card /\ product (fun i => ex_card [i]) [2;0;1]%nat < 2 ^ 64 /\
  inject_all ex_name (fun i => ex_card [i]) ex_table [2;0;1]%nat = 40.
Proof. split; [apply C63_ex_injected | split; reflexivity]. Qed.

(** ** Refutations *)
(** an aggregation without keys over an empty table produces a row; none is estimated, and [estimate_grouping] of the other estimator says 1 *)
Theorem C63_refuted_aggregate : exists sizes p n, fits sizes p /\ rows sizes p n /\ ~ n <= cart sizes p /\ forall name, snd (inject name sizes no_table p) = n.
Proof.
  exists (fun _ => 0), (Group (Scan 0) []), 1. split; [exact I|]. split; [apply (R_aggregate _ _ 0), (R_scan (fun _ => 0) 0)|].
  split; [vm_compute; auto|]. reflexivity.
Qed.
(** products overflow: the join of two sources of 2^32 rows is estimated to be empty, and an injected cardinality is ignored *)
Theorem C63_refuted_overflow : exists sizes, (forall i, sizes i < 2 ^ 64) /\ rows sizes (Join (Scan 0) (Scan 1)) 5 /\
  cart sizes (Join (Scan 0) (Scan 1)) = 0 /\
  exists table, table (identifier ex_name [0;1]%nat) = Some 5 /\ snd (inject ex_name sizes table (Join (Scan 0) (Scan 1))) = 0.
Proof.
  exists (fun _ => 2 ^ 32). split; [reflexivity|]. split; [|split; [reflexivity|]].
  - apply (R_join _ _ _ (2 ^ 32) (2 ^ 32)); [apply (R_scan (fun _ => 2 ^ 32) 0) | apply (R_scan (fun _ => 2 ^ 32) 1) | discriminate].
  - exists (fun s => entry s [97;36;98]%nat 5 None). split; reflexivity.
Qed.
(** without an entry, the join of all sources at once counts the first one twice, unlike the joins of two of them *)
Theorem C63_refuted_join_all : exists to_join t, is_join_tree t /\ sources t = to_join /\
  inject_all ex_name ex_sizes no_table to_join = 10 * snd (inject ex_name ex_sizes no_table t) /\
  snd (inject ex_name ex_sizes no_table t) = 200.
Proof. exists [0;1]%nat, (Join (Scan 0) (Scan 1)). repeat split. Qed.
(** entries for some joins only: the estimate of the same join depends on the order *)
Theorem C63_refuted_order : exists table t1 t2, is_join_tree t1 /\ is_join_tree t2 /\ Permutation (sources t1) (sources t2) /\
  snd (inject ex_name ex_sizes table t1) = 60 /\ snd (inject ex_name ex_sizes table t2) = 6000.
Proof.
  exists (fun s => entry s [97;36;98]%nat 2 None), (Join (Join (Scan 0) (Scan 1)) (Scan 2)), (Join (Scan 0) (Join (Scan 1) (Scan 2))).
  repeat split. cbn. apply Permutation_refl.
Qed.
(** names that contain '$': different joins have the same identifier *)
Theorem C63_refuted_identifier : exists name ps qs, ps <> [] /\ qs <> [] /\ NoDup (ps ++ qs) /\ (forall i j, name i = name j -> i = j) /\
  identifier name ps = identifier name qs.
Proof.
  exists (fun i => match i with 0 => [97] | 1 => [98] | 2 => [97;36;98] | _ => [99 + i] end)%nat, [0;1]%nat, [2]%nat.
  split; [discriminate|]. split; [discriminate|]. split; [|split; [|reflexivity]].
  - cbn. repeat constructor; cbn; intuition discriminate.
  - intros [|[|[|i]]] [|[|[|j]]] E; try discriminate E; try reflexivity; injection E; intros; try discriminate; try lia.
Qed.
(** the entry of a grouping is also that of a source with the same name *)
Theorem C63_refuted_namespace : exists name table, table (group_identifier [[120%nat]]) = Some 7 /\
  snd (inject name ex_sizes table (Group (Scan 0) [[120%nat]])) = 7 /\ snd (inject name ex_sizes table (Scan 0)) = 7 /\ ex_sizes 0 = 10.
Proof. exists (fun _ => [103;35;120]%nat), (fun s => entry s [103;35;120]%nat 7 None). repeat split. Qed.
