(** * C40: schemas behave as sets of identifiers *)
From Coq Require Import String List Arith Lia Bool NArith.
From Verif Require Import Schema.
Import ListNotations.
Open Scope list_scope.

(** ** Specification vocabulary: identifiers of a schema, number of entries with an identifier, the first occurrences *)
Definition ids (s : schema) : list ident := map eid s.

Definition ident_dec (a b : ident) : {a = b} + {a <> b}.
Proof. decide equality; [apply string_dec | decide equality; apply string_dec]. Defined.

(** How many entries have the identifier [i]. *)
Definition occ (s : schema) (i : ident) : nat := count_occ ident_dec (ids s) i.

(** [first_entry s i e]: [e] is the first entry of [s] with identifier [i]. *)
Definition first_entry (s : schema) (i : ident) (e : entry) : Prop :=
  exists a b, s = a ++ e :: b /\ eid e = i /\ ~ In i (ids a).

(** [first_occs l r]: [r] has exactly those elements of [l], in their order in [l], whose identifier does not
    occur in [seen] or earlier in [l]. *)
Fixpoint first_occs (seen : list ident) (l : schema) : schema :=
  match l with
  | [] => []
  | e :: r => if in_dec ident_dec (eid e) seen then first_occs seen r else e :: first_occs (eid e :: seen) r
  end.

(** ** Lemmas *)
Lemma ident_eqb_spec a b : ident_eqb a b = true <-> a = b.
Proof.
  unfold ident_eqb. destruct a as [pa na], b as [pb nb]; cbn. rewrite andb_true_iff, String.eqb_eq.
  assert (opt_string_eqb pa pb = true <-> pa = pb) as ->.
  { destruct pa, pb; cbn; rewrite ?String.eqb_eq; split; congruence. }
  split; [intros [-> ->]; reflexivity | intros [= -> ->]; auto].
Qed.

Lemma ident_eqb_false a b : ident_eqb a b = false <-> a <> b.
Proof. rewrite <- ident_eqb_spec. destruct (ident_eqb a b); split; congruence. Qed.

Lemma find_if_spec id s : forall off,
  (find_if id s off = off + length s /\ ~ In id (ids s)) \/
  (exists a e b, s = a ++ e :: b /\ eid e = id /\ ~ In id (ids a) /\ find_if id s off = off + length a).
Proof.
  induction s as [|e r IH]; intros off; cbn.
  - left. split; [lia|tauto].
  - destruct (ident_eqb (eid e) id) eqn:E.
    + right. apply ident_eqb_spec in E. exists [], e, r. cbn. repeat split; auto; try lia.
    + apply ident_eqb_false in E. destruct (IH (S off)) as [[-> Hn]|(a & f & b & -> & Hf & Hn & ->)].
      * left. split; [lia|]. intros [|]; auto.
      * right. exists (e :: a), f, b. cbn. repeat split; auto; try lia. intros [|]; auto.
Qed.

Lemma skipn_mid {A} (a : list A) e b : skipn (S (length a)) (a ++ e :: b) = b.
Proof. induction a; cbn; auto. Qed.

Lemma find_spec s id :
  (find s id = Some (length s) /\ ~ In id (ids s)) \/
  (exists a e b, s = a ++ e :: b /\ eid e = id /\ ~ In id (ids a) /\
     ((~ In id (ids b) /\ find s id = Some (length a)) \/ (In id (ids b) /\ find s id = None))).
Proof.
  unfold find. destruct (find_if_spec id s 0) as [[-> Hn]|(a & e & b & -> & He & Hn & ->)].
  - left. cbn [plus]. rewrite Nat.eqb_refl. cbn. auto.
  - right. exists a, e, b. split; [reflexivity|]. split; [auto|]. split; [auto|].
    cbn [plus]. rewrite skipn_mid.
    assert ((length a =? length (a ++ e :: b)) = false) as ->.
    { apply Nat.eqb_neq. rewrite app_length. cbn. lia. }
    rewrite app_length. cbn [length negb andb].
    destruct (find_if_spec id b (S (length a))) as [[-> Hb]|(a' & e' & b' & -> & He' & Hb & ->)].
    + left. split; [auto|]. replace (length a + S (length b)) with (S (length a) + length b) by lia.
      rewrite Nat.eqb_refl. reflexivity.
    + right. split. { unfold ids. rewrite map_app. cbn. apply in_or_app. right. left. auto. }
      assert ((S (length a) + length a' =? length a + S (length (a' ++ e' :: b'))) = false) as ->.
      { apply Nat.eqb_neq. rewrite app_length. cbn. lia. }
      reflexivity.
Qed.

Lemma nth_error_mid {A} (a : list A) e b : nth_error (a ++ e :: b) (length a) = Some e.
Proof. rewrite nth_error_app2 by lia. rewrite Nat.sub_diag. reflexivity. Qed.

Lemma ids_app a b : ids (a ++ b) = ids a ++ ids b.
Proof. apply map_app. Qed.

Lemma occ_zero s i : occ s i = 0 <-> ~ In i (ids s).
Proof. unfold occ. rewrite <- count_occ_not_In. reflexivity. Qed.

Lemma occ_mid a e b i : occ (a ++ e :: b) i = occ a i + (if ident_dec (eid e) i then 1 else 0) + occ b i.
Proof.
  unfold occ. rewrite ids_app, count_occ_app. cbn [ids map count_occ]. fold (ids b).
  destruct (ident_dec (eid e) i); lia.
Qed.

Lemma has_spec s id :
  (has s id = Some false /\ occ s id = 0) \/ (has s id = Some true /\ occ s id = 1) \/
  (has s id = None /\ 2 <= occ s id).
Proof.
  unfold has. destruct (find_spec s id) as [[-> Hn]|(a & e & b & -> & He & Ha & [[Hb ->]|[Hb ->]])].
  - left. rewrite Nat.eqb_refl. split; [reflexivity|]. apply occ_zero; auto.
  - right; left. assert ((length a =? length (a ++ e :: b)) = false) as ->.
    { apply Nat.eqb_neq. rewrite app_length. cbn. lia. }
    split; [reflexivity|]. rewrite occ_mid. destruct (ident_dec (eid e) id); [|congruence].
    apply occ_zero in Ha, Hb. lia.
  - right; right. split; [reflexivity|]. rewrite occ_mid. destruct (ident_dec (eid e) id); [|congruence].
    assert (occ b id <> 0) by (rewrite occ_zero; tauto). lia.
Qed.

Lemma has_true_In s id : has s id = Some true -> In id (ids s).
Proof.
  intros H. destruct (in_dec ident_dec id (ids s)); auto. apply occ_zero in n.
  destruct (has_spec s id) as [[? ?]|[[? ?]|[? ?]]]; try congruence; lia.
Qed.

Lemma has_false_In s id : has s id = Some false -> ~ In id (ids s).
Proof.
  intros H. apply occ_zero.
  destruct (has_spec s id) as [[? ?]|[[? ?]|[? ?]]]; try congruence; lia.
Qed.

Lemma NoDup_occ s i : NoDup (ids s) -> occ s i <= 1.
Proof. unfold occ. intros H. rewrite (NoDup_count_occ ident_dec) in H. apply H. Qed.

Lemma has_nodup s id : NoDup (ids s) ->
  has s id = Some (if in_dec ident_dec id (ids s) then true else false).
Proof.
  intros H. pose proof (NoDup_occ s id H).
  destruct (in_dec ident_dec id (ids s)) as [i|n].
  - assert (occ s id <> 0) by (rewrite occ_zero; tauto).
    destruct (has_spec s id) as [[? ?]|[[-> ?]|[? ?]]]; auto; lia.
  - apply occ_zero in n. destruct (has_spec s id) as [[-> ?]|[[? ?]|[? ?]]]; auto; lia.
Qed.

Lemma first_occs_ext l : forall s1 s2, (forall i, In i s1 <-> In i s2) -> first_occs s1 l = first_occs s2 l.
Proof.
  induction l as [|e r IH]; intros s1 s2 H; cbn; [reflexivity|].
  destruct (in_dec ident_dec (eid e) s1), (in_dec ident_dec (eid e) s2); try (exfalso; firstorder; fail).
  - auto.
  - f_equal. apply IH. intros i; cbn; rewrite H; tauto.
Qed.

Lemma mkEntry_eta e : mkEntry (eid e) (etype e) (econstraints e) = e.
Proof. destruct e; reflexivity. Qed.

Lemma dedup_loop_spec s : forall res, NoDup (ids res) ->
  dedup_loop res s = Some (res ++ first_occs (ids res) s).
Proof.
  induction s as [|e r IH]; intros res H; cbn.
  - rewrite app_nil_r. reflexivity.
  - rewrite has_nodup by auto. destruct (in_dec ident_dec (eid e) (ids res)) as [Hi|Hn].
    + apply IH; auto.
    + rewrite mkEntry_eta. unfold add. rewrite IH.
      * rewrite <- app_assoc. cbn. do 3 f_equal.
        apply first_occs_ext. intros i. rewrite ids_app, in_app_iff. cbn. tauto.
      * rewrite ids_app. apply (NoDup_Add (a := eid e) (l := ids res)); [|auto].
        pose proof (Add_app (eid e) (ids res) []) as Ha. rewrite app_nil_r in Ha. exact Ha.
Qed.

Lemma union_loop_spec other : forall s,
  (forall i, In i (ids other) -> occ s i <= 1) ->
  union_assign s other = Some (s ++ first_occs (ids s) other).
Proof.
  induction other as [|e r IH]; intros s H; cbn.
  - rewrite app_nil_r. reflexivity.
  - assert (He : occ s (eid e) <= 1) by (apply H; cbn; auto).
    destruct (has_spec s (eid e)) as [[-> Ho]|[[-> Ho]|[_ ?]]]; [| |lia].
    + destruct (in_dec ident_dec (eid e) (ids s)) as [Hi|Hn]; [apply occ_zero in Ho; tauto|].
      unfold add. rewrite IH.
      * rewrite <- app_assoc. cbn. do 3 f_equal.
        apply first_occs_ext. intros i. rewrite ids_app, in_app_iff. cbn. tauto.
      * intros i Hi. assert (occ s i <= 1) by (apply H; cbn; auto).
        unfold occ in *. rewrite ids_app, count_occ_app. cbn.
        destruct (ident_dec (eid e) i) as [<-|]; lia.
    + destruct (in_dec ident_dec (eid e) (ids s)) as [Hi|Hn].
      * apply IH. intros i Hi'. apply H. cbn; auto.
      * apply occ_zero in Hn. lia.
Qed.

Lemma union_none other : forall s i, In i (ids other) -> 2 <= occ s i -> union_assign s other = None.
Proof.
  induction other as [|e r IH]; cbn; intros s i H Ho; [tauto|].
  destruct (has_spec s (eid e)) as [[-> Hs]|[[-> Hs]|[-> _]]]; auto.
  - destruct H as [<-|H]; [lia|]. apply (IH _ i H). unfold add.
    unfold occ in *. rewrite ids_app, count_occ_app. lia.
  - destruct H as [<-|H]; [lia|]. apply (IH _ i H); auto.
Qed.

Lemma first_occs_In seen l i : In i (ids (first_occs seen l)) <-> In i (ids l) /\ ~ In i seen.
Proof.
  revert seen. induction l as [|e r IH]; intros seen; cbn; [tauto|].
  destruct (in_dec ident_dec (eid e) seen) as [Hi|Hn].
  - rewrite IH. split; [tauto|]. intros [[<-|H] Hn]; tauto.
  - cbn. rewrite IH. cbn. destruct (ident_dec (eid e) i) as [<-|]; tauto.
Qed.

Lemma first_occs_NoDup seen l : NoDup (ids (first_occs seen l)).
Proof.
  revert seen. induction l as [|e r IH]; intros seen; cbn; [constructor|].
  destruct (in_dec ident_dec (eid e) seen); [auto|]. cbn. constructor; auto.
  fold (ids (first_occs (eid e :: seen) r)). rewrite first_occs_In. cbn. tauto.
Qed.

(** What [first_occs] means: its entries are the entries that come first with their identifier. *)
Lemma first_occs_first seen l : forall e,
  In e (first_occs seen l) <-> first_entry l (eid e) e /\ ~ In (eid e) seen.
Proof.
  revert seen. induction l as [|f r IH]; intros seen e; cbn.
  - split; [tauto|]. intros [(a & b & Hs & _) _]. destruct a; discriminate.
  - assert (Hfe : first_entry (f :: r) (eid e) e <-> f = e \/ (eid f <> eid e /\ first_entry r (eid e) e)).
    { split.
      - intros (a & b & Hs & _ & Hn). destruct a as [|x a]; cbn in Hs; injection Hs as -> ->; [auto|].
        right. cbn in Hn. split; [tauto|]. exists a, b. tauto.
      - intros [<-|[Hne (a & b & -> & _ & Hn)]].
        + exists [], r. cbn. tauto.
        + exists (f :: a), b. cbn. tauto. }
    rewrite Hfe. destruct (in_dec ident_dec (eid f) seen) as [Hi|Hn].
    + rewrite IH. split.
      * intros [H1 H2]. split; [|auto]. right. split; [congruence|auto].
      * intros [[<-|[H1 H2]] H3]; tauto.
    + cbn. rewrite IH. cbn. split.
      * intros [<-|[H1 H2]]; [tauto|]. split; [right; tauto|tauto].
      * intros [[<-|[H1 H2]] H3]; [tauto|]. right. split; [auto|]. tauto.
Qed.

(** ... in their order: [first_occs seen l] arises from [l] by dropping entries. *)
Inductive subseq {A} : list A -> list A -> Prop :=
| subseq_nil : subseq [] []
| subseq_keep : forall x a b, subseq a b -> subseq (x :: a) (x :: b)
| subseq_drop : forall x a b, subseq a b -> subseq a (x :: b).

Lemma first_occs_subseq seen l : subseq (first_occs seen l) l.
Proof.
  revert seen. induction l as [|f r IH]; intros seen; cbn; [constructor|].
  destruct (in_dec ident_dec (eid f) seen); constructor; auto.
Qed.

(** ** C40, lookups *)

(** [has] answers exactly, and refuses to answer exactly when the identifier is ambiguous. *)
Theorem C40_has : forall s i,
  has s i = match occ s i with 0 => Some false | 1 => Some true | _ => None end.
Proof.
  intros s i. destruct (has_spec s i) as [[-> ->]|[[-> ->]|[-> H]]]; auto.
  destruct (occ s i) as [|[|]]; auto; lia.
Qed.

(** [at(id)] returns the only entry with this identifier with its index; it throws iff there is none or more than one. *)
Theorem C40_at : forall s i,
  (forall k e, at_id s i = Some (k, e) <->
     nth_error s k = Some e /\ eid e = i /\ (forall k' e', nth_error s k' = Some e' -> eid e' = i -> k' = k)) /\
  (at_id s i = None <-> occ s i <> 1).
Proof.
  intros s i. unfold at_id.
  assert (Hsplit : forall k e, nth_error s k = Some e -> eid e = i -> In i (ids s)).
  { intros k e H <-. apply in_map. eapply nth_error_In; eauto. }
  destruct (find_spec s i) as [[-> Hn]|(a & f & b & -> & Hf & Ha & [[Hb ->]|[Hb ->]])].
  - assert (nth_error s (length s) = None) as -> by (apply nth_error_None; lia).
    split; [intros k e; split; [discriminate|]|].
    + intros (H & He & _). elim Hn. eauto.
    + apply occ_zero in Hn. rewrite Hn. split; auto.
  - rewrite nth_error_mid.
    assert (Huniq : forall k' e', nth_error (a ++ f :: b) k' = Some e' -> eid e' = i -> k' = length a).
    { intros k' e' H He. destruct (Nat.lt_trichotomy k' (length a)) as [Hlt|[|Hgt]]; auto; exfalso.
      - rewrite nth_error_app1 in H by auto. apply Ha. rewrite <- He. apply in_map. eapply nth_error_In; eauto.
      - rewrite nth_error_app2 in H by lia. destruct (k' - length a) as [|m] eqn:Em; [lia|]. cbn in H.
        apply Hb. rewrite <- He. apply in_map. eapply nth_error_In; eauto. }
    split; [intros k e; split|].
    + intros [= <- <-]. rewrite nth_error_mid. auto.
    + intros (H & He & _). pose proof (Huniq k e H He) as ->. rewrite nth_error_mid in H. congruence.
    + rewrite occ_mid. destruct (ident_dec (eid f) i); [|congruence]. apply occ_zero in Ha, Hb.
      split; [discriminate|lia].
  - assert (Ho : occ (a ++ f :: b) i >= 2).
    { rewrite occ_mid. destruct (ident_dec (eid f) i); [|congruence].
      assert (occ b i <> 0) by (rewrite occ_zero; tauto). lia. }
    split; [intros k e; split; [discriminate|]|split; auto; lia].
    intros (H & He & Hu). exfalso.
    apply in_map_iff in Hb. destruct Hb as (g & Hg & Hin). apply In_nth_error in Hin. destruct Hin as [m Hm].
    assert (length a = k) by (eapply Hu; [apply nth_error_mid|auto]).
    assert (length a + S m = k).
    { eapply Hu; [|exact Hg]. rewrite nth_error_app2 by lia.
      replace (length a + S m - length a) with (S m) by lia. exact Hm. }
    lia.
Qed.

(** ** C40, deduplication, constants, union, intersection, equality *)

(** [deduplicate] never throws; the result has no duplicates, exactly the identifiers of the schema, every entry is the
    first one with its identifier, and the order is kept. *)
Theorem C40_deduplicate : forall s, exists r,
  deduplicate s = Some r /\ NoDup (ids r) /\ (forall i, In i (ids r) <-> In i (ids s)) /\
  (forall e, In e r <-> first_entry s (eid e) e) /\ subseq r s.
Proof.
  intros s. exists (first_occs [] s). split.
  { unfold deduplicate. rewrite dedup_loop_spec by constructor. reflexivity. }
  split; [apply first_occs_NoDup|]. split; [intros i; rewrite first_occs_In; cbn; tauto|].
  split; [intros e; rewrite first_occs_first; cbn; tauto|]. apply first_occs_subseq.
Qed.

Theorem C40_deduplicate_idempotent : forall s r, deduplicate s = Some r -> deduplicate r = Some r.
Proof.
  intros s r H. destruct (C40_deduplicate s) as (r' & H' & Hnd & _).
  rewrite H in H'. injection H' as <-. clear H.
  unfold deduplicate. rewrite dedup_loop_spec by constructor. cbn. f_equal.
  assert (G : forall l seen, NoDup (ids l) -> (forall i, In i (ids l) -> ~ In i seen) -> first_occs seen l = l).
  { induction l as [|e l IH]; intros seen Hn Hs; cbn; auto.
    destruct (in_dec ident_dec (eid e) seen) as [Hi|_]; [elim (Hs (eid e)); cbn; auto|].
    inversion Hn; subst. f_equal. apply IH; auto. intros i Hi [<-|Hs']; [tauto|].
    apply (Hs i); cbn; auto. }
  apply G; auto.
Qed.

(** [drop_constants] removes exactly the entries of the unqualified identifier "$const". *)
Theorem C40_drop_constants : forall s,
  drop_constants s = filter (fun e => if ident_dec (eid e) (mkId None "$const"%string) then false else true) s.
Proof.
  intros s. unfold drop_constants.
  assert (G : forall s res, drop_constants_loop res s =
    res ++ filter (fun e => if ident_dec (eid e) (mkId None "$const"%string) then false else true) s).
  { clear. induction s as [|e r IH]; intros res; cbn; [rewrite app_nil_r; auto|].
    rewrite IH. unfold is_constant. destruct (ident_dec (eid e) _) as [E|E].
    - apply ident_eqb_spec in E. unfold const_id. rewrite E. reflexivity.
    - apply ident_eqb_false in E. unfold const_id. rewrite E. cbn. unfold add. rewrite mkEntry_eta, <- app_assoc.
      reflexivity. }
  rewrite G. reflexivity.
Qed.

(** [operator+] is concatenation. *)
Theorem C40_concat : forall a b, concat a b = a ++ b.
Proof.
  unfold concat. intros a b; revert a; induction b as [|e b IH]; intros a; cbn; [rewrite app_nil_r; auto|].
  rewrite IH. unfold add. rewrite <- app_assoc. reflexivity.
Qed.

(** [operator|] throws iff the left schema has an identifier of the right one more than once.  Otherwise the result is
    the left schema followed by new entries of the right schema, each the first with its identifier, in order. *)
Theorem C40_union : forall a b,
  (union a b = None <-> exists i, In i (ids b) /\ 2 <= occ a i) /\
  (forall r, union a b = Some r ->
     exists n, r = a ++ n /\ subseq n b /\ NoDup (ids n) /\
       (forall e, In e n <-> first_entry b (eid e) e /\ ~ In (eid e) (ids a)) /\
       (forall i, In i (ids r) <-> In i (ids a) \/ In i (ids b)) /\
       (NoDup (ids a) -> NoDup (ids r))).
Proof.
  intros a b. unfold union.
  assert (D : (exists i, In i (ids b) /\ 2 <= occ a i) \/ (forall i, In i (ids b) -> occ a i <= 1)).
  { clear. induction (ids b) as [|i l [[j [Hj1 Hj2]]|IH]]; cbn.
    - right; tauto.
    - left; exists j; auto.
    - destruct (le_lt_dec (occ a i) 1) as [H|H].
      + right. intros j [<-|]; auto.
      + left. exists i. split; [auto|lia]. }
  split; [split|].
  - intros H. destruct D as [|D]; auto. rewrite union_loop_spec in H by auto. discriminate.
  - intros (i & Hi & Ho). eapply union_none; eauto.
  - intros r H. destruct D as [(i & Hi & Ho)|D]; [rewrite (union_none b a i) in H by auto; discriminate|].
    rewrite union_loop_spec in H by auto. injection H as <-.
    exists (first_occs (ids a) b). split; [reflexivity|]. split; [apply first_occs_subseq|].
    split; [apply first_occs_NoDup|]. split; [intros e; apply first_occs_first|]. split.
    + intros i. rewrite ids_app, in_app_iff, first_occs_In.
      destruct (in_dec ident_dec i (ids a)); tauto.
    + intros Hn. rewrite ids_app.
      assert (Hd : forall i, In i (ids a) -> ~ In i (ids (first_occs (ids a) b))).
      { intros i Hi. rewrite first_occs_In. tauto. }
      pose proof (first_occs_NoDup (ids a) b) as Hf. revert Hn Hd.
      generalize dependent (ids (first_occs (ids a) b)). induction (ids a) as [|x l IH]; intros m Hm Hn Hd; cbn; auto.
      inversion Hn; subst. constructor.
      * rewrite in_app_iff. intros [|]; [tauto|]. apply (Hd x); cbn; auto.
      * apply IH; auto. intros i Hi. apply Hd. cbn; auto.
Qed.

(** [operator&]: throws iff some entry of the left schema is ambiguous in the right one or has another type there
    ... *)
Definition clash (right : schema) (e : entry) : Prop :=
  2 <= occ right (eid e) \/
  (occ right (eid e) = 1 /\ exists f, In f right /\ eid f = eid e /\ etype f <> etype e).

(** ... otherwise it is, in order, the entries of the left schema whose identifier the right schema has, with the
    constraints of both.  [merged right e e'] says this of a single entry. *)
Definition merged (right : schema) (e e' : entry) : Prop :=
  eid e' = eid e /\ etype e' = etype e /\
  exists f, In f right /\ eid f = eid e /\ etype f = etype e /\
    forall n, N.testbit (econstraints e') n = N.testbit (econstraints e) n || N.testbit (econstraints f) n.

Lemma occ1_unique s a i : forall e b, s = a ++ e :: b -> eid e = i -> ~ In i (ids a) -> ~ In i (ids b) ->
  forall f, In f s -> eid f = i -> f = e.
Proof.
  intros e b -> He Ha Hb f Hf Hi. apply in_app_iff in Hf. destruct Hf as [Hf|[Hf|Hf]]; auto.
  - elim Ha. rewrite <- Hi. apply in_map; auto.
  - elim Hb. rewrite <- Hi. apply in_map; auto.
Qed.

Lemma inter_loop_spec right left : forall res,
  (inter_loop res left right = None /\ exists e, In e left /\ clash right e) \/
  (exists n, inter_loop res left right = Some (res ++ n) /\
     (forall e, In e left -> ~ clash right e) /\
     Forall2 (merged right) (filter (fun e => if in_dec ident_dec (eid e) (ids right) then true else false) left) n).
Proof.
  induction left as [|e l IH]; intros res.
  - right. exists []. cbn. rewrite app_nil_r. split; [auto|]. split; [tauto|constructor].
  - cbn. destruct (find_spec right (eid e)) as [[-> Hn]|(a & f & b & Hr & Hf & Ha & [[Hb ->]|[Hb ->]])].
    + assert (nth_error right (length right) = None) as -> by (apply nth_error_None; lia).
      destruct (in_dec ident_dec (eid e) (ids right)) as [|_]; [tauto|].
      destruct (IH res) as [[-> (e' & Hi & Hc)]|(n & -> & Hc & HF)].
      * left. split; [auto|]. exists e'; auto.
      * right. exists n. split; [auto|]. split; [|auto]. intros e' [<-|Hi]; auto.
        apply occ_zero in Hn. intros [?|[? _]]; lia.
    + assert (Ho : occ right (eid e) = 1).
      { rewrite Hr, occ_mid, Hf. destruct (ident_dec (eid e) (eid e)); [|congruence].
        apply occ_zero in Ha, Hb. lia. }
      assert (Hin : In f right) by (rewrite Hr; apply in_or_app; cbn; auto).
      assert (nth_error right (length a) = Some f) as -> by (rewrite Hr; apply nth_error_mid).
      destruct (etype e =? etype f) eqn:Et; cbn [negb].
      * apply Nat.eqb_eq in Et.
        destruct (in_dec ident_dec (eid e) (ids right)) as [_|Hnn];
          [|elim Hnn; rewrite <- Hf; apply in_map; auto].
        destruct (IH (add res (mkEntry (eid e) (etype e) (N.lor (econstraints e) (econstraints f)))))
          as [[-> (e' & Hi & Hc)]|(n & -> & Hc & HF)].
        -- left. split; [auto|]. exists e'; auto.
        -- right. unfold add. rewrite <- app_assoc. cbn.
           exists (mkEntry (eid e) (etype e) (N.lor (econstraints e) (econstraints f)) :: n).
           split; [reflexivity|]. split.
           ++ intros e' [<-|Hi]; [|auto]. intros [?|[_ (g & Hg & Hge & Hgt)]]; [lia|].
              rewrite (occ1_unique right a (eid e) f b Hr Hf Ha Hb g Hg Hge) in Hgt. congruence.
           ++ constructor; [|auto]. unfold merged. cbn. split; [auto|]. split; [auto|].
              exists f. split; [auto|]. split; [auto|]. split; [auto|]. intros m. apply N.lor_spec.
      * apply Nat.eqb_neq in Et. left. split; [auto|]. exists e. split; [auto|]. right. split; [auto|].
        exists f. repeat split; auto.
    + left. split; [auto|]. exists e. split; [auto|]. left. rewrite Hr, occ_mid, Hf.
      destruct (ident_dec (eid e) (eid e)); [|congruence].
      assert (occ b (eid e) <> 0) by (rewrite occ_zero; tauto). lia.
Qed.

Theorem C40_intersection : forall a b,
  (inter a b = None <-> exists e, In e a /\ clash b e) /\
  (forall r, inter a b = Some r ->
     Forall2 (merged b) (filter (fun e => if in_dec ident_dec (eid e) (ids b) then true else false) a) r /\
     (forall i, In i (ids r) <-> In i (ids a) /\ In i (ids b)) /\
     (NoDup (ids a) -> NoDup (ids r))).
Proof.
  intros a b. unfold inter. destruct (inter_loop_spec b a []) as [[-> Hc]|(n & -> & Hc & HF)].
  - split; [tauto|]. intros r; discriminate.
  - split.
    + split; [discriminate|]. intros (e & Hi & Hcl). elim (Hc e Hi Hcl).
    + cbn. intros r [= <-]. split; [auto|].
      assert (Hids : ids n = ids (filter (fun e => if in_dec ident_dec (eid e) (ids b) then true else false) a)).
      { clear - HF. induction HF as [|x y l l' (H & _) _ IH]; cbn; auto. unfold ids in *. congruence. }
      rewrite Hids. split.
      * intros i.
        assert (Hin : forall l, In i (ids l) <-> exists x, eid x = i /\ In x l) by (intros l; apply in_map_iff).
        rewrite !Hin. split.
        -- intros (e & <- & He). apply filter_In in He. destruct He as [He Hb].
           destruct (in_dec ident_dec (eid e) (ids b)) as [Hb'|]; [|discriminate]. split; [eauto|].
           apply in_map_iff in Hb'. auto.
        -- intros [(e & <- & He) Hb]. exists e. split; [auto|]. apply filter_In. split; [auto|].
           destruct (in_dec ident_dec (eid e) (ids b)) as [|Hn]; auto. elim Hn. apply in_map_iff; auto.
      * clear. intros Hn. induction a as [|e a IH]; cbn; auto. cbn in Hn. inversion Hn; subst.
        destruct (in_dec ident_dec (eid e) (ids b)); [|auto]. cbn. constructor; [|auto].
        unfold ids. rewrite in_map_iff. intros (g & Hg & Hg'). apply filter_In in Hg'.
        apply H1. rewrite <- Hg. apply in_map. tauto.
Qed.

Lemma all_has_spec a b : (forall i, In i (ids a) -> occ b i <= 1) ->
  all_has a b = Some (if forallb (fun i => if in_dec ident_dec i (ids b) then true else false) (ids a) then true else false).
Proof.
  induction a as [|e a IH]; intros H; cbn; auto.
  assert (He : occ b (eid e) <= 1) by (apply H; cbn; auto).
  destruct (in_dec ident_dec (eid e) (ids b)) as [Hi|Hn].
  - destruct (has_spec b (eid e)) as [[_ Ho]|[[-> Ho]|[_ ?]]]; [apply occ_zero in Ho; tauto| |lia].
    cbn. apply IH. intros i Hi'. apply H; cbn; auto.
  - apply occ_zero in Hn. destruct (has_spec b (eid e)) as [[-> Ho]|[[_ Ho]|[_ ?]]]; auto; lia.
Qed.

(** Equality of schemas without duplicates is equality of their identifier sets (order, types and constraints do not
    matter). *)
Theorem C40_equality : forall a b, NoDup (ids a) -> NoDup (ids b) ->
  exists r, schema_eq a b = Some r /\ (r = true <-> forall i, In i (ids a) <-> In i (ids b)).
Proof.
  intros a b Ha Hb. unfold schema_eq.
  rewrite (all_has_spec a b) by (intros; apply NoDup_occ; auto).
  rewrite (all_has_spec b a) by (intros; apply NoDup_occ; auto).
  assert (G : forall a b, forallb (fun i => if in_dec ident_dec i (ids b) then true else false) (ids a) = true <->
              forall i, In i (ids a) -> In i (ids b)).
  { clear. intros a b. rewrite forallb_forall. split; intros H i Hi; specialize (H i Hi);
      destruct (in_dec ident_dec i (ids b)); auto; discriminate. }
  destruct (forallb _ (ids a)) eqn:E1.
  - pose proof (proj1 (G a b) E1) as E1x. destruct (forallb _ (ids b)) eqn:E2.
    + pose proof (proj1 (G b a) E2) as E2x. exists true. split; [reflexivity|]. split; [|auto]. intros _ i; split; auto.
    + exists false. split; [reflexivity|]. split; [discriminate|]. intros H. assert (Hx := proj2 (G b a)). rewrite E2 in Hx. apply Hx.
      intros i; apply H.
  - exists false. split; [reflexivity|]. split; [discriminate|]. intros H. assert (Hx := proj2 (G a b)). rewrite E1 in Hx. apply Hx.
    intros i; apply H.
Qed.

(** With duplicates too, whenever the comparison answers at all. *)
Theorem C40_equality_answers : forall a b r, schema_eq a b = Some r ->
  (r = true <-> forall i, In i (ids a) <-> In i (ids b)).
Proof.
  assert (G : forall a b r, all_has a b = Some r -> (r = true <-> forall i, In i (ids a) -> In i (ids b))).
  { induction a as [|e a IH]; cbn; intros b r H; [injection H as <-; tauto|].
    destruct (has b (eid e)) as [[|]|] eqn:E; [| |discriminate].
    - apply has_true_In in E. rewrite (IH b r H). split; auto. intros Hs i [<-|Hi]; auto.
    - apply has_false_In in E. injection H as <-. split; [discriminate|]. intros Hs. elim E. auto. }
  intros a b r. unfold schema_eq. destruct (all_has a b) as [[|]|] eqn:E; [| |discriminate]; intros H.
  - rewrite (G b a r H). assert (Hab : forall i, In i (ids a) -> In i (ids b)) by (apply (G a b true E); auto).
    split; [intros Hs i; split; auto|]. intros Hs i; apply Hs.
  - injection H as <-. split; [discriminate|]. intros Hs. apply (G a b false E). intros i; apply Hs.
Qed.

(** A schema with an ambiguous identifier does not even compare equal to itself: the comparison throws. *)
Theorem C40_equality_ambiguous : forall s i, 2 <= occ s i -> schema_eq s s = None.
Proof.
  intros s i H. unfold schema_eq.
  assert (G : forall l, (forall j, In j (ids l) -> In j (ids s)) -> In i (ids l) -> all_has l s = None).
  { induction l as [|e l IH]; cbn; intros Hl Hi; [tauto|].
    destruct (has_spec s (eid e)) as [[_ Ho]|[[-> Ho]|[-> _]]]; auto.
    - apply occ_zero in Ho. elim Ho. auto.
    - destruct Hi as [<-|Hi]; [lia|]. apply IH; auto. }
  rewrite G; auto. destruct (in_dec ident_dec i (ids s)) as [|n]; auto. apply occ_zero in n. lia.
Qed.

(** An identifier never has the empty string as prefix. *)
Theorem C40_identifier_prefix : forall p n,
  (make_ident p n = None <-> p = Some ""%string) /\ (forall i, make_ident p n = Some i -> prefix i = p /\ name i = n).
Proof.
  intros [[|c s]|] n; (split; [split; intros H; cbn in H |- *; congruence|]); intros i H; cbn in H; try discriminate; injection H as <-; cbn; repeat split; congruence.
Qed.

(** ** Counterexample: union and intersection do not remove duplicates of the left operand. *)
Theorem C40_refuted_left_duplicates : exists a b r r',
  union a [] = Some r /\ ~ NoDup (ids r) /\ inter a b = Some r' /\ ~ NoDup (ids r').
Proof.
  set (x := mkId None "x"%string).
  exists [mkEntry x 0 0; mkEntry x 0 1], [mkEntry x 0 2], [mkEntry x 0 0; mkEntry x 0 1], [mkEntry x 0 2; mkEntry x 0 3].
  assert (H : ~ NoDup [x; x]) by (intros H; inversion H as [|? ? H3 _]; subst; apply H3; cbn; auto).
  repeat split; auto.
Qed.

(** ** Non-vacuity *)
Example schema_example :
  let a := [mkEntry (mkId (Some "r") "x") 1 1; mkEntry (mkId None "y") 2 0]%string in
  let b := [mkEntry (mkId None "y") 2 4; mkEntry (mkId (Some "s") "x") 1 0]%string in
  union a b = Some [mkEntry (mkId (Some "r") "x") 1 1; mkEntry (mkId None "y") 2 0; mkEntry (mkId (Some "s") "x") 1 0]%string /\
  inter a b = Some [mkEntry (mkId None "y") 2 4]%string /\
  schema_eq a b = Some false /\ NoDup (ids a) /\ NoDup (ids b).
Proof.
  cbn. split; [reflexivity|]. split; [reflexivity|]. split; [reflexivity|].
  split; (constructor; [cbn; intros [H|H]; [discriminate|auto]|constructor; [cbn; auto|constructor]]).
Qed.
