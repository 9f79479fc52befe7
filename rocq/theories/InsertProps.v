(** * C45: INSERT stores the given rows *)
From Coq Require Import List Arith Lia Bool ZArith.
From Verif Require Import Insert.
Import ListNotations.

(** ** Specification *)

(** The visible attributes of a row. *)
Fixpoint visible (attrs : list attribute) (row : tuple) : tuple :=
  match attrs, row with
  | a :: r, x :: xs => if is_hidden a then visible r xs else x :: visible r xs
  | _, _ => []
  end.

(** The value an element stands for. *)
Definition meaning (e : element) : option (option Z) :=
  match e with I_Null => Some None | I_Expr v => Some v | I_Default => None end.

Definition num_visible (attrs : list attribute) : nat := length (filter (fun a => negb (is_hidden a)) attrs).

(** ** Lemmas *)
Lemma set_nth_length n x t : length (set_nth n x t) = length t.
Proof. revert n; induction t as [|y t IH]; intros [|n]; cbn; auto. Qed.

Lemma set_nth_nth n x t m d : nth m (set_nth n x t) d = if (m =? n) && (m <? length t) then x else nth m t d.
Proof.
  revert n m; induction t as [|y t IH]; intros [|n] [|m]; cbn; auto.
  - rewrite andb_false_r; auto.
  - rewrite IH. reflexivity.
Qed.

(** [pos attrs id]: the position of the [id]-th visible attribute. *)
Fixpoint pos (attrs : list attribute) (id : nat) : nat :=
  match attrs with
  | [] => 0
  | a :: r => if is_hidden a then S (pos r id) else match id with 0 => 0 | S k => S (pos r k) end
  end.

Lemma convert_loop_pos attrs : forall i id, i <= id -> id - i < num_visible attrs ->
  convert_loop attrs i id = i + pos attrs (id - i).
Proof.
  unfold num_visible. induction attrs as [|a r IH]; intros i id Hi Hl; cbn in *; [lia|].
  destruct (Nat.leb_spec i id); [|lia]. destruct (is_hidden a) eqn:Ea; cbn in Hl.
  - rewrite IH by (try lia; replace (S id - S i) with (id - i) by lia; auto).
    replace (S id - S i) with (id - i) by lia. lia.
  - destruct (id - i) as [|k] eqn:Ek.
    + assert (id = i) by lia. subst id. rewrite Nat.add_0_r. destruct r as [|b r]; cbn [convert_loop]; [reflexivity|]. destruct (Nat.leb_spec (S i) i); [lia|reflexivity].
    + rewrite IH by lia. replace (id - S i) with k by lia. lia.
Qed.

Lemma convert_id_pos attrs id : id < num_visible attrs -> convert_id attrs id = pos attrs id.
Proof. intros H. unfold convert_id. rewrite convert_loop_pos by (rewrite ?Nat.sub_0_r; auto; lia). rewrite Nat.sub_0_r. reflexivity. Qed.

Lemma visible_set attrs : forall id row x, id < num_visible attrs -> length row = length attrs ->
  visible attrs (set_nth (pos attrs id) x row) = set_nth id x (visible attrs row).
Proof.
  unfold num_visible. induction attrs as [|a r IH]; intros id row x Hid Hl; [destruct row; cbn in *; lia|].
  destruct row as [|y row]; [discriminate|]. cbn in *. destruct (is_hidden a) eqn:Ea; cbn in *.
  - try rewrite Ea. apply IH; [auto|lia].
  - destruct id as [|k]; cbn; try rewrite Ea; [reflexivity|]. f_equal. apply IH; lia.
Qed.

Lemma visible_length attrs : forall row, length row = length attrs -> length (visible attrs row) = num_visible attrs.
Proof.
  unfold num_visible. induction attrs as [|a r IH]; intros [|y row] Hl; cbn in *; auto; try lia.
  destruct (is_hidden a); cbn; auto.
Qed.

Lemma visible_set_hidden attrs : forall n row x, (exists a, nth_error attrs n = Some a /\ is_hidden a = true) ->
  visible attrs (set_nth n x row) = visible attrs row.
Proof.
  induction attrs as [|a r IH]; intros n row x (b & Hn & Hb); [destruct row; auto|].
  destruct row as [|y row]; [destruct n; auto|]. destruct n as [|n]; cbn in *.
  - injection Hn as ->. rewrite Hb. reflexivity.
  - rewrite IH by eauto. reflexivity.
Qed.

Lemma fill_length attrs : forall els i tup, length (fill attrs i els tup) = length tup.
Proof. induction els as [|e r IH]; intros i tup; cbn; auto. rewrite IH. destruct e; rewrite ?set_nth_length; auto. Qed.

(** The visible values of one row, given those of the row before (all NULL for the first): DEFAULT repeats them. *)
Fixpoint row_of (els : list element) (prev : tuple) : tuple :=
  match els, prev with
  | e :: r, p :: prev' => (match e with I_Null => None | I_Expr v => v | I_Default => p end) :: row_of r prev'
  | _, _ => []
  end.
Fixpoint rows_of (tuples : list (list element)) (prev : tuple) : list tuple :=
  match tuples with [] => [] | t :: r => row_of t prev :: rows_of r (row_of t prev) end.

(** Filling only touches the visible attributes, if all elements are expressions. *)
Lemma fill_visible attrs (els : list element) : forall i tup,
  (forall e, In e els -> e = I_Null -> forall k, pos attrs k = k \/ num_visible attrs <= k) ->
  i + length els <= num_visible attrs -> length tup = length attrs ->
  visible attrs (fill attrs i els tup) = firstn i (visible attrs tup) ++ row_of els (skipn i (visible attrs tup)) ++ skipn (i + length els) (visible attrs tup).
Proof.
  induction els as [|e r IH]; intros i tup Hn Hl Ht.
  - cbn. rewrite Nat.add_0_r, firstn_skipn. reflexivity.
  - cbn [length] in Hl. cbn [fill].
    assert (E : visible attrs (match e with I_Null => set_nth i None tup | I_Default => tup | I_Expr v => set_nth (convert_id attrs i) v tup end)
                = set_nth i (match e with I_Null => None | I_Expr v => v | I_Default => nth i (visible attrs tup) None end) (visible attrs tup)).
    { destruct e.
      - destruct (Hn I_Null (or_introl eq_refl) eq_refl i) as [P|]; [|lia]. rewrite <- P at 1. apply visible_set; [lia|exact Ht].
      - generalize (visible attrs tup). intros w. clear. revert i. induction w as [|y w IHw]; intros [|i]; cbn; auto. f_equal. apply IHw.
      - rewrite convert_id_pos by lia. apply visible_set; [lia|exact Ht]. }
    rewrite IH.
    + rewrite E. assert (Hv := visible_length attrs tup Ht).
      set (w := visible attrs tup) in *. assert (Hi : i < length w) by lia.
      clearbody w. replace (i + length (e :: r)) with (S i + length r) by (cbn; lia). clear - Hi.
      revert i Hi. induction w as [|y w IHw]; intros i Hi; [cbn in Hi; lia|].
      destruct i as [|i]; [destruct e; reflexivity|]. cbn [set_nth nth]. change (firstn (S (S i)) (?a :: ?l)) with (a :: firstn (S i) l). change (skipn (S (S i)) (?a :: ?l)) with (skipn (S i) l).
      change (skipn (S (S i) + length r) (?a :: ?l)) with (skipn (S i + length r) l). change (firstn (S i) (y :: w)) with (y :: firstn i w). change (skipn (S i) (y :: w)) with (skipn i w). change (skipn (S i + length r) (y :: w)) with (skipn (i + length r) w).
      rewrite <- !app_comm_cons. f_equal. apply IHw. cbn in Hi. lia.
    + intros e' He'. apply Hn. right; auto.
    + lia.
    + destruct e; rewrite ?set_nth_length; auto.
Qed.

Definition ts_valid (attrs : list attribute) (ts : option (nat * nat)) : Prop :=
  match ts with
  | None => True
  | Some (b, e) => b <> e /\ (exists a, nth_error attrs b = Some a /\ is_hidden a = true) /\
                   (exists a, nth_error attrs e = Some a /\ is_hidden a = true)
  end.

Lemma insert_loop_spec attrs ts st : ts_valid attrs ts -> forall tuples tup,
  (forall t, In t tuples -> length t = num_visible attrs) ->
  ((forall t e, In t tuples -> In e t -> e <> I_Null) \/ (forall a, In a attrs -> is_hidden a = false)) ->
  length tup = length attrs ->
  map (visible attrs) (insert_loop attrs ts st tup tuples) = rows_of tuples (visible attrs tup) /\
  (forall row, In row (insert_loop attrs ts st tup tuples) -> length row = length attrs /\
     match ts with None => True | Some (b, e) => nth b row None = Some st /\ nth e row None = Some (-1)%Z end).
Proof.
  intros Hts. induction tuples as [|t r IH]; intros tup Hlen Hn Ht; cbn [insert_loop].
  - split; [reflexivity|]. intros row [].
  - assert (L1 : length (stamp ts st (fill attrs 0 t tup)) = length attrs).
    { unfold stamp. destruct ts as [[b e]|]; rewrite ?set_nth_length, fill_length; auto. }
    destruct (IH (stamp ts st (fill attrs 0 t tup))) as [I1 I2]; auto.
    { intros; apply Hlen; cbn; auto. }
    { destruct Hn as [Hn|Hn]; [left|right; auto]. intros t' e Ht' He. apply (Hn t' e); cbn; auto. }
    assert (V : visible attrs (fill attrs 0 t tup) = row_of t (visible attrs tup)).
    { rewrite (fill_visible attrs t); auto.
      - cbn [firstn app plus skipn]. rewrite Hlen by (cbn; auto). rewrite <- (visible_length attrs tup Ht), skipn_all, app_nil_r. reflexivity.
      - intros e He ->. destruct Hn as [Hn|Hn]; [elim (Hn t I_Null); cbn; auto|].
        clear - Hn. unfold num_visible. induction attrs as [|a r IH]; intros k; [right; cbn; lia|].
        cbn. rewrite (Hn a) by (cbn; auto). cbn. destruct k as [|k]; [auto|].
        destruct (IH (fun b Hb => Hn b (or_intror Hb)) k) as [->|]; [auto|right; lia].
      - rewrite Hlen by (cbn; auto). lia. }
    split.
    + assert (W : visible attrs (stamp ts st (fill attrs 0 t tup)) = row_of t (visible attrs tup)).
      { rewrite <- V. unfold stamp. destruct ts as [[b e]|]; [|reflexivity]. destruct Hts as (_ & Hb & He). rewrite !visible_set_hidden; auto. }
      cbn [map rows_of]. rewrite I1, W. reflexivity.
    + intros row [<-|Hrow]; [|apply I2; auto]. split; [auto|]. destruct ts as [[b e]|]; [|auto].
      destruct Hts as (Hne & (x & Hb & _) & (y & He & _)).
      assert (b < length attrs) by (apply nth_error_Some; congruence).
      assert (e < length attrs) by (apply nth_error_Some; congruence).
      cbn [stamp]. rewrite !set_nth_nth, !set_nth_length, fill_length, Ht, !Nat.eqb_refl.
      destruct (Nat.eqb_spec b e); [congruence|]. cbn [andb].
      destruct (Nat.ltb_spec b (length attrs)); [|lia]. destruct (Nat.ltb_spec e (length attrs)); [|lia]. auto.
Qed.

(** ** C45 *)

(** Semantic analysis accepts exactly the statements whose tuples have one element per visible attribute and no NULL literal for a
    NOT NULL attribute. *)
Theorem C45_accepted : forall attrs tuples, sema_insert attrs tuples = true <->
  forall t, In t tuples -> length t = num_visible attrs /\
    forall k a, nth_error (filter (fun a => negb (is_hidden a)) attrs) k = Some a -> nth_error t k = Some I_Null -> not_nullable a = false.
Proof.
  intros attrs tuples. unfold sema_insert, num_visible. rewrite forallb_forall. generalize (filter (fun a => negb (is_hidden a)) attrs). intros va.
  assert (H : forall t, sema_tuple va t = true <-> length t = length va /\ forall k a, nth_error va k = Some a -> nth_error t k = Some I_Null -> not_nullable a = false).
  { induction va as [|a va IH]; intros [|e t]; cbn [sema_tuple length]; [split; [|reflexivity]; intros _; split; [reflexivity|]; intros [|k] a; discriminate|split; [discriminate|intros [? _]; discriminate]..|].
    rewrite andb_true_iff, IH. split.
    - intros [He [Hl Hk]]. split; [congruence|]. intros [|k] b Hb Hn; cbn in Hb, Hn; [injection Hb as <-; injection Hn as ->; apply negb_true_iff; exact He|apply (Hk k); assumption].
    - intros [Hl Hk]. split; [destruct e; auto; apply negb_true_iff; apply (Hk 0 a); reflexivity|]. split; [congruence|]. intros k b Hb Hn. apply (Hk (S k) b); assumption. }
  split; intros X t Ht; apply H; apply X; exact Ht.
Qed.

(** One row per given tuple, in order, with exactly the given values in the visible attributes (a DEFAULT repeats the value of the row
    before, NULL in the first row) and the timestamps in the hidden ones: if there are no NULL literals or no hidden attributes. *)
Theorem C45_exact : forall attrs ts st tuples, ts_valid attrs ts -> sema_insert attrs tuples = true ->
  ((forall t e, In t tuples -> In e t -> e <> I_Null) \/ (forall a, In a attrs -> is_hidden a = false)) ->
  map (visible attrs) (insert_records attrs ts st tuples) = rows_of tuples (repeat None (num_visible attrs)) /\
  (forall row, In row (insert_records attrs ts st tuples) -> length row = length attrs /\
     match ts with None => True | Some (b, e) => nth b row None = Some st /\ nth e row None = Some (-1)%Z end).
Proof.
  intros attrs ts st tuples Hts Hs Hn. rewrite C45_accepted in Hs. unfold insert_records.
  assert (E : repeat None (num_visible attrs) = visible attrs (map (fun _ => None) attrs)).
  { unfold num_visible. clear. induction attrs as [|a r IH]; [reflexivity|]. cbn. destruct (is_hidden a); cbn; [exact IH|]. f_equal. exact IH. }
  rewrite E. apply insert_loop_spec; auto.
  - intros t Ht. apply Hs. exact Ht.
  - apply map_length.
Qed.
(** In particular every element that is no DEFAULT determines its value. *)
Theorem C45_insert : forall attrs ts st tuples rows, ts_valid attrs ts -> sema_insert attrs tuples = true ->
  map (map meaning) tuples = map (map Some) rows ->
  ((forall t e, In t tuples -> In e t -> e <> I_Null) \/ (forall a, In a attrs -> is_hidden a = false)) ->
  map (visible attrs) (insert_records attrs ts st tuples) = rows.
Proof.
  intros attrs ts st tuples rows Hts Hs Hm Hn. destruct (C45_exact attrs ts st tuples Hts Hs Hn) as [-> _]. rewrite C45_accepted in Hs.
  assert (Hl : forall t, In t tuples -> length t = length (repeat (@None Z) (num_visible attrs))) by (intros t Ht; rewrite repeat_length; apply Hs; exact Ht).
  clear Hs Hn Hts. revert rows Hm Hl. generalize (repeat (@None Z) (num_visible attrs)). induction tuples as [|t r IH]; intros prev [|v rows] Hm Hl; try discriminate; [reflexivity|].
  cbn [map] in Hm. injection Hm as H1 H2. cbn [rows_of].
  assert (R : row_of t prev = v /\ length v = length prev).
  { specialize (Hl t (or_introl eq_refl)). clear - H1 Hl. revert v prev H1 Hl. induction t as [|e t IH]; intros [|x v] [|p prev] H1 Hl; try discriminate; [split; reflexivity|].
    cbn [map] in H1. injection H1 as He H1. cbn [length] in Hl. injection Hl as Hl. destruct (IH v prev H1 Hl) as [A B]. cbn [row_of length]. rewrite A, B. destruct e; cbn in He; try discriminate; injection He as <-; auto. }
  destruct R as [-> RL]. f_equal. apply IH; [exact H2|]. intros t' Ht'. rewrite RL. apply Hl. right. exact Ht'.
Qed.

(** ** Counterexamples *)

(** INSERT INTO t VALUES (1), (DEFAULT): the second row gets the value of the first. *)
Theorem C45_refuted_default : exists attrs tuples, sema_insert attrs tuples = true /\
  tuples = [[I_Expr (Some 1%Z)]; [I_Default]] /\
  insert_records attrs None 0%Z tuples = [[Some 1%Z]; [Some 1%Z]].
Proof. exists [mkAttr false false], [[I_Expr (Some 1%Z)]; [I_Default]]. repeat split. Qed.

(** Multi-versioning, INSERT INTO t VALUES (1, 2, 3), (4, 5, NULL): the second row is (NULL, 5, 3). *)
Theorem C45_refuted_null_multi_versioning : exists attrs tuples,
  attrs = multi_versioning [mkAttr false false; mkAttr false false; mkAttr false false] /\
  sema_insert attrs tuples = true /\
  tuples = [[I_Expr (Some 1%Z); I_Expr (Some 2%Z); I_Expr (Some 3%Z)]; [I_Expr (Some 4%Z); I_Expr (Some 5%Z); I_Null]] /\
  map (visible attrs) (insert_records attrs (Some (0, 1)) 0%Z tuples) =
    [[Some 1%Z; Some 2%Z; Some 3%Z]; [None; Some 5%Z; Some 3%Z]].
Proof.
  eexists. eexists. split; [reflexivity|]. split; [|split; [reflexivity|reflexivity]]. reflexivity.
Qed.

(** A NOT NULL attribute gets NULL: by DEFAULT in the first row, or by an expression that is NULL. *)
Theorem C45_refuted_not_null : exists attrs t1 t2, attrs = [mkAttr false true] /\
  sema_insert attrs [t1] = true /\ sema_insert attrs [t2] = true /\ t1 = [I_Default] /\ t2 = [I_Expr None] /\
  insert_records attrs None 0%Z [t1] = [[None]] /\ insert_records attrs None 0%Z [t2] = [[None]].
Proof. exists [mkAttr false true], [I_Default], [I_Expr None]. repeat split. Qed.

(** ** Non-vacuity *)
Example C45_nonvacuous :
  let attrs := multi_versioning [mkAttr false false; mkAttr false true] in
  ts_valid attrs (Some (0, 1)) /\
  insert_records attrs (Some (0, 1)) 5%Z [[I_Expr (Some 1%Z); I_Expr None]; [I_Expr (Some 3%Z); I_Expr (Some 4%Z)]] =
    [[Some 5%Z; Some (-1)%Z; Some 1%Z; None]; [Some 5%Z; Some (-1)%Z; Some 3%Z; Some 4%Z]].
Proof. cbn. split; [|reflexivity]. split; [lia|]. split; eexists; split; reflexivity. Qed.
