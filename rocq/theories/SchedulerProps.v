(** * C25, C26: the serial scheduler isolates transactions; snapshots of the multi-versioning *)
From Coq Require Import List Arith Lia Bool ZArith Permutation.
From Verif Require Import Scheduler.
Import ListNotations.

(** ** Specification: what a trace of events says *)

Definition pushed (tr : list event) : list (tx * cmd) :=
  flat_map (fun e => match e with EPush t c => [(t, c)] | _ => [] end) tr.
Definition handed_out (tr : list event) : list (tx * cmd) :=
  flat_map (fun e => match e with EOut t c => [(t, c)] | _ => [] end) tr.
Definition completed (tr : list event) : list (tx * cmd) :=
  flat_map (fun e => match e with EDone t c _ _ _ => [(t, c)] | _ => [] end) tr.
Definition failed (tr : list event) : list (tx * cmd) :=
  flat_map (fun e => match e with EFail t c => [(t, c)] | _ => [] end) tr.
Definition executing (s : state) : list (tx * cmd) :=
  match wrk s with Busy t c => [(t, c)] | _ => [] end.

(** Clients only close a transaction of which a command was handed out since it was last closed. *)
Definition well_closed (tr : list event) : Prop :=
  forall a b t k, tr = a ++ EStop t k :: b ->
    exists a1 c a2, a = a1 ++ EOut t c :: a2 /\ forall k', ~ In (EStop t k') a2.

(** A closed transaction is not used any more. *)
Definition not_reused (tr : list event) : Prop :=
  forall a b t k c, tr = a ++ EStop t k :: b -> ~ In (EOut t c) b.

(** The values inserted by the commands completed in [tr] whose start time satisfies [P]. *)
Definition inserted (P : Z -> bool) (tr : list event) : list Z :=
  flat_map (fun e => match e with EDone _ (Insert _ vs) ts _ _ => if P ts then vs else [] | _ => [] end) tr.

(** ** Lemmas *)
Lemma run_actions_steps acts : forall s0 acts0 tr0 s s' tr, steps s0 acts0 tr0 s ->
  run_actions s tr0 acts = Some (s', tr) -> steps s0 (acts0 ++ acts) tr s'.
Proof.
  induction acts as [|a r IH]; cbn; intros s0 acts0 tr0 s s' tr H E.
  - injection E as <- <-. rewrite app_nil_r. exact H.
  - destruct (step s a) as [[s1 ev]|] eqn:Es; [|discriminate].
    rewrite <- (app_nil_l r), app_comm_cons, app_assoc. eapply IH; [|exact E]. econstructor; eauto.
Qed.

Lemma steps_app s0 a1 t1 s1 : steps s0 a1 t1 s1 -> forall a2 t2 s2, steps s1 a2 t2 s2 -> steps s0 (a1 ++ a2) (t1 ++ t2) s2.
Proof.
  intros H1 a2 t2 s2 H2. induction H2 as [|a2 t2 s a s' ev H2 IH Es].
  - rewrite !app_nil_r. exact H1.
  - rewrite !app_assoc. econstructor; eauto.
Qed.

(** Case analysis of a step, with the resulting states and events. *)
Ltac step_cases E :=
  cbn [step] in E;
  repeat match type of E with
  | context [match ?x with _ => _ end] => let Q := fresh "Q" in destruct x eqn:Q
  end; try discriminate E; injection E as <- <-; cbn [queue running closed wrk pending start next_start_time rows] in *.

Lemma enqueue_back s t c : enqueue s t c false = queue s ++ [(t, c)].
Proof.
  unfold enqueue, find_rend_rbegin. destruct (queue s) as [|x q].
  - cbn. destruct (is_running s t); reflexivity.
  - cbn [length]. change (0 =? S (length q)) with false. cbn [Nat.eqb]. rewrite andb_false_r, Nat.eqb_refl. reflexivity.
Qed.

Lemma enqueue_perm s t c g : Permutation (enqueue s t c g) ((t, c) :: queue s).
Proof.
  unfold enqueue. destruct (_ && _); [apply Permutation_refl|]. destruct (_ =? length (queue s)).
  - rewrite <- Permutation_cons_append. apply Permutation_refl.
  - rewrite <- Permutation_middle. apply perm_skip. rewrite firstn_skipn. apply Permutation_refl.
Qed.

Lemma failed_map q : failed (map (fun p => EFail (fst p) (snd p)) q) = q.
Proof. induction q as [|[t c] q IH]; cbn; [auto|]. unfold failed in IH. rewrite IH. reflexivity. Qed.
Lemma pushed_map q : pushed (map (fun p => EFail (fst p) (snd p)) q) = [].
Proof. induction q; cbn; auto. Qed.
Lemma handed_out_map q : handed_out (map (fun p => EFail (fst p) (snd p)) q) = [].
Proof. induction q; cbn; auto. Qed.
Lemma completed_map q : completed (map (fun p => EFail (fst p) (snd p)) q) = [].
Proof. induction q; cbn; auto. Qed.

Lemma pushed_app a b : pushed (a ++ b) = pushed a ++ pushed b. Proof. apply flat_map_app. Qed.
Lemma handed_out_app a b : handed_out (a ++ b) = handed_out a ++ handed_out b. Proof. apply flat_map_app. Qed.
Lemma completed_app a b : completed (a ++ b) = completed a ++ completed b. Proof. apply flat_map_app. Qed.
Lemma failed_app a b : failed (a ++ b) = failed a ++ failed b. Proof. apply flat_map_app. Qed.
Ltac trapp := rewrite ?pushed_app, ?handed_out_app, ?completed_app, ?failed_app, ?pushed_map, ?handed_out_map, ?completed_map, ?failed_map.

(** ** C25 *)

(** No command is lost or duplicated: the accepted commands are those handed out, those failed by [close] and those
    still queued; those handed out are completed, except the one that is executing.  This holds whatever the undefined
    behaviour of [push] yields. *)
Theorem C25_no_loss : forall acts tr s, exec acts tr s ->
  Permutation (pushed tr) (handed_out tr ++ failed tr ++ queue s) /\
  handed_out tr = completed tr ++ executing s.
Proof.
  intros acts tr s H. induction H as [|acts tr s a s' ev H [IHp IHo] E]; [split; [constructor|reflexivity]|].
  unfold executing in *. destruct a.
  - step_cases E; trapp; cbn; rewrite ?app_nil_r in *; [auto|]. split; [|auto].
    rewrite IHp. rewrite enqueue_perm. rewrite <- Permutation_cons_append.
    rewrite !app_assoc, <- Permutation_middle. reflexivity.
  - step_cases E; rewrite ?app_nil_r in *; auto.
  - step_cases E; rewrite ?app_nil_r in *; auto.
  - step_cases E; rewrite ?app_nil_r in *; auto.
  - step_cases E; trapp; cbn; rewrite ?app_nil_r in *; [auto|..]; (split; [|rewrite IHo; reflexivity]);
    rewrite IHp, <- app_assoc; apply Permutation_app_head; cbn; symmetry; apply Permutation_middle.
  - step_cases E; trapp; cbn; rewrite ?app_nil_r in *; auto.
  - step_cases E; trapp; cbn; rewrite ?app_nil_r in *. split; [|auto].
    rewrite IHp. reflexivity.
  - step_cases E; trapp; cbn; rewrite ?app_nil_r in *; auto.
Qed.

(** Commands are handed out in the order in which they were accepted, provided the undefined comparison of [push] never
    yields [true]. *)
Lemma fifo acts tr s : exec acts tr s -> (forall t c, ~ In (APush t c true) acts) ->
  pushed tr = handed_out tr ++ failed tr ++ queue s /\ (closed s = true -> queue s = []) /\ (closed s = false -> failed tr = []).
Proof.
  intros H. induction H as [|acts tr s a s' ev H IH E]; intros Hg; [repeat split|].
  destruct IH as (IH1 & IH2 & IH3).
  { intros t c Hi. apply (Hg t c). apply in_or_app. auto. }
  assert (Ha : forall t c, a <> APush t c true).
  { intros t c ->. apply (Hg t c). apply in_or_app. cbn. auto. }
  clear Hg. destruct a.
  - destruct sentinel; [elim (Ha t c); reflexivity|].
    step_cases E; trapp; rewrite ?enqueue_back; cbn; rewrite ?app_nil_r in *; [rewrite Q; auto|].
    specialize (IH3 eq_refl). rewrite IH3 in IH1. rewrite IH3. cbn in *. rewrite IH1, <- app_assoc. split; [auto|]. split; [congruence|auto].
  - step_cases E; rewrite ?app_nil_r in *; auto.
  - step_cases E; rewrite ?app_nil_r in *; auto.
  - step_cases E; rewrite ?app_nil_r in *; auto.
  - step_cases E; trapp; cbn; rewrite ?app_nil_r in *; [auto|..].
    all: destruct (closed s); [discriminate (IH2 eq_refl)|]; specialize (IH3 eq_refl); rewrite IH3 in IH1; rewrite IH3; cbn in *;
      rewrite IH1, <- app_assoc; split; [auto|]; split; [congruence|auto].
  - step_cases E; trapp; cbn; rewrite ?app_nil_r in *; auto.
  - step_cases E; trapp; cbn; rewrite ?app_nil_r in *. split; [|split; [auto|congruence]].
    rewrite IH1. reflexivity.
  - step_cases E; trapp; cbn; rewrite ?app_nil_r in *; auto.
Qed.

Theorem C25_submission_order : forall acts tr s, exec acts tr s -> (forall t c, ~ In (APush t c true) acts) ->
  pushed tr = handed_out tr ++ failed tr ++ queue s.
Proof. intros acts tr s H Hg. apply (fifo acts tr s H Hg). Qed.

(** *** Isolation *)

(** The transaction that is open after [tr]. *)
Definition opened (tr : list event) : option tx :=
  fold_left (fun o e => match e with
                        | EOut t _ => match o with None => Some t | Some u => Some u end
                        | EStop _ _ => None
                        | _ => o
                        end) tr None.

Lemma opened_snoc tr e : opened (tr ++ [e]) =
  match e with
  | EOut t _ => match opened tr with None => Some t | Some u => Some u end
  | EStop _ _ => None
  | _ => opened tr
  end.
Proof. unfold opened. rewrite fold_left_app. reflexivity. Qed.

Lemma opened_fails tr q : opened (tr ++ map (fun p => EFail (fst p) (snd p)) q) = opened tr.
Proof.
  revert tr. induction q as [|p q IH]; intros tr; cbn; [rewrite app_nil_r; auto|].
  replace (tr ++ EFail (fst p) (snd p) :: map (fun p => EFail (fst p) (snd p)) q)
    with ((tr ++ [EFail (fst p) (snd p)]) ++ map (fun p => EFail (fst p) (snd p)) q) by (rewrite <- app_assoc; reflexivity).
  rewrite IH, opened_snoc. reflexivity.
Qed.

Lemma running_opened acts tr s : exec acts tr s -> running s = opened tr.
Proof.
  intros H. induction H as [|acts tr s a s' ev H IH E]; [reflexivity|].
  destruct a; step_cases E; rewrite ?app_nil_r, ?opened_snoc, ?opened_fails; auto; rewrite <- IH; auto; rewrite Q1 || rewrite Q3; auto.
Qed.

(** Every command handed out belongs to the open transaction, if there is one. *)
Definition outs_ok (tr : list event) : Prop :=
  forall a t c b, tr = a ++ EOut t c :: b -> opened a = None \/ opened a = Some t.

Lemma snoc_inv {A} (tr : list A) e a x b : tr ++ [e] = a ++ x :: b ->
  (b = [] /\ e = x /\ tr = a) \/ (exists b', b = b' ++ [e] /\ tr = a ++ x :: b').
Proof.
  intros H. destruct b as [|y b] using rev_ind.
  - left. apply app_inj_tail in H. destruct H; auto.
  - right. clear IHb. exists b. rewrite app_comm_cons, app_assoc in H. apply app_inj_tail in H. destruct H as [-> ->].
    auto.
Qed.

Lemma outs_ok_snoc tr e : outs_ok tr -> (forall t c, e = EOut t c -> opened tr = None \/ opened tr = Some t) -> outs_ok (tr ++ [e]).
Proof.
  intros H1 H2 a t c b E. apply snoc_inv in E. destruct E as [(-> & -> & ->)|(b' & -> & E)]; eauto.
Qed.

Lemma outs_ok_fails tr q : outs_ok tr -> outs_ok (tr ++ map (fun p => EFail (fst p) (snd p)) q).
Proof.
  revert tr. induction q as [|p q IH]; intros tr H; cbn; [rewrite app_nil_r; auto|].
  replace (tr ++ EFail (fst p) (snd p) :: map (fun p => EFail (fst p) (snd p)) q)
    with ((tr ++ [EFail (fst p) (snd p)]) ++ map (fun p => EFail (fst p) (snd p)) q) by (rewrite <- app_assoc; reflexivity).
  apply IH. apply outs_ok_snoc; auto. intros; discriminate.
Qed.

Lemma exec_closed_empty acts tr s : exec acts tr s -> closed s = true -> queue s = [].
Proof.
  intros H. induction H as [|acts tr s a s' ev H IH E]; [discriminate|].
  destruct a; step_cases E; auto; try congruence; intros Hc; try congruence; try (rewrite Q in *; auto; fail);
    discriminate (IH Hc).
Qed.

Lemma exec_outs_ok acts tr s : exec acts tr s -> outs_ok tr.
Proof.
  intros H. induction H as [|acts tr s a s' ev H IH E].
  { intros a t c b E. destruct a; discriminate. }
  assert (D : (exists e, ev = [e] /\ forall t c, e = EOut t c -> opened tr = None \/ opened tr = Some t) \/
              exists q, ev = map (fun p => EFail (fst p) (snd p)) q).
  { destruct a; try (right; exists []; step_cases E; reflexivity);
      try (left; step_cases E; (eexists; split; [reflexivity|intros; discriminate])).
    - destruct (pop_ready s) eqn:Hp; [|cbn [step] in E; rewrite Hp in E; destruct (wrk s); discriminate].
      destruct (queue s) as [|[t c] q] eqn:Hq.
      + right. exists []. cbn [step] in E. rewrite Hp, Hq in E. destruct (wrk s); try discriminate. injection E as _ <-. reflexivity.
      + left. exists (EOut t c). split.
        { cbn [step] in E. rewrite Hp, Hq in E. destruct (wrk s); try discriminate. injection E as _ <-. reflexivity. }
        intros t' c' [= <- <-]. rewrite <- (running_opened acts tr s H). unfold pop_ready in Hp. rewrite Hq in Hp.
        destruct (closed s) eqn:Hcl; [rewrite (exec_closed_empty acts tr s H Hcl) in Hq; discriminate|].
        destruct (running s) as [u|]; auto. apply Nat.eqb_eq in Hp. subst; auto.
    - right. exists (queue s). step_cases E. reflexivity. }
  destruct D as [(e & -> & He)|(q & ->)]; [apply outs_ok_snoc; auto|apply outs_ok_fails; auto].
Qed.

Lemma well_closed_prefix a b : well_closed (a ++ b) -> well_closed a.
Proof.
  intros H x y t k ->. apply (H x (y ++ b) t k). rewrite <- app_assoc. reflexivity.
Qed.

Lemma outs_ok_prefix a b : outs_ok (a ++ b) -> outs_ok a.
Proof. intros H x t c y ->. apply (H x t c (y ++ b)). rewrite <- app_assoc. reflexivity. Qed.

(** A transaction that was handed out and not closed since is the open one. *)
Lemma unclosed_opened p : outs_ok p -> well_closed p -> forall u a1 c a2,
  p = a1 ++ EOut u c :: a2 -> (forall k, ~ In (EStop u k) a2) -> opened p = Some u.
Proof.
  induction p as [|e p IH] using rev_ind; intros Ho Hw u a1 c a2 E Hn; [destruct a1; discriminate|].
  specialize (IH (outs_ok_prefix _ _ Ho) (well_closed_prefix _ _ Hw)).
  rewrite opened_snoc. apply snoc_inv in E. destruct E as [(-> & -> & ->)|(a2' & -> & E)].
  - destruct (Ho a1 u c [] eq_refl) as [->| ->]; reflexivity.
  - assert (Hu : opened p = Some u).
    { eapply IH; [exact E|]. intros k Hk. apply (Hn k). apply in_or_app; auto. }
    destruct e; try rewrite Hu; auto.
    exfalso. destruct (Hw p [] t commit eq_refl) as (b1 & c' & b2 & Eb & Hb).
    assert (opened p = Some t) by (eapply IH; eauto).
    assert (t = u) by congruence. subst t. apply (Hn commit). apply in_or_app. cbn. auto.
Qed.

(** Once a command of a transaction is handed out, only its commands are handed out until it is closed (the clients
    close only transactions that have begun). *)
Theorem C25_isolation : forall acts tr s, exec acts tr s -> well_closed tr ->
  forall a t c b t' c' d, tr = a ++ EOut t c :: b ++ EOut t' c' :: d ->
  (forall k, ~ In (EStop t k) b) -> t' = t.
Proof.
  intros acts tr s H Hw a t c b t' c' d E Hn. pose proof (exec_outs_ok acts tr s H) as Ho.
  rewrite E in *.
  assert (Hop : opened (a ++ EOut t c :: b) = Some t).
  { apply (unclosed_opened (a ++ EOut t c :: b)) with (a1 := a) (c := c) (a2 := b); auto.
    - apply (outs_ok_prefix _ (EOut t' c' :: d)). rewrite <- app_assoc. exact Ho.
    - apply (well_closed_prefix _ (EOut t' c' :: d)). rewrite <- app_assoc. exact Hw. }
  destruct (Ho (a ++ EOut t c :: b) t' c' d) as [H'|H'].
  - rewrite <- app_assoc. reflexivity.
  - congruence.
  - congruence.
Qed.

(** At most one command executes at a time, and completions come in the order of the hand-outs. *)
Theorem C25_one_at_a_time : forall acts tr s, exec acts tr s ->
  length (handed_out tr) <= S (length (completed tr)) /\ exists r, handed_out tr = completed tr ++ r.
Proof.
  intros acts tr s H. destruct (C25_no_loss acts tr s H) as [_ ->]. split; [|eauto].
  rewrite app_length. unfold executing. destruct (wrk s); cbn; lia.
Qed.

(** *** Close *)

(** [close] fails every queued command at once ... *)
Theorem C25_close_fails_queued : forall s, exists s' ev, step s AClose = Some (s', ev) /\
  failed ev = queue s /\ queue s' = [] /\ closed s' = true.
Proof. intros s. eexists. eexists. split; [reflexivity|]. cbn. rewrite failed_map. auto. Qed.

(** ... and afterwards nothing is accepted or handed out any more. *)
Theorem C25_closed_forever : forall acts0 tr0 s acts tr s', exec acts0 tr0 s -> closed s = true -> steps s acts tr s' ->
  closed s' = true /\ queue s' = [] /\ pushed tr = [] /\ handed_out tr = [] /\ failed tr = [].
Proof.
  intros acts0 tr0 s acts tr s' H0 Hc H. pose proof (exec_closed_empty _ _ _ H0 Hc) as Hq.
  induction H as [|acts tr s1 a s1' ev H IH E]; [auto|].
  destruct IH as (I1 & I2 & I3 & I4 & I5).
  destruct a; step_cases E; trapp; cbn; rewrite ?app_nil_r in *; auto; try congruence.
  - cbn. rewrite I2. cbn. rewrite ?app_nil_r. auto 10.
Qed.

(** *** Wake-ups *)

(** There is something for the worker to do: the scheduler is closed, or no transaction is open or the open one issued the first command. *)
Definition can_proceed (s : state) : Prop :=
  closed s = true \/ exists t c q, queue s = (t, c) :: q /\ (running s = None \/ running s = Some t).
Lemma pop_ready_spec s : pop_ready s = true <-> can_proceed s.
Proof.
  unfold pop_ready, can_proceed. destruct (closed s); [tauto|]. destruct (queue s) as [|[t c] q].
  - split; [discriminate|]. intros [|(t & c & q & E & _)]; discriminate.
  - destruct (running s) as [u|].
    + rewrite Nat.eqb_eq. split; [intros ->; right; exists u, c, q; auto|]. intros [|(t' & c' & q' & E & [|R])]; congruence.
    + split; [intros _; right; exists t, c, q; auto|reflexivity].
Qed.
(** The worker never sleeps through a command it could execute: if it sleeps although there is something to do, a
    notification is on its way, and its delivery wakes the worker. *)
Theorem C25_no_lost_wakeup : forall acts tr s, exec acts tr s -> wrk s = Asleep -> can_proceed s ->
  pending s > 0 /\ exists s' ev, step s ANotify = Some (s', ev) /\ wrk s' = Ready /\ can_proceed s'.
Proof.
  intros acts tr s H Hw Hp. rewrite <- pop_ready_spec in Hp. assert (P : pending s > 0).
  { induction H as [|acts tr s a s' ev H IH E]; [discriminate|].
    destruct a; step_cases E; auto; try lia; try discriminate; try congruence.
    unfold pop_ready in *. cbn in *. congruence. }
  split; [auto|]. cbn. destruct (pending s) as [|p]; [lia|]. rewrite Hw. eexists. eexists. split; [reflexivity|].
  split; [reflexivity|]. rewrite <- pop_ready_spec. exact Hp.
Qed.

(** The worker can take the first command whenever no transaction is open or the open one issued it; it goes to sleep exactly if there
    is nothing to do, and terminates when the scheduler is closed. *)
Theorem C25_progress : forall s t c q, wrk s = Ready -> queue s = (t, c) :: q -> running s = None \/ running s = Some t ->
  exists s', step s APop = Some (s', [EOut t c]) /\ wrk s' = Busy t c /\ queue s' = q /\ running s' = Some t.
Proof.
  intros s t c q Hw Hq Hr. cbn. rewrite Hw. unfold pop_ready. rewrite Hq.
  assert ((if closed s then true else match running s with Some u => t =? u | None => true end) = true) as ->.
  { destruct (closed s); auto. destruct Hr as [->| ->]; auto. apply Nat.eqb_refl. }
  eexists. split; [reflexivity|]. cbn. destruct Hr as [->| ->]; auto.
Qed.
Theorem C25_sleeps_only_without_work : forall s, wrk s = Ready ->
  (can_proceed s -> step s AWait = None) /\ (~ can_proceed s -> step s APop = None /\ exists s', step s AWait = Some (s', []) /\ wrk s' = Asleep).
Proof.
  intros s Hw. rewrite <- pop_ready_spec. cbn. rewrite Hw. destruct (pop_ready s); [split; [reflexivity|intros []; reflexivity]|]. split; [discriminate|]. intros _. split; [reflexivity|]. eexists. split; reflexivity.
Qed.
Theorem C25_termination : forall acts tr s, exec acts tr s -> closed s = true -> wrk s = Ready -> exists s', step s APop = Some (s', []) /\ wrk s' = Terminated.
Proof.
  intros acts tr s H Hc Hw. pose proof (exec_closed_empty _ _ _ H Hc) as Hq. cbn. rewrite Hw. unfold pop_ready. rewrite Hc, Hq. eexists. split; reflexivity.
Qed.
(** A command is accepted exactly if the scheduler is not closed; ending a transaction lets any other one proceed. *)
Theorem C25_accepts : forall s t c b, exists s', step s (APush t c b) = Some (s', [if closed s then EReject t c else EPush t c]) /\ Permutation (queue s') ((if closed s then [] else [(t, c)]) ++ queue s).
Proof.
  intros s t c b. cbn [step]. destruct (closed s); (eexists; split; [reflexivity|]); [reflexivity|]. cbn [queue]. unfold enqueue.
  destruct (_ && _); [reflexivity|]. destruct (_ =? _); [apply Permutation_app_comm|].
  assert (P : forall k (q : list (tx * cmd)) x, Permutation (firstn k q ++ x :: skipn k q) (x :: q)) by (intros k q x; rewrite <- (firstn_skipn k q) at 3; symmetry; apply Permutation_middle).
  apply P.
Qed.
Theorem C25_end_of_transaction : forall s t k, exists s', step s (AStop t k) = Some (s', [EStop t k]) /\ queue s' = queue s /\ rows s' = rows s /\ (queue s <> [] -> can_proceed s').
Proof.
  intros s t k. eexists. split; [reflexivity|]. split; [reflexivity|]. split; [reflexivity|]. intros Hq. right. cbn [queue running]. destruct (queue s) as [|[t' c'] q]; [contradiction|]. exists t', c', q. auto.
Qed.
(** A command handed out is executed, and its future is fulfilled: with false exactly for commands that fail semantic analysis. *)
Theorem C25_execution : forall s t c, wrk s = Busy t c -> exists s' ts ok r, step s AExecute = Some (s', [EDone t c ts ok r]) /\
  (ok = false <-> exists i, c = Invalid i) /\ ts = start s t /\ queue s' = queue s /\ running s' = running s /\ (closed s = false -> wrk s' = Ready).
Proof.
  intros s t c Hw. cbn. rewrite Hw. destruct c as [i|i vs|i]; do 4 eexists; (split; [reflexivity|]); (split; [split; [try discriminate; eauto|intros [k Hk]; congruence]|]); repeat (split; [reflexivity|]); intros Hc; cbn; rewrite Hc; reflexivity.
Qed.

(** ** C25: counterexamples *)

(** [push] on a non-empty queue dereferences [rend()]; if the memory there happens to compare equal to the
    transaction, commands overtake each other, even two commands of the same transaction. *)
Theorem C25_refuted_order_after_undefined_behaviour : exists acts tr s c1 c2 c3,
  exec acts tr s /\ pushed tr = [(1, c1); (1, c2); (1, c3)] /\ handed_out tr = [(1, c1); (1, c3); (1, c2)].
Proof.
  exists [APush 1 (Query 1) false; APush 1 (Query 2) false; APop; APush 1 (Query 3) true; AExecute; APop; AExecute; APop].
  eexists. eexists. exists (Query 1), (Query 2), (Query 3). split.
  - apply (run_actions_steps _ init [] [] init); [constructor|]. cbv. reflexivity.
  - split; reflexivity.
Qed.

(** Otherwise commands of the open transaction go to the end of the queue: with another transaction's command before them
    they are never executed -- unless the open transaction is closed without waiting for them. *)
Theorem C25_refuted_open_transaction_starves : exists acts tr s,
  exec acts tr s /\ running s = Some 1 /\ In (1, Query 3) (queue s) /\
  forall acts' tr' s', steps s acts' tr' s' ->
    (forall a, In a acts' -> match a with AStop _ _ | AClose | APush _ _ true => False | _ => True end) ->
    handed_out tr' = [] /\ In (1, Query 3) (queue s').
Proof.
  set (acts := [APush 1 (Query 1) false; APop; AExecute; APush 2 (Query 2) false; APush 1 (Query 3) false]).
  destruct (run_actions init [] acts) as [[s tr]|] eqn:E; [|vm_compute in E; discriminate].
  exists acts, tr, s. split; [apply (run_actions_steps acts init [] [] init s tr); [constructor|exact E]|].
  unfold acts in E. cbn in E. injection E as <- <-. split; [reflexivity|]. split; [cbn; auto|].
  intros acts' tr' s' H Hok.
  assert (G : handed_out tr' = [] /\ running s' = Some 1 /\ closed s' = false /\ exists q, queue s' = (2, Query 2) :: q /\ In (1, Query 3) q).
  { induction H as [|acts' tr' s a s' ev H IH E]; [cbn; repeat split; eexists; split; [reflexivity|cbn; auto]|].
    destruct IH as (I1 & I2 & I3 & q & I4 & I5).
    { intros b Hb. apply Hok. apply in_or_app; auto. }
    assert (Ha := Hok a ltac:(apply in_or_app; cbn; auto)). clear Hok H.
    destruct a; try tauto.
    - destruct sentinel; [tauto|]. cbn [step] in E. rewrite I3 in E. injection E as <- <-. trapp. rewrite I1.
      cbn [running closed queue]. rewrite enqueue_back, I4. split; [reflexivity|]. split; [auto|]. split; [auto|].
      exists (q ++ [(t, c)]). split; [reflexivity|]. apply in_or_app; auto.
    - step_cases E; rewrite app_nil_r; eauto 10.
    - step_cases E; rewrite app_nil_r; eauto 10.
    - step_cases E; rewrite app_nil_r; eauto 10.
    - exfalso. cbn [step] in E. unfold pop_ready in E. rewrite I3, I4, I2 in E. cbn in E. destruct (wrk s); discriminate.
    - step_cases E; trapp; rewrite I1; cbn; eauto 10. }
  destruct G as (G1 & _ & _ & q & -> & Hq). split; [auto|]. right; auto.
Qed.

(** Closing a transaction that never ran a command ends the isolation of the running one: the second transaction reads
    what the first one, still open, has inserted. *)
Theorem C25_refuted_close_of_idle_transaction : exists acts tr s,
  exec acts tr s /\
  tr = [EPush 1 (Insert 1 [7%Z]); EOut 1 (Insert 1 [7%Z]); EDone 1 (Insert 1 [7%Z]) 0%Z true []; EStop 3 true;
        EPush 2 (Query 2); EOut 2 (Query 2); EDone 2 (Query 2) 1%Z true [7%Z]].
Proof.
  exists [APush 1 (Insert 1 [7%Z]) false; APop; AExecute; AStop 3 true; APush 2 (Query 2) false; APop; AExecute].
  eexists. eexists. split; [|reflexivity].
  apply (run_actions_steps _ init [] [] init); [constructor|]. cbv. reflexivity.
Qed.

(** ** C26 *)

Definition has_start (s : state) (t : tx) : Prop := start s t <> (-1)%Z.

(** The start times: assigned once, from 0 on, different for different transactions. *)
Record starts_ok (tr : list event) (s : state) : Prop := {
  so_next : (0 <= next_start_time s)%Z;
  so_range : forall t, start s t = (-1)%Z \/ (0 <= start s t < next_start_time s)%Z;
  so_inj : forall t u, has_start s t -> start s t = start s u -> t = u;
  so_busy : forall t c, wrk s = Busy t c -> has_start s t;
  so_out : forall t c, In (EOut t c) tr -> has_start s t;
  so_started : forall t, has_start s t -> exists c, In (EOut t c) tr;
  so_done : forall t c ts ok r, In (EDone t c ts ok r) tr -> start s t = ts /\ has_start s t;
  so_order : forall a t c b, tr = a ++ EOut t c :: b -> (forall c', ~ In (EOut t c') a) ->
               forall t' c' ts ok r, In (EDone t' c' ts ok r) a -> (ts < start s t)%Z;
  so_rows : rows s = flat_map (fun e => match e with
                                        | EDone _ (Insert _ vs) ts _ _ => map (fun v => mkRow ts (-1)%Z v) vs
                                        | _ => []
                                        end) tr
}.

Lemma starts_same tr s s' ev :
  starts_ok tr s -> start s' = start s -> next_start_time s' = next_start_time s -> rows s' = rows s ->
  (forall t c, wrk s' = Busy t c -> wrk s = Busy t c) ->
  (forall e, In e ev -> match e with EOut _ _ => False | EDone _ _ _ _ _ => False | _ => True end) ->
  starts_ok (tr ++ ev) s'.
Proof.
  intros [] E1 E2 E3 E4 E5.
  assert (F : forall t c, ~ In (EOut t c) ev) by (intros t c Hi; exact (E5 _ Hi)).
  assert (G : forall t c ts ok r, ~ In (EDone t c ts ok r) ev) by (intros t c ts ok r Hi; exact (E5 _ Hi)).
  constructor; unfold has_start in *; rewrite ?E1, ?E2, ?E3; auto.
  - intros t c Hb. eauto.
  - intros t c Hi. apply in_app_iff in Hi. destruct Hi as [|Hi]; [eauto|elim (F _ _ Hi)].
  - intros t Ht. destruct (so_started0 t Ht) as [c Hc]. exists c. apply in_or_app; auto.
  - intros t c ts ok r Hi. apply in_app_iff in Hi. destruct Hi as [|Hi]; [eauto|elim (G _ _ _ _ _ Hi)].
  - intros a t c b E Hn t' c' ts ok r Hi.
    assert (exists b', tr = a ++ EOut t c :: b') as [b' Eb].
    { clear - E F. revert b E. induction ev as [|e ev IH] using rev_ind; intros b E.
      - rewrite app_nil_r in E. eauto.
      - rewrite app_assoc in E. apply snoc_inv in E. destruct E as [(_ & -> & _)|(b' & _ & E)].
        + elim (F t c). apply in_or_app. cbn; auto.
        + apply (IH) with (b := b'); auto. intros t0 c0 Hi. apply (F t0 c0). apply in_or_app; auto. }
    eapply so_order0; eauto.
  - rewrite flat_map_app, <- so_rows0.
    assert (flat_map (fun e => match e with EDone _ (Insert _ vs) ts _ _ => map (fun v => mkRow ts (-1)%Z v) vs | _ => [] end) ev = []) as ->.
    { clear - E5. induction ev as [|e ev IH]; auto. cbn [flat_map]. rewrite IH by (intros x Hx; apply E5; cbn; auto).
      specialize (E5 e (or_introl eq_refl)). destruct e; cbn; tauto. }
    rewrite app_nil_r. reflexivity.
Qed.

Lemma map_fail_no q e : In e (map (fun p => EFail (fst p) (snd p)) q) ->
  match e with EOut _ _ => False | EDone _ _ _ _ _ => False | _ => True end.
Proof. intros H. apply in_map_iff in H. destruct H as (p & <- & _). exact I. Qed.

Lemma exec_starts_ok acts tr s : exec acts tr s -> starts_ok tr s.
Proof.
  intros H. induction H as [|acts tr s a s' ev H IH E].
  { constructor; cbn; try tauto; try lia; auto; try (intros; discriminate).
    - intros t u Ht. elim Ht. reflexivity.
    - intros t Ht. elim Ht. reflexivity.
    - intros a t c b Ea. destruct a; discriminate. }
  destruct a.
  - step_cases E; (eapply starts_same; [eauto|reflexivity..| |]); cbn; auto; intros e [<-|[]]; exact I.
  - step_cases E; (eapply starts_same; [eauto|reflexivity..| |]); cbn; auto; try congruence; intros e [].
  - step_cases E; (eapply starts_same; [eauto|reflexivity..| |]); cbn; auto; try congruence; intros e [].
  - step_cases E; (eapply starts_same; [eauto|reflexivity..| |]); cbn; auto; try congruence; intros e [].
  - (* pop *)
    destruct (wrk s) eqn:Hw; try (cbn in E; rewrite Hw in E; discriminate).
    destruct (pop_ready s) eqn:Hp; [|cbn in E; rewrite Hw, Hp in E; discriminate].
    cbn [step] in E. rewrite Hw, Hp in E. destruct (queue s) as [|[t c] q].
    { injection E as <- <-. eapply starts_same; [eauto|reflexivity..| |]; cbn; try congruence. intros e []. }
    injection E as <- <-. unfold assign_start.
    destruct IH. unfold has_start in *.
    destruct (Z.eqb_spec (start s t) (-1)%Z) as [Hs|Hs]; constructor; unfold has_start;
      cbn [fst snd start next_start_time wrk rows queue running].
    + lia.
    + intros u. destruct (Nat.eqb_spec u t) as [->|Hu]; [right; lia|]. destruct (so_range0 u); [auto|right; lia].
    + intros u v. destruct (Nat.eqb_spec u t) as [->|Hu], (Nat.eqb_spec v t) as [->|Hv]; auto.
      * intros _ Ev. destruct (so_range0 v); lia.
      * intros _ Ev. destruct (so_range0 u); lia.
    + intros u c' [= <- <-]. rewrite Nat.eqb_refl. lia.
    + intros u c' Hi. apply in_app_iff in Hi. destruct (Nat.eqb_spec u t) as [->|Hu]; [lia|].
      destruct Hi as [Hi|[[= <- <-]|[]]]; [eauto|congruence].
    + intros u. destruct (Nat.eqb_spec u t) as [->|Hne]; intros Hu.
      * exists c. apply in_or_app. cbn; auto.
      * destruct (so_started0 u Hu) as [c' Hc']. exists c'. apply in_or_app; auto.
    + intros u c' ts ok r Hi. apply in_app_iff in Hi. destruct Hi as [Hi|[[=]|[]]].
      destruct (so_done0 _ _ _ _ _ Hi) as [Hst Hne]. destruct (Nat.eqb_spec u t) as [->|Hu]; [congruence|auto].
    + intros a u c' b E Hn t' c'' ts ok r Hi. apply snoc_inv in E. destruct E as [(-> & [= -> ->] & ->)|(b' & -> & E)].
      * rewrite Nat.eqb_refl. destruct (so_done0 _ _ _ _ _ Hi) as [<- Hne]. destruct (so_range0 t'); [congruence|lia].
      * assert (Hin : In (EOut u c') tr) by (rewrite E; apply in_or_app; cbn; auto).
        destruct (Nat.eqb_spec u t) as [->|Hu]; [elim (so_out0 t c' Hin); auto|]. eapply so_order0; eauto.
    + rewrite so_rows0, flat_map_app. cbn. rewrite app_nil_r. reflexivity.
    + lia.
    + auto.
    + auto.
    + intros u c' [= <- <-]. auto.
    + intros u c' Hi. apply in_app_iff in Hi. destruct Hi as [Hi|[[= <- <-]|[]]]; eauto.
    + intros u Hu. destruct (so_started0 u Hu) as [c' Hc']. exists c'. apply in_or_app; auto.
    + intros u c' ts ok r Hi. apply in_app_iff in Hi. destruct Hi as [Hi|[[=]|[]]]. eauto.
    + intros a u c' b E Hn t' c'' ts ok r Hi. apply snoc_inv in E. destruct E as [(-> & [= -> ->] & ->)|(b' & -> & E)].
      * exfalso. destruct (so_started0 u Hs) as [c1 Hc1]. apply (Hn c1 Hc1).
      * eapply so_order0; eauto.
    + rewrite so_rows0, flat_map_app. cbn. rewrite app_nil_r. reflexivity.
  - (* execute *)
    destruct (wrk s) as [| |t c|] eqn:Hw; try (cbn in E; rewrite Hw in E; discriminate).
    assert (Ht : start s t <> (-1)%Z) by (eapply so_busy; eauto).
    assert (Ev : exists w ok r, ev = [EDone t c (start s t) ok r] /\ w <> Busy t c /\ (forall t c, w <> Busy t c) /\
              s' = mkState (queue s) (running s) (closed s) w (pending s) (start s) (next_start_time s)
                     (rows s ++ match c with Insert _ vs => map (fun v => mkRow (start s t) (-1)%Z v) vs | _ => [] end)).
    { exists (if closed s then Terminated else Ready). cbn [step] in E. rewrite Hw in E.
      destruct c; injection E as <- <-; eexists; eexists; (split; [reflexivity|]); rewrite ?app_nil_r;
        (split; [destruct (closed s); discriminate|]); (split; [destruct (closed s); intros; discriminate|reflexivity]). }
    destruct Ev as (w & ok & r & -> & _ & Hwn & ->). clear E. destruct IH. unfold has_start in *.
    constructor; unfold has_start; cbn [start next_start_time wrk rows]; auto.
    + intros u c' Hb. elim (Hwn u c' Hb).
    + intros u c' Hi. apply in_app_iff in Hi. destruct Hi as [Hi|[[=]|[]]]. eauto.
    + intros u Hu. destruct (so_started0 u Hu) as [c' Hc']. exists c'. apply in_or_app; auto.
    + intros u c' ts ok' r' Hi. apply in_app_iff in Hi. destruct Hi as [Hi|[[= -> -> <- -> ->]|[]]]; eauto.
    + intros a u c' b E Hn t' c'' ts ok' r' Hi. apply snoc_inv in E. destruct E as [(-> & [=] & ->)|(b' & -> & E)].
      eapply so_order0; eauto.
    + rewrite so_rows0, flat_map_app. f_equal. cbn. destruct c; rewrite ?app_nil_r; reflexivity.
  - step_cases E; (eapply starts_same; [eauto|reflexivity..| |]); cbn; auto. intros e. apply map_fail_no.
  - step_cases E; (eapply starts_same; [eauto|reflexivity..| |]); cbn; auto; intros e [<-|[]]; exact I.
Qed.

(** Start times are non-negative, the same for all commands of a transaction and different for different transactions;
    a transaction that begins later has the larger one. *)
Theorem C26_start_times : forall acts tr s, exec acts tr s ->
  (forall t c ts ok r, In (EDone t c ts ok r) tr -> (0 <= ts)%Z) /\
  (forall t c ts ok r t' c' ts' ok' r', In (EDone t c ts ok r) tr -> In (EDone t' c' ts' ok' r') tr -> (ts = ts' <-> t = t')) /\
  (forall a b t c ts ok r t' c' ts' ok' r', tr = a ++ b -> In (EDone t c ts ok r) a ->
     (forall x, ~ In (EOut t' x) a) -> In (EDone t' c' ts' ok' r') b -> (ts < ts')%Z).
Proof.
  intros acts tr s H. destruct (exec_starts_ok acts tr s H). split; [|split].
  - intros t c ts ok r Hi. destruct (so_done0 _ _ _ _ _ Hi) as [<- Hne]. destruct (so_range0 t); [congruence|lia].
  - intros t c ts ok r t' c' ts' ok' r' H1 H2. destruct (so_done0 _ _ _ _ _ H1) as [<- Hn1], (so_done0 _ _ _ _ _ H2) as [<- Hn2].
    split; [|congruence]. intros E. apply so_inj0; auto.
  - intros a b t c ts ok r t' c' ts' ok' r' -> Hi Hn Hi'.
    destruct (so_done0 t' c' ts' ok' r') as [<- Hs]; [apply in_or_app; auto|].
    destruct (so_started0 t' Hs) as [x Hx]. apply in_app_iff in Hx. destruct Hx as [Hx|Hx]; [elim (Hn x Hx)|].
    assert (exists b1 y b2, b = b1 ++ EOut t' y :: b2 /\ forall z, ~ In (EOut t' z) b1) as (b1 & y & b2 & -> & Hb).
    { clear - Hx. induction b as [|e b IH]; [destruct Hx|].
      assert (D : (exists y, e = EOut t' y) \/ forall y, e <> EOut t' y).
      { destruct e; try (right; intros; discriminate). destruct (Nat.eq_dec t t') as [->|]; [left; eauto|right; congruence]. }
      destruct D as [[y ->]|D].
      - exists [], y, b. split; [reflexivity|]. intros z [].
      - destruct Hx as [Hx|Hx]; [elim (D x); auto|]. destruct (IH Hx) as (b1 & y & b2 & -> & Hb).
        exists (e :: b1), y, b2. split; [reflexivity|]. intros z [Hz|Hz]; [elim (D z); auto|elim (Hb z Hz)]. }
    eapply (so_order0 (a ++ b1)); [rewrite <- app_assoc; reflexivity| |apply in_or_app; left; exact Hi].
    intros z Hz. apply in_app_iff in Hz. destruct Hz as [Hz|Hz]; [elim (Hn z Hz)|elim (Hb z Hz)].
Qed.

(** *** Snapshots *)

(** A query sees exactly the rows that were inserted before it by transactions that started no later. *)
Theorem C26_snapshot : forall acts tr s, exec acts tr s ->
  forall a t i ts ok r b, tr = a ++ EDone t (Query i) ts ok r :: b -> ok = true /\ r = inserted (fun ts' => (ts' <=? ts)%Z) a.
Proof.
  intros acts tr s H. induction H as [|acts tr s a s' ev H IH E]; [intros a t i ts ok r b E; destruct a; discriminate|].
  assert (R := so_rows _ _ (exec_starts_ok acts tr s H)). assert (S := exec_starts_ok acts tr s H).
  intros a0 t i ts ok r b Et.
  assert (D : (forall e, In e ev -> forall t i ts ok r, e <> EDone t (Query i) ts ok r) \/
    exists t i, ev = [EDone t (Query i) (start s t) true (map value (filter (timestamp_filter (start s t)) (rows s)))] /\ wrk s = Busy t (Query i)).
  { destruct a; step_cases E;
      try (left; intros e He; cbn in He; repeat destruct He as [<-|He]; try destruct He; intros; discriminate).
    all: try (right; eauto; fail).
    left. intros e He. apply map_fail_no in He. intros; destruct e; try discriminate; tauto. }
  destruct D as [D|(t0 & i0 & -> & Hb)].
  - assert (exists b', tr = a0 ++ EDone t (Query i) ts ok r :: b') as [b' Eb].
    { clear - Et D. revert b Et. induction ev as [|e ev IH] using rev_ind; intros b E.
      - rewrite app_nil_r in E. eauto.
      - rewrite app_assoc in E. apply snoc_inv in E. destruct E as [(_ & -> & _)|(b' & _ & E)].
        + elim (D (EDone t (Query i) ts ok r)) with (t := t) (i := i) (ts := ts) (ok := ok) (r := r); auto.
          apply in_or_app. cbn; auto.
        + apply (IH) with (b := b'); auto. intros e0 Hi. apply (D e0). apply in_or_app; auto. }
    eapply IH; eauto.
  - apply snoc_inv in Et. destruct Et as [(-> & [= -> -> <- <- <-] & ->)|(b' & -> & Et)]; [|eapply IH; eauto].
    split; [reflexivity|]. rewrite R. generalize (start s t) as T. intros T. clear. unfold inserted.
    rename a0 into l. induction l as [|e l IH]; cbn [flat_map]; [reflexivity|].
    rewrite filter_app, map_app, IH. f_equal. destruct e; try reflexivity. destruct c; try reflexivity.
    clear. induction vs as [|v vs IH]; cbn; [destruct (_ <=? _)%Z; reflexivity|].
    unfold timestamp_filter at 1. cbn [ts_begin ts_end]. rewrite Z.eqb_refl, orb_true_r, andb_true_r.
    destruct (ts <=? T)%Z; cbn [map value]; rewrite IH; reflexivity.
Qed.

(** Row versions in general: with [deleted = None] for a row that was not deleted ($ts_end = -1), the filter passes
    exactly the versions created at or before the start and not deleted at or before the start. *)
Theorem C26_row_version_visible : forall tst created deleted v, (forall d, deleted = Some d -> (0 <= d)%Z) ->
  timestamp_filter tst (mkRow created (match deleted with None => -1 | Some d => d end)%Z v) = true <->
  (created <= tst)%Z /\ (forall d, deleted = Some d -> (tst < d)%Z).
Proof.
  intros tst cr del v Hd. unfold timestamp_filter. cbn. rewrite andb_true_iff, orb_true_iff, Z.leb_le, Z.eqb_eq, Z.gtb_lt.
  destruct del as [d|].
  - specialize (Hd d eq_refl). split.
    + intros [H1 H2]. split; [auto|]. intros d' [= <-]. lia.
    + intros [H1 H2]. split; [auto|]. left. auto.
  - split; [intros [H1 _]; split; [auto|discriminate]|]. intros [H1 _]. split; [auto|]. right; auto.
Qed.

(** If clients close only transactions that have begun and do not use them afterwards, every query sees all rows inserted
    before it: the schedule is serial. *)
Lemma serial_latest acts tr s : exec acts tr s -> well_closed tr -> not_reused tr ->
  (forall t, running s = Some t \/ (exists c, wrk s = Busy t c) -> start s t = (next_start_time s - 1)%Z).
Proof.
  intros H. induction H as [|acts tr s a s' ev H IH E]; intros Hw Hr t Ht.
  { destruct Ht as [Ht|[c Ht]]; discriminate. }
  assert (Hw' := well_closed_prefix _ _ Hw).
  assert (Hr' : not_reused tr).
  { intros x y u k c Ex Hi. apply (Hr x (y ++ ev) u k c); [rewrite Ex, <- app_assoc; reflexivity|]. apply in_or_app; auto. }
  specialize (IH Hw' Hr').
  destruct a.
  - step_cases E; apply IH; auto.
  - step_cases E; apply IH; auto; destruct Ht as [Ht|[c Ht]]; auto; try discriminate; right; exists c; congruence.
  - step_cases E; apply IH; auto; destruct Ht as [Ht|[c Ht]]; auto; discriminate.
  - step_cases E; apply IH; auto; destruct Ht as [Ht|[c Ht]]; auto; discriminate.
  - destruct (wrk s) eqn:Hwk; try (cbn in E; rewrite Hwk in E; discriminate).
    destruct (pop_ready s) eqn:Hp; [|cbn in E; rewrite Hwk, Hp in E; discriminate].
    cbn [step] in E. rewrite Hwk, Hp in E. destruct (queue s) as [|[u c] q] eqn:Hq.
    { injection E as <- <-. cbn in *. apply IH. destruct Ht as [Ht|[c Ht]]; [auto|discriminate]. }
    injection E as <- <-. cbn [running wrk start next_start_time] in *.
    assert (Hrun : running s = None \/ running s = Some u).
    { rewrite (running_opened acts tr s H). 
      apply (exec_outs_ok (acts ++ [APop]) (tr ++ [EOut u c])
               (mkState q (match running s with None => Some u | Some x => Some x end) (closed s) (Busy u c) (pending s)
                  (fst (assign_start s u)) (snd (assign_start s u)) (rows s))) with (c := c) (b := []); [|reflexivity].
      econstructor; [exact H|]. cbn. rewrite Hwk, Hp, Hq. reflexivity. }
    assert (t = u).
    { destruct Ht as [Ht|[c' Ht]]; [|congruence]. destruct Hrun as [Hrun|Hrun]; rewrite Hrun in Ht; congruence. }
    subst t. unfold assign_start. destruct (Z.eqb_spec (start s u) (-1)%Z) as [Hs|Hs]; cbn [fst snd].
    + rewrite Nat.eqb_refl. lia.
    + destruct Hrun as [Hrun|Hrun]; [exfalso|apply IH; auto].
      destruct (so_started _ _ (exec_starts_ok acts tr s H) u Hs) as [x Hx].
      apply in_split in Hx. destruct Hx as (l1 & l2 & El).
      rewrite (running_opened acts tr s H) in Hrun.
      assert (Dk : (exists k, In (EStop u k) l2) \/ forall k, ~ In (EStop u k) l2).
      { clear. induction l2 as [|e l IH]; [right; auto|]. destruct IH as [[k Hk]|IH]; [left; exists k; cbn; auto|].
        destruct e; try (right; intros k [Hk|Hk]; [discriminate|exact (IH k Hk)]).
        destruct (Nat.eq_dec t u) as [->|Hne]; [left; exists commit; cbn; auto|].
        right. intros k [Hk|Hk]; [congruence|exact (IH k Hk)]. }
      destruct Dk as [[k Hk]|Dk].
      * apply in_split in Hk. destruct Hk as (m1 & m2 & ->).
        apply (Hr (l1 ++ EOut u x :: m1) (m2 ++ [EOut u c]) u k c).
        { rewrite El, <- !app_assoc. cbn. rewrite <- app_assoc. reflexivity. }
        apply in_or_app. cbn; auto.
      * rewrite (unclosed_opened tr (exec_outs_ok acts tr s H) Hw' u l1 x l2 El Dk) in Hrun. discriminate.
  - assert (R : running s' = running s /\ start s' = start s /\ next_start_time s' = next_start_time s /\ forall t c, wrk s' <> Busy t c).
    { step_cases E; auto; repeat split; auto; destruct (closed s); discriminate. }
    destruct R as (R1 & R2 & R3 & R4). rewrite R2, R3. apply IH. destruct Ht as [Ht|[c Ht]]; [left; congruence|elim (R4 _ _ Ht)].
  - step_cases E; apply IH; auto.
  - step_cases E; apply IH; auto. destruct Ht as [Ht|Ht]; [discriminate|auto].
Qed.

Lemma not_reused_prefix a b : not_reused (a ++ b) -> not_reused a.
Proof.
  intros Hr x y u k c Ex Hi. apply (Hr x (y ++ b) u k c); [rewrite Ex, <- app_assoc; reflexivity|]. apply in_or_app; auto.
Qed.

Theorem C26_serial_sees_everything : forall acts tr s, exec acts tr s -> well_closed tr -> not_reused tr ->
  forall a t i ts ok r b, tr = a ++ EDone t (Query i) ts ok r :: b -> r = inserted (fun _ => true) a.
Proof.
  intros acts tr s H. induction H as [|acts tr s a s' ev H IH E]; [intros _ _ a t i ts ok r b E; destruct a; discriminate|].
  intros Hw Hr a0 t i ts ok r b Et.
  assert (Hsnap := C26_snapshot (acts ++ [a]) (tr ++ ev) s' ltac:(econstructor; eauto) a0 t i ts ok r b Et).
  destruct Hsnap as [_ ->].
  assert (Hle : forall t' c' ts' ok' r', In (EDone t' c' ts' ok' r') a0 -> (ts' <= ts)%Z); cycle 1.
  { unfold inserted. clear - Hle. induction a0 as [|e l IH]; [reflexivity|]. cbn [flat_map].
    rewrite IH by (intros t' c' ts' ok' r' Hi; apply (Hle t' c' ts' ok' r'); cbn; auto). f_equal.
    destruct e; auto. destruct c; auto. assert (ts0 <= ts)%Z by (eapply Hle; cbn; eauto).
    destruct (Z.leb_spec ts0 ts); [auto|lia]. }
  clear IH. revert ev E Hw Hr Et. intros ev E Hw Hr Et.
  (* the step in which the query completed *)
  assert (G : forall r acts tr s, exec acts tr s -> well_closed tr -> not_reused tr -> forall a0 b, tr = a0 ++ EDone t (Query i) ts ok r :: b ->
     forall t' c' ts' ok' r', In (EDone t' c' ts' ok' r') a0 -> (ts' <= ts)%Z).
  { clear. intros r acts tr s H. induction H as [|acts tr s a s' ev H IH E]; [intros _ _ a0 b E; destruct a0; discriminate|].
    intros Hw Hr a0 b Et t' c' ts' ok' r' Hi.
    assert (Hw' := well_closed_prefix _ _ Hw). assert (Hr' := not_reused_prefix _ _ Hr). specialize (IH Hw' Hr').
    assert (D : (exists b', tr = a0 ++ EDone t (Query i) ts ok r :: b') \/ (tr = a0 /\ ev = [EDone t (Query i) ts ok r])).
    { assert (Dn : (forall e, In e ev -> forall t i ts ok r, e <> EDone t i ts ok r) \/ exists e, ev = [e]).
      { destruct a; step_cases E; try (right; eauto; fail); try (left; intros e []; fail).
        left. intros e He. apply map_fail_no in He. intros; destruct e; try discriminate; tauto. }
      destruct Dn as [Dn|[e ->]].
      - left. clear - Et Dn. revert b Et. induction ev as [|e ev IH] using rev_ind; intros b E.
        + rewrite app_nil_r in E. eauto.
        + rewrite app_assoc in E. apply snoc_inv in E. destruct E as [(_ & -> & _)|(b' & _ & E)].
          * exfalso. eapply Dn; [apply in_or_app; right; left; reflexivity|reflexivity].
          * apply (IH) with (b := b'); auto. intros e0 Hi. apply (Dn e0). apply in_or_app; auto.
      - apply snoc_inv in Et. destruct Et as [(-> & -> & ->)|(b' & -> & Et)]; eauto. }
    destruct D as [[b' Eb]|[<- Ev]]; [eapply IH; eauto|].
    assert (Hb : wrk s = Busy t (Query i) /\ ts = start s t).
    { clear - E Ev. destruct a; step_cases E; try discriminate Ev;
        try (injection Ev; intros; subst; try discriminate; auto; fail).
      destruct (queue s) as [|? [|? ?]]; discriminate Ev. }
    destruct Hb as [Hb ->].
    destruct (exec_starts_ok acts tr s H). destruct (so_done0 _ _ _ _ _ Hi) as [<- Hs].
    rewrite (serial_latest acts tr s H Hw' Hr' t) by (right; eauto).
    destruct (so_range0 t'); [congruence|lia]. }
  intros t' c' ts' ok' r' Hi. eapply (G _ (acts ++ [a]) (tr ++ ev) s'); eauto. econstructor; eauto.
Qed.

(** ** C26: counterexample.  Aborting does not undo: rows inserted by an aborted transaction stay visible. *)
Theorem C26_refuted_abort : exists acts tr s, exec acts tr s /\ well_closed tr /\ not_reused tr /\
  tr = [EPush 1 (Insert 1 [7%Z]); EOut 1 (Insert 1 [7%Z]); EDone 1 (Insert 1 [7%Z]) 0%Z true []; EStop 1 false;
        EPush 2 (Query 2); EOut 2 (Query 2); EDone 2 (Query 2) 1%Z true [7%Z]].
Proof.
  exists [APush 1 (Insert 1 [7%Z]) false; APop; AExecute; AStop 1 false; APush 2 (Query 2) false; APop; AExecute].
  eexists. eexists. split.
  { apply (run_actions_steps _ init [] [] init); [constructor|]. cbv. reflexivity. }
  split; [|split; [|reflexivity]].
  - intros a b t k E. repeat (destruct a as [|? a]; [try discriminate E|cbn in E; injection E as <- E]).
    + injection E as <- <- <-. exists [EPush 1 (Insert 1 [7%Z])], (Insert 1 [7%Z]), [EDone 1 (Insert 1 [7%Z]) 0%Z true []].
      split; [reflexivity|]. intros k' [H|[]]; discriminate.
    + destruct a; discriminate.
  - intros a b t k c E Hi. repeat (destruct a as [|? a]; [try discriminate E|cbn in E; injection E as <- E]).
    + injection E as <- <- <-. cbn in Hi. repeat (destruct Hi as [Hi|Hi]; [discriminate|]). destruct Hi.
    + destruct a; discriminate.
Qed.
