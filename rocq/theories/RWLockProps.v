(** * C21, C22: the reader-writer lock *)
From Coq Require Import List Bool ZArith Lia.
From Verif Require Import RWLock.
Import ListNotations.
Local Open Scope Z_scope.

(** ** Counting threads by state *)
Definition b2z (b : bool) : Z := if b then 1 else 0.
Fixpoint cnt (p : ts -> bool) (l : list ts) : Z := match l with [] => 0 | x :: l' => b2z (p x) + cnt p l' end.
Lemma cnt_bounds p l : 0 <= cnt p l <= Z.of_nat (length l).
Proof. induction l as [|x l IH]; cbn [cnt length]; [lia|]. unfold b2z. destruct (p x); lia. Qed.
Lemma cnt_set p l i x y : nth_error l i = Some y -> cnt p (set_th l i x) = cnt p l - b2z (p y) + b2z (p x).
Proof.
  revert i. induction l as [|z l IH]; intros [|i] H; cbn [nth_error set_th cnt] in *; try discriminate.
  - injection H as ->. lia.
  - rewrite (IH i H). lia.
Qed.
Lemma nth_set l i j x y : nth_error l i = Some y -> nth_error (set_th l i x) j = if Nat.eqb j i then Some x else nth_error l j.
Proof.
  revert i j. induction l as [|z l IH]; intros [|i] [|j] H; cbn [nth_error set_th Nat.eqb] in *; try discriminate; try reflexivity.
  apply IH. exact H.
Qed.
Lemma length_set_th l i x : length (set_th l i x) = length l.
Proof. revert i. induction l as [|z l IH]; intros [|i]; cbn; auto. Qed.
Lemma cnt_pos p l i y : nth_error l i = Some y -> p y = true -> 1 <= cnt p l.
Proof.
  revert i. induction l as [|z l IH]; intros [|i] H Hp; cbn [nth_error cnt] in *; try discriminate.
  - injection H as ->. rewrite Hp. pose proof (cnt_bounds p l). cbn [b2z]. lia.
  - specialize (IH i H Hp). unfold b2z. destruct (p z); lia.
Qed.
Lemma cnt_two p l i j y z : nth_error l i = Some y -> p y = true -> nth_error l j = Some z -> p z = true -> i <> j -> 2 <= cnt p l.
Proof.
  revert i j. induction l as [|w l IH]; intros [|i] [|j] H1 P1 H2 P2 N; cbn [nth_error cnt] in *; try discriminate; try lia.
  - injection H1 as ->. rewrite P1. pose proof (cnt_pos p l j z H2 P2). cbn [b2z]. lia.
  - injection H2 as ->. rewrite P2. pose proof (cnt_pos p l i y H1 P1). cbn [b2z]. lia.
  - specialize (IH i j H1 P1 H2 P2 ltac:(lia)). unfold b2z. destruct (p w); lia.
Qed.
Lemma cnt_ex p l : 1 <= cnt p l -> exists i y, nth_error l i = Some y /\ p y = true.
Proof.
  induction l as [|x l IH]; cbn [cnt]; intros H; [lia|]. destruct (p x) eqn:E.
  - exists O, x. auto.
  - cbn [b2z] in H. destruct IH as [i [y [H1 H2]]]; [lia|]. exists (S i), y. auto.
Qed.
Lemma cnt_map p f l : cnt p (map f l) = cnt (fun x => p (f x)) l.
Proof. induction l as [|x l IH]; cbn [map cnt]; [reflexivity|]. rewrite IH. reflexivity. Qed.
Lemma cnt_ext p q l : (forall x, p x = q x) -> cnt p l = cnt q l.
Proof. intros H. induction l as [|x l IH]; cbn [cnt]; [reflexivity|]. rewrite H, IH. reflexivity. Qed.

Definition isIdle x := match x with Idle => true | _ => false end.
Definition isHoldR x := match x with HoldR => true | _ => false end.
Definition isHoldW x := match x with HoldW => true | _ => false end.
Definition isR x := match x with WaitR | WakeR => true | _ => false end.
Definition isW x := match x with WaitW | WakeW => true | _ => false end.
Definition isU x := match x with WaitU | WakeU => true | _ => false end.
Definition isWaitR x := match x with WaitR => true | _ => false end.
Definition isWaitW x := match x with WaitW => true | _ => false end.
Definition isWaitU x := match x with WaitU => true | _ => false end.
Definition isWakeW x := match x with WakeW => true | _ => false end.
Definition isWakeU x := match x with WakeU => true | _ => false end.
Definition isPendR x := match x with PendR => true | _ => false end.
Definition isPendW x := match x with PendW => true | _ => false end.

(** ** Invariant: the counters count *)
Definition Cnt (s : state) : Prop :=
  let l := th s in let c := rw s in
  readers_waiting c = cnt isR l /\ writers_waiting c = cnt isW l + cnt isU l /\ readers_active c = cnt isHoldR l + cnt isU l /\
  b2z (writer_active c) = cnt isHoldW l /\ b2z (reader_wants_upgrade c) = cnt isU l /\
  (writer_active c = true -> readers_active c = 0).
Lemma seven l : cnt isIdle l + cnt isHoldR l + cnt isHoldW l + cnt isR l + cnt isW l + cnt isU l + cnt isPendR l + cnt isPendW l <= Z.of_nat (length l).
Proof. induction l as [|x l IH]; cbn [cnt length]; [lia|]. destruct x; cbn [b2z isIdle isHoldR isHoldW isR isW isU isPendR isPendW]; lia. Qed.

Lemma inc_small x : 0 <= x < 65535 -> inc16 x = x + 1.
Proof. intros H. unfold inc16. apply Z.mod_small. lia. Qed.
Lemma dec_small x : 0 < x < 65536 -> dec16 x = x - 1.
Proof. intros H. unfold dec16. apply Z.mod_small. lia. Qed.

(** Wake-ups: readers and writers. *)
Definition Live (s : state) : Prop :=
  let l := th s in let c := rw s in
  (can_acquire_read_lock c = true -> 1 <= cnt isWaitR l -> 1 <= cnt isPendR l) /\
  (can_acquire_write_lock c = true -> 1 <= cnt isWaitW l -> 1 <= cnt isWakeW l + cnt isPendW l).
(** Wake-ups of the upgrading thread, as long as nobody calls [lock_write]. *)
Definition LiveU (s : state) : Prop :=
  let l := th s in let c := rw s in
  cnt isW l = 0 /\ (reader_wants_upgrade c = true -> can_upgrade_lock c = Some true -> 1 <= cnt isWaitU l -> 1 <= cnt isWakeU l + cnt isPendW l).

Ltac posn l := pose proof (cnt_bounds isIdle l); pose proof (cnt_bounds isHoldR l); pose proof (cnt_bounds isHoldW l); pose proof (cnt_bounds isR l); pose proof (cnt_bounds isW l);
  pose proof (cnt_bounds isU l); pose proof (cnt_bounds isWaitR l); pose proof (cnt_bounds isWaitW l); pose proof (cnt_bounds isWaitU l);
  pose proof (cnt_bounds isWakeW l); pose proof (cnt_bounds isWakeU l); pose proof (cnt_bounds isPendR l); pose proof (cnt_bounds isPendW l); pose proof (seven l).
Definition sub l := cnt isR l = cnt isWaitR l + (cnt isR l - cnt isWaitR l).
Lemma split_W l : cnt isW l = cnt isWaitW l + cnt isWakeW l.
Proof. induction l as [|x l IH]; cbn [cnt]; [reflexivity|]. destruct x; cbn [b2z isW isWaitW isWakeW]; lia. Qed.
Lemma split_U l : cnt isU l = cnt isWaitU l + cnt isWakeU l.
Proof. induction l as [|x l IH]; cbn [cnt]; [reflexivity|]. destruct x; cbn [b2z isU isWaitU isWakeU]; lia. Qed.
Lemma sub_R l : cnt isWaitR l <= cnt isR l.
Proof. induction l as [|x l IH]; cbn [cnt]; [reflexivity|]. destruct x; cbn [b2z isR isWaitR]; lia. Qed.

Definition ok (lw : bool) (n : nat) (s : state) : Prop := length (th s) = n /\ Cnt s /\ Live s /\ (lw = false -> LiveU s).

Ltac counts Ht := repeat rewrite (cnt_set _ _ _ _ _ Ht); cbn [b2z isHoldR isHoldW isR isW isU isWaitR isWaitW isWaitU isWakeW isWakeU isPendR isPendW].
Lemma ok_init lw n : ok lw n (init n).
Proof.
  assert (H : forall p, p Idle = false -> cnt p (repeat Idle n) = 0).
  { intros p Hp. induction n as [|m IH]; cbn [repeat cnt]; [reflexivity|]. rewrite Hp, IH. reflexivity. }
  split; [apply repeat_length|]. unfold Cnt, Live, LiveU, init. cbn [th rw readers_waiting writers_waiting readers_active writer_active reader_wants_upgrade].
  rewrite !H by reflexivity. cbn. repeat split; try lia; try discriminate.
Qed.

Definition good (lw : bool) (n : nat) (r : result) : Prop := match r with NotEnabled => True | AssertFail => False | Next s' _ => ok lw n s' end.

Ltac prep :=
  unfold good, ok, Cnt, Live, LiveU, can_acquire_read_lock, can_acquire_write_lock, can_upgrade_lock in *;
  cbn [th rw readers_waiting writers_waiting readers_active writer_active reader_wants_upgrade b2z negb andb] in *.

Lemma good_goto lw n s t x y c out : nth_error (th s) t = Some y -> length (th s) = n ->
  (let d p := cnt p (th s) - b2z (p y) + b2z (p x) in
   readers_waiting c = d isR /\ writers_waiting c = d isW + d isU /\ readers_active c = d isHoldR + d isU /\
   b2z (writer_active c) = d isHoldW /\ b2z (reader_wants_upgrade c) = d isU /\ (writer_active c = true -> readers_active c = 0) /\
   (can_acquire_read_lock c = true -> 1 <= d isWaitR -> 1 <= d isPendR) /\
   (can_acquire_write_lock c = true -> 1 <= d isWaitW -> 1 <= d isWakeW + d isPendW) /\
   (lw = false -> d isW = 0 /\ (reader_wants_upgrade c = true -> can_upgrade_lock c = Some true -> 1 <= d isWaitU -> 1 <= d isWakeU + d isPendW))) ->
  good lw n (goto s t x c out).
Proof.
  intros Ht Hl. cbv zeta. intros [H1 [H2 [H3 [H4 [H5 [H6 [H7 [H8 H9]]]]]]]]. unfold goto, good, ok, Cnt, Live, LiveU. cbn [th rw].
  rewrite length_set_th. rewrite !(cnt_set _ _ _ _ _ Ht). repeat split; auto; apply H9; assumption.
Qed.

(** Case analysis on every condition that the code tests. *)
Ltac fields := cbn [th rw readers_waiting writers_waiting readers_active writer_active reader_wants_upgrade b2z negb andb orb or_fail
  isIdle isHoldR isHoldW isR isW isU isWaitR isWaitW isWaitU isWakeW isWakeU isPendR isPendW] in *.
Ltac red_code := unfold enter_read, enter_write, enter_upgrade, try_request_upgrade, upgrade_lock, acquire_read_lock, acquire_write_lock, release_read_lock,
  release_write_lock, can_acquire_read_lock, can_acquire_write_lock, can_upgrade_lock, request_read_lock, request_write_lock, set_wants in *.
Ltac norm16 := repeat (rewrite inc_small in * by lia); repeat (rewrite dec_small in * by lia).
Ltac bdes := repeat (norm16; match goal with
  | |- context [Z.eqb ?a ?b] => destruct (Z.eqb_spec a b)
  | |- context [Z.ltb ?a ?b] => destruct (Z.ltb_spec a b)
  end; fields; try lia).
Ltac start Hok l y Ht HC1 HC2 HC3 HC4 HC5 HC6 Hl HL HU :=
  destruct Hok as [Hl [[HC1 [HC2 [HC3 [HC4 [HC5 HC6]]]]] [HL HU]]]; unfold Live, LiveU in HL, HU; cbv zeta in HL, HU; fields;
  pose proof (cnt_pos isIdle l _ y Ht);
  pose proof (cnt_pos isHoldR l _ y Ht); pose proof (cnt_pos isHoldW l _ y Ht); pose proof (cnt_pos isR l _ y Ht);
  pose proof (cnt_pos isW l _ y Ht); pose proof (cnt_pos isU l _ y Ht); pose proof (cnt_pos isPendR l _ y Ht);
  pose proof (cnt_pos isPendW l _ y Ht); pose proof (cnt_pos isWakeW l _ y Ht); pose proof (cnt_pos isWakeU l _ y Ht);
  posn l; pose proof (split_W l); pose proof (split_U l); pose proof (sub_R l); fields;
  repeat match goal with P : true = true -> _ |- _ => specialize (P eq_refl) | P : false = true -> _ |- _ => clear P end;
  rewrite Hl in *.
Ltac hdes := repeat (match goal with
  | H : context [Z.eqb ?a ?b] |- _ => destruct (Z.eqb_spec a b)
  | H : context [Z.ltb ?a ?b] |- _ => destruct (Z.ltb_spec a b)
  end; fields; try discriminate; try lia).
Ltac useL := repeat match goal with P : ?x = ?x -> _ |- _ => specialize (P eq_refl) end.
Ltac fin Ht Hl HL HU := eapply good_goto; [exact Ht | exact Hl |]; cbv zeta; fields; red_code; fields; rewrite ?Z.eqb_refl in *; fields;
  destruct HL as [HL1 HL2]; norm16; repeat split; intros; try discriminate; try lia;
  try (match goal with E : _ = false |- _ => specialize (HU E); destruct HU end); try lia; hdes; useL; try lia; try congruence.
Ltac go Hok l y Ht b4 b5 := 
  let HC1 := fresh "HC1" in let HC2 := fresh "HC2" in let HC3 := fresh "HC3" in let HC4 := fresh "HC4" in let HC5 := fresh "HC5" in let HC6 := fresh "HC6" in
  let Hl := fresh "Hl" in let HL := fresh "HL" in let HU := fresh "HU" in
  start Hok l y Ht HC1 HC2 HC3 HC4 HC5 HC6 Hl HL HU; red_code; fields; destruct b4, b5; fields; try lia; bdes; try lia; 
  try exact I; fin Ht Hl HL HU.

Section Step.
Variables (lw : bool) (n : nat) (l : list ts) (b1 b2 b3 : Z) (b4 b5 : bool) (t : nat).
Let s := mkS l (mkC b1 b2 b3 b4 b5).
Hypothesis Hn : Z.of_nat n <= 65535.
Hypothesis Hok : ok lw n (mkS l (mkC b1 b2 b3 b4 b5)).

Lemma st_lockread : nth_error l t = Some Idle -> good lw n (step s t LockRead).
Proof. intros Ht. unfold step, s. cbn [th rw]. rewrite Ht. clear s. go Hok l Idle Ht b4 b5. Qed.
Lemma st_recheckR : nth_error l t = Some WakeR -> good lw n (step s t Recheck).
Proof. intros Ht. unfold step, s. cbn [th rw]. rewrite Ht. clear s. go Hok l WakeR Ht b4 b5. Qed.
Lemma st_lockwrite : lw = true -> nth_error l t = Some Idle -> good lw n (step s t LockWrite).
Proof. intros E Ht. unfold step, s. cbn [th rw]. rewrite Ht. clear s. go Hok l Idle Ht b4 b5. Qed.
Lemma st_recheckW : nth_error l t = Some WakeW -> good lw n (step s t Recheck).
Proof. intros Ht. unfold step, s. cbn [th rw]. rewrite Ht. clear s. go Hok l WakeW Ht b4 b5. Qed.
Lemma st_recheckU : nth_error l t = Some WakeU -> good lw n (step s t Recheck).
Proof. intros Ht. unfold step, s. cbn [th rw]. rewrite Ht. clear s. go Hok l WakeU Ht b4 b5. Qed.

Lemma st_tryread : nth_error l t = Some Idle -> good lw n (step s t TryRead).
Proof.
  intros Ht. unfold step, s. cbn [th rw]. rewrite Ht. clear s. destruct (can_acquire_read_lock _) eqn:E; [|exact Hok].
  unfold can_acquire_read_lock in E. fields. destruct b4, b5; try discriminate. apply Z.eqb_eq in E. fields. subst b2.
  go Hok l Idle Ht lw lw.
Qed.
Lemma st_trywrite : nth_error l t = Some Idle -> good lw n (step s t TryWrite).
Proof.
  intros Ht. unfold step, s. cbn [th rw]. rewrite Ht. clear s. destruct (can_acquire_write_lock _) eqn:E; [|exact Hok].
  unfold can_acquire_write_lock in E. fields. destruct b4; try discriminate. apply Z.eqb_eq in E. fields. subst b3.
  go Hok l Idle Ht b5 b5.
Qed.
Lemma st_upgrade : nth_error l t = Some HoldR -> good lw n (step s t Upgrade).
Proof.
  intros Ht. unfold step, s. cbn [th rw]. rewrite Ht. clear s. destruct b5; [exact Hok|]. 
  go Hok l HoldR Ht b4 b4.
Qed.
Lemma st_unlockread : nth_error l t = Some HoldR -> good lw n (step s t UnlockRead).
Proof. intros Ht. unfold step, s. cbn [th rw]. rewrite Ht. clear s. go Hok l HoldR Ht b4 b5. Qed.
Lemma st_unlockwrite : nth_error l t = Some HoldW -> good lw n (step s t UnlockWrite).
Proof. intros Ht. unfold step, s. cbn [th rw]. rewrite Ht. clear s. go Hok l HoldW Ht b4 b5. Qed.
Lemma st_spurious y : nth_error l t = Some y -> y = WaitR \/ y = WaitW \/ y = WaitU -> good lw n (step s t Spurious).
Proof.
  intros Ht E. unfold step, s. cbn [th rw]. rewrite Ht. clear s.
  destruct E as [-> | [-> | ->]]; [go Hok l WaitR Ht b4 b5 | go Hok l WaitW Ht b4 b5 | go Hok l WaitU Ht b4 b5].
Qed.
Lemma st_notifyR : nth_error l t = Some PendR -> good lw n (step s t NotifyR).
Proof.
  intros Ht. unfold step, s. cbn [th rw]. rewrite Ht. clear s.
  set (f := fun x => match x with WaitR => WakeR | y => y end).
  assert (Ht' : nth_error (map f l) t = Some PendR) by (rewrite nth_error_map, Ht; reflexivity).
  assert (Hc : forall p, p WaitR = p WakeR -> cnt p (map f l) = cnt p l).
  { intros p E. rewrite cnt_map. apply cnt_ext. intros x. unfold f. destruct x; auto. }
  assert (H0 : cnt isWaitR (map f l) = 0).
  { rewrite cnt_map. clear. induction l as [|x l' IH]; cbn [cnt]; [reflexivity|]. rewrite IH. destruct x; reflexivity. }
  change (good lw n (goto (mkS (map f l) (mkC b1 b2 b3 b4 b5)) t Idle (mkC b1 b2 b3 b4 b5) None)).
  pose proof (cnt_bounds isPendR l).
  destruct Hok as [Hl [[HC1 [HC2 [HC3 [HC4 [HC5 HC6]]]]] [HL HU]]]. unfold Live, LiveU in HL, HU. cbn [th rw] in *.
  eapply good_goto; [exact Ht' | cbn [th]; rewrite map_length; exact Hl |]. cbv zeta. cbn [th].
  rewrite !(Hc isR), !(Hc isW), !(Hc isU), !(Hc isHoldR), !(Hc isHoldW), !(Hc isPendR), !(Hc isPendW), !(Hc isWaitW), !(Hc isWakeW), !(Hc isWaitU), !(Hc isWakeU), H0 by reflexivity.
  fields. rewrite !Z.sub_0_r, !Z.add_0_r. destruct HL as [HL1 HL2]. 
  repeat split; auto; try lia; intros; apply HU; auto.
Qed.
Lemma st_notifyW w : nth_error l t = Some PendW -> good lw n (step s t (NotifyW w)).
Proof.
  intros Ht. unfold step, s. cbn [th rw]. rewrite Ht. clear s. destruct w as [w|].
  - destruct (nth_error l w) as [x|] eqn:Ew; [|exact I]. destruct (waits_write x) eqn:Ex; [|exact I].
    assert (Nw : w <> t) by (intros ->; rewrite Ht in Ew; injection Ew as <-; discriminate).
    assert (Ht' : nth_error (set_th l w (wake x)) t = Some PendW).
    { rewrite (nth_set l w t (wake x) x Ew). destruct (Nat.eqb_spec t w); [congruence|exact Ht]. }
    change (good lw n (goto (mkS (set_th l w (wake x)) (mkC b1 b2 b3 b4 b5)) t Idle (mkC b1 b2 b3 b4 b5) None)).
    pose proof (cnt_pos isWaitU l w x Ew) as X1. pose proof (cnt_pos isW l w x Ew) as X2.
    destruct x; try discriminate; cbn [wake] in *; 
    start Hok l PendW Ht HC1 HC2 HC3 HC4 HC5 HC6 Hl HL HU; red_code;
    (eapply good_goto; [exact Ht' | cbn [th]; rewrite length_set_th; exact Hl |]); cbv zeta; cbn [th]; rewrite !(cnt_set _ _ _ _ _ Ew); fields; red_code; fields; destruct b4, b5; fields; destruct HL as [HL1 HL2];
      repeat split; intros; try discriminate; try lia; try (match goal with E : _ = false |- _ => specialize (HU E); destruct HU end); try lia; hdes; useL; try lia.
  - destruct (existsb waits_write l) eqn:Ee; [exact I|].
    assert (Hz : cnt isWaitW l = 0 /\ cnt isWaitU l = 0).
    { clear - Ee. induction l as [|x l' IH]; cbn [existsb cnt] in *; [lia|]. apply orb_false_iff in Ee. destruct Ee as [E1 E2].
      specialize (IH E2). destruct x; try discriminate; cbn [isWaitW isWaitU b2z]; lia. }
    destruct Hz as [Hz1 Hz2]. go Hok l PendW Ht b4 b5.
Qed.
End Step.

Theorem step_ok lw n s t a : Z.of_nat n <= 65535 -> ok lw n s -> (lw = false -> a <> LockWrite) -> good lw n (step s t a).
Proof.
  intros Hn Hok Ha. destruct s as [l [b1 b2 b3 b4 b5]].
  destruct (nth_error l t) as [y|] eqn:Ht; [|unfold step; cbn [th]; rewrite Ht; exact I].
  destruct y, a; try (unfold step; cbn [th]; rewrite Ht; exact I).
  - apply st_lockread; assumption.
  - apply st_lockwrite; try assumption. destruct lw; [reflexivity|]. exfalso. apply Ha; reflexivity.
  - apply st_tryread; assumption.
  - apply st_trywrite; assumption.
  - apply st_upgrade; assumption.
  - apply st_unlockread; assumption.
  - apply st_unlockwrite; assumption.
  - eapply st_spurious; eauto.
  - apply st_recheckR; assumption.
  - eapply st_spurious; eauto.
  - apply st_recheckW; assumption.
  - eapply st_spurious; eauto.
  - apply st_recheckU; assumption.
  - apply st_notifyR; assumption.
  - apply st_notifyW; assumption.
Qed.
Lemma reach_ok lw n s : Z.of_nat n <= 65535 -> reach lw n s -> ok lw n s.
Proof.
  intros Hn R. induction R as [|s t a s' o R IH Ha Hs]; [apply ok_init|].
  pose proof (step_ok lw n s t a Hn IH Ha) as G. rewrite Hs in G. exact G.
Qed.

(** ** Specification: what a user sees of a thread *)
(** Threads waiting to upgrade keep their shared lock. *)
Definition holds_shared (x : ts) : Prop := x = HoldR \/ x = WaitU \/ x = WakeU.
Definition holds_exclusive (x : ts) : Prop := x = HoldW.
Definition upgrading (x : ts) : Prop := x = WaitU \/ x = WakeU.
(** waiting for the exclusive lock through [lock_write] *)
Definition wants_exclusive (x : ts) : Prop := x = WaitW \/ x = WakeW.
Definition at_ (s : state) (t : nat) (P : ts -> Prop) : Prop := exists x, nth_error (th s) t = Some x /\ P x.
Definition nobody (s : state) (P : ts -> Prop) : Prop := forall t, ~ at_ s t P.

(** C21: exclusive means exclusive. *)
Theorem C21_mutual_exclusion lw n s t u : Z.of_nat n <= 65535 -> reach lw n s ->
  at_ s t holds_exclusive -> at_ s u (fun x => holds_exclusive x \/ holds_shared x) -> u = t.
Proof.
  intros Hn R [x [Hx ->]] [y [Hy Py]]. destruct (reach_ok lw n s Hn R) as [Hl [[H1 [H2 [H3 [H4 [H5 H6]]]]] _]].
  pose proof (cnt_pos isHoldW _ _ _ Hx eq_refl) as P. destruct (Nat.eq_dec u t) as [|N]; [assumption|exfalso].
  destruct (writer_active (rw s)); cbn [b2z] in *; [|lia]. specialize (H6 eq_refl). unfold holds_exclusive, holds_shared in Py.
  pose proof (cnt_bounds isHoldR (th s)). pose proof (cnt_bounds isU (th s)).
  destruct Py as [-> | [-> | [-> | ->]]].
  - pose proof (cnt_two isHoldW _ _ _ _ _ Hx eq_refl Hy eq_refl ltac:(congruence)). lia.
  - pose proof (cnt_pos isHoldR _ _ _ Hy eq_refl). lia.
  - pose proof (cnt_pos isU _ _ _ Hy eq_refl). lia.
  - pose proof (cnt_pos isU _ _ _ Hy eq_refl). lia.
Qed.
Theorem C21_one_upgrader lw n s t u : Z.of_nat n <= 65535 -> reach lw n s -> at_ s t upgrading -> at_ s u upgrading -> u = t.
Proof.
  intros Hn R [x [Hx Px]] [y [Hy Py]]. destruct (reach_ok lw n s Hn R) as [Hl [[H1 [H2 [H3 [H4 [H5 H6]]]]] _]].
  destruct (Nat.eq_dec u t) as [|N]; [assumption|exfalso].
  pose proof (cnt_two isU _ _ _ _ _ Hx ltac:(destruct Px as [-> | ->]; reflexivity) Hy ltac:(destruct Py as [-> | ->]; reflexivity) ltac:(congruence)).
  destruct (reader_wants_upgrade (rw s)); cbn [b2z] in *; lia.
Qed.
(** The upgrade takes effect only when every other thread has released its lock. *)
Theorem C21_upgrade_alone lw n s t a s' o u : Z.of_nat n <= 65535 -> reach lw n s -> (lw = false -> a <> LockWrite) ->
  at_ s t holds_shared -> step s t a = Next s' o -> at_ s' t holds_exclusive ->
  u <> t -> ~ at_ s u (fun x => holds_exclusive x \/ holds_shared x).
Proof.
  intros Hn R Ha [x [Hx Px]] Hs Hw N [y [Hy Py]]. apply N. eapply (C21_mutual_exclusion lw n s'); eauto using reach_step.
  exists y. split; [|assumption].
  assert (Hset : forall z c q, goto s t z c q = Next s' o -> nth_error (th s') u = Some y).
  { intros z c q E. unfold goto in E. injection E as <- <-. cbn [th]. rewrite (nth_set _ _ _ _ _ Hx). destruct (Nat.eqb_spec u t); congruence. }
  assert (Hid : Next s (Some false) = Next s' o -> nth_error (th s') u = Some y) by (intros E; injection E as <- <-; exact Hy).
  unfold step in Hs. rewrite Hx in Hs. unfold holds_shared in Px.
  destruct Px as [-> | [-> | ->]]; destruct a; try discriminate; unfold enter_upgrade, or_fail, try_request_upgrade in Hs;
    repeat match type of Hs with
    | AssertFail = _ => discriminate
    | goto _ _ _ _ _ = _ => exact (Hset _ _ _ Hs)
    | Next _ _ = _ => exact (Hid Hs)
    | (match ?e with _ => _ end) = _ => destruct e
    end; try discriminate.
Qed.
Theorem C21_no_assertion_fails lw n s t a : Z.of_nat n <= 65535 -> reach lw n s -> (lw = false -> a <> LockWrite) -> step s t a <> AssertFail.
Proof. intros Hn R Ha E. pose proof (step_ok lw n s t a Hn (reach_ok lw n s Hn R) Ha) as G. rewrite E in G. exact G. Qed.
(** A failing [try_lock_read], [try_lock_write] or [upgrade] changes nothing... *)
Theorem C21_failure_changes_nothing s t a s' : step s t a = Next s' (Some false) -> s' = s /\ (a = TryRead \/ a = TryWrite \/ a = Upgrade).
Proof.
  unfold step. intros H. destruct (nth_error (th s) t) as [y|]; [|discriminate].
  destruct y, a; try discriminate; unfold enter_read, enter_write, enter_upgrade, goto, or_fail in H;
    repeat match type of H with
    | (match ?e with _ => _ end) = _ => destruct e
    | NotEnabled = _ => discriminate | AssertFail = _ => discriminate
    | Next _ _ = _ => injection H; intros; subst; first [discriminate | split; [congruence | auto]]
    end.
Qed.
(** ... and they fail exactly when the lock is not available. *)
Lemma cnt_zero (s : state) p (P : ts -> Prop) : (forall x, p x = true <-> P x) -> (cnt p (th s) = 0 <-> nobody s P).
Proof.
  intros HP. split.
  - intros H t [x [Hx Px]]. apply HP in Px. pose proof (cnt_pos p _ _ _ Hx Px). lia.
  - intros H. destruct (Z.eq_dec (cnt p (th s)) 0) as [|N]; [assumption|exfalso].
    destruct (cnt_ex p (th s)) as [i [y [Hy Py]]]; [pose proof (cnt_bounds p (th s)); lia|]. apply (H i). exists y. split; [assumption|]. apply HP. exact Py.
Qed.
Lemma zHoldR s : cnt isHoldR (th s) = 0 <-> nobody s (fun x => x = HoldR).
Proof. apply cnt_zero. intros []; cbn; split; congruence. Qed.
Lemma zHoldW s : cnt isHoldW (th s) = 0 <-> nobody s holds_exclusive.
Proof. apply cnt_zero. unfold holds_exclusive. intros []; cbn; split; congruence. Qed.
Lemma zU s : cnt isU (th s) = 0 <-> nobody s upgrading.
Proof. apply cnt_zero. unfold upgrading. intros []; cbn; split; intros; try discriminate; auto; destruct H; discriminate. Qed.
Lemma zW s : cnt isW (th s) = 0 <-> nobody s wants_exclusive.
Proof. apply cnt_zero. unfold wants_exclusive. intros []; cbn; split; intros; try discriminate; auto; destruct H; discriminate. Qed.
Lemma nobody_or s (P Q : ts -> Prop) : nobody s (fun x => P x \/ Q x) <-> nobody s P /\ nobody s Q.
Proof.
  split.
  - intros H. split; intros t [x [Hx Px]]; apply (H t); exists x; auto.
  - intros [H1 H2] t [x [Hx [Px | Px]]]; [apply (H1 t)|apply (H2 t)]; exists x; auto.
Qed.
Lemma free_read lw n s : ok lw n s -> can_acquire_read_lock (rw s) = true <-> nobody s (fun x => holds_exclusive x \/ wants_exclusive x \/ upgrading x).
Proof.
  intros [Hl [[H1 [H2 [H3 [H4 [H5 H6]]]]] _]]. rewrite (nobody_or s holds_exclusive), (nobody_or s wants_exclusive), <- zHoldW, <- zW, <- zU.
  pose proof (cnt_bounds isW (th s)). pose proof (cnt_bounds isU (th s)). unfold can_acquire_read_lock.
  destruct (writer_active (rw s)), (reader_wants_upgrade (rw s)); cbn [b2z negb andb] in *; split; intros E; try discriminate; try lia.
  all: rewrite Z.eqb_eq in *; lia.
Qed.
Lemma free_write lw n s : ok lw n s -> can_acquire_write_lock (rw s) = true <-> nobody s (fun x => holds_exclusive x \/ holds_shared x).
Proof.
  intros [Hl [[H1 [H2 [H3 [H4 [H5 H6]]]]] _]]. 
  assert (E : nobody s (fun x => holds_exclusive x \/ holds_shared x) <-> nobody s holds_exclusive /\ nobody s (fun x => x = HoldR) /\ nobody s upgrading).
  { rewrite (nobody_or s holds_exclusive). unfold holds_shared, upgrading. rewrite (nobody_or s (fun x => x = HoldR)). reflexivity. }
  rewrite E, <- zHoldW, <- zHoldR, <- zU.
  pose proof (cnt_bounds isHoldR (th s)). pose proof (cnt_bounds isU (th s)). unfold can_acquire_write_lock.
  destruct (writer_active (rw s)), (reader_wants_upgrade (rw s)); cbn [b2z negb andb] in *; rewrite ?Z.eqb_eq; split; intros X; try discriminate; try lia.
Qed.
Theorem C21_try_read_iff lw n s t : Z.of_nat n <= 65535 -> reach lw n s -> nth_error (th s) t = Some Idle ->
  (nobody s (fun x => holds_exclusive x \/ wants_exclusive x \/ upgrading x) <-> exists s', step s t TryRead = Next s' (Some true) /\ at_ s' t holds_shared).
Proof.
  intros Hn R Ht. pose proof (reach_ok lw n s Hn R) as Hok. rewrite <- (free_read lw n s Hok).
  pose proof (step_ok lw n s t TryRead Hn Hok ltac:(discriminate)) as G.
  unfold step in *. rewrite Ht in *. destruct (can_acquire_read_lock (rw s)) eqn:E.
  - split; [|reflexivity]. intros _. destruct (acquire_read_lock _) as [c'|]; cbn [or_fail] in *; [|destruct G].
    unfold goto. eexists. split; [reflexivity|]. exists HoldR. split; [|left; reflexivity]. cbn [th]. rewrite (nth_set _ _ _ _ _ Ht), Nat.eqb_refl. reflexivity.
  - split; [discriminate|]. intros [s' [X _]]. discriminate.
Qed.
Theorem C21_try_write_iff lw n s t : Z.of_nat n <= 65535 -> reach lw n s -> nth_error (th s) t = Some Idle ->
  (nobody s (fun x => holds_exclusive x \/ holds_shared x) <-> exists s', step s t TryWrite = Next s' (Some true) /\ at_ s' t holds_exclusive).
Proof.
  intros Hn R Ht. pose proof (reach_ok lw n s Hn R) as Hok. rewrite <- (free_write lw n s Hok).
  pose proof (step_ok lw n s t TryWrite Hn Hok ltac:(discriminate)) as G.
  unfold step in *. rewrite Ht in *. destruct (can_acquire_write_lock (rw s)) eqn:E.
  - split; [|reflexivity]. intros _. destruct (acquire_write_lock _) as [c'|]; cbn [or_fail] in *; [|destruct G].
    unfold goto. eexists. split; [reflexivity|]. exists HoldW. split; [|reflexivity]. cbn [th]. rewrite (nth_set _ _ _ _ _ Ht), Nat.eqb_refl. reflexivity.
  - split; [discriminate|]. intros [s' [X _]]. discriminate.
Qed.
Theorem C21_upgrade_fails_iff lw n s t : Z.of_nat n <= 65535 -> reach lw n s -> nth_error (th s) t = Some HoldR ->
  ((exists u, at_ s u upgrading) <-> step s t Upgrade = Next s (Some false)).
Proof.
  intros Hn R Ht. destruct (reach_ok lw n s Hn R) as [Hl [[H1 [H2 [H3 [H4 [H5 H6]]]]] _]].
  unfold step. rewrite Ht. unfold try_request_upgrade. pose proof (zU s) as Z.
  destruct (reader_wants_upgrade (rw s)) eqn:E; cbn [b2z] in *.
  - split; [reflexivity|]. intros _. destruct (cnt_ex isU (th s)) as [u [y [Hy Py]]]; [lia|]. exists u, y. split; [assumption|]. destruct y; try discriminate; [left|right]; reflexivity.
  - split.
    + intros [u Hu]. exfalso. apply (proj1 Z (eq_sym H5) u Hu).
    + intros X. exfalso. unfold enter_upgrade, or_fail, goto in X. repeat match type of X with (match ?e with _ => _ end) = _ => destruct e end; discriminate.
Qed.

(** The blocking calls acquire at once exactly when the lock is available and block otherwise; unlocking always releases; no
    call changes the status of another thread; a woken thread always re-checks. *)
Definition others_unchanged (s s' : state) (t : nat) : Prop := forall u, u <> t -> nth_error (th s') u = nth_error (th s) u.
Lemma goto_at s t y x c o : nth_error (th s) t = Some y -> exists s', goto s t x c o = Next s' o /\ others_unchanged s s' t /\ nth_error (th s') t = Some x.
Proof.
  intros Ht. eexists. split; [reflexivity|]. split; [intros u N|]; cbn [th]; rewrite (nth_set _ _ _ _ _ Ht); [destruct (Nat.eqb_spec u t); [contradiction|reflexivity]|rewrite Nat.eqb_refl; reflexivity].
Qed.
Lemma reach_true lw n s : reach lw n s -> reach true n s.
Proof. intros R. induction R; [constructor|]. eapply reach_step; [exact IHR|discriminate|eassumption]. Qed.
Theorem C21_lock_read lw n s t : Z.of_nat n <= 65535 -> reach lw n s -> nth_error (th s) t = Some Idle ->
  exists s', step s t LockRead = Next s' None /\ others_unchanged s s' t /\
    (nobody s (fun x => holds_exclusive x \/ wants_exclusive x \/ upgrading x) -> nth_error (th s') t = Some HoldR) /\
    (~ nobody s (fun x => holds_exclusive x \/ wants_exclusive x \/ upgrading x) -> nth_error (th s') t = Some WaitR).
Proof.
  intros Hn R Ht. pose proof (reach_ok lw n s Hn R) as Hok. pose proof (free_read lw n s Hok) as F.
  pose proof (step_ok lw n s t LockRead Hn Hok ltac:(discriminate)) as G. unfold step in *. rewrite Ht in *. unfold enter_read in *.
  change (can_acquire_read_lock (request_read_lock (rw s))) with (can_acquire_read_lock (rw s)) in *. destruct (can_acquire_read_lock (rw s)).
  - destruct (acquire_read_lock _) as [c'|]; cbn [or_fail] in *; [|destruct G]. destruct (goto_at s t _ HoldR c' None Ht) as [s' [E [O A]]].
    exists s'. split; [exact E|]. split; [exact O|]. split; [intros _; exact A|]. intros N. destruct (N (proj1 F eq_refl)).
  - destruct (goto_at s t _ WaitR (request_read_lock (rw s)) None Ht) as [s' [E [O A]]]. exists s'. split; [exact E|]. split; [exact O|]. split; [|intros _; exact A].
    intros N. apply F in N. discriminate.
Qed.
Print Assumptions C21_lock_read.
Theorem C21_lock_write lw n s t : Z.of_nat n <= 65535 -> reach lw n s -> nth_error (th s) t = Some Idle ->
  exists s', step s t LockWrite = Next s' None /\ others_unchanged s s' t /\
    (nobody s (fun x => holds_exclusive x \/ holds_shared x) -> nth_error (th s') t = Some HoldW) /\
    (~ nobody s (fun x => holds_exclusive x \/ holds_shared x) -> nth_error (th s') t = Some WaitW).
Proof.
  intros Hn R Ht. apply reach_true in R. clear lw. pose proof (reach_ok true n s Hn R) as Hok. pose proof (free_write true n s Hok) as F.
  pose proof (step_ok true n s t LockWrite Hn Hok ltac:(discriminate)) as G. unfold step in *. rewrite Ht in *. unfold enter_write in *.
  change (can_acquire_write_lock (request_write_lock (rw s))) with (can_acquire_write_lock (rw s)) in *. destruct (can_acquire_write_lock (rw s)).
  - destruct (acquire_write_lock _) as [c'|]; cbn [or_fail] in *; [|destruct G]. destruct (goto_at s t _ HoldW c' None Ht) as [s' [E [O A]]].
    exists s'. split; [exact E|]. split; [exact O|]. split; [intros _; exact A|]. intros N. destruct (N (proj1 F eq_refl)).
  - destruct (goto_at s t _ WaitW (request_write_lock (rw s)) None Ht) as [s' [E [O A]]]. exists s'. split; [exact E|]. split; [exact O|]. split; [|intros _; exact A].
    intros N. apply F in N. discriminate.
Qed.
Print Assumptions C21_lock_write.
Theorem C21_unlock lw n s t : Z.of_nat n <= 65535 -> reach lw n s ->
  (nth_error (th s) t = Some HoldR -> exists s', step s t UnlockRead = Next s' None /\ others_unchanged s s' t /\ at_ s' t (fun x => x = Idle \/ x = PendW)) /\
  (nth_error (th s) t = Some HoldW -> exists s', step s t UnlockWrite = Next s' None /\ others_unchanged s s' t /\ at_ s' t (fun x => x = Idle \/ x = PendW \/ x = PendR)).
Proof.
  intros Hn R. pose proof (reach_ok lw n s Hn R) as Hok. split; intros Ht.
  - pose proof (step_ok lw n s t UnlockRead Hn Hok ltac:(discriminate)) as G. unfold step in *. rewrite Ht in *.
    destruct (release_read_lock (rw s)) as [c'|]; cbn [or_fail] in *; [|destruct G].
    destruct (reader_wants_upgrade c' && (writers_waiting c' =? 0)); [destruct G|].
    assert (X : forall x, x = Idle \/ x = PendW -> exists s', goto s t x c' None = Next s' None /\ others_unchanged s s' t /\ at_ s' t (fun x => x = Idle \/ x = PendW)).
    { intros x Hx. destruct (goto_at s t _ x c' None Ht) as [s' [E [O A]]]. exists s'. split; [exact E|]. split; [exact O|]. exists x. auto. }
    destruct (_ && _); [apply X; auto|]. destruct (_ && _); apply X; auto.
  - pose proof (step_ok lw n s t UnlockWrite Hn Hok ltac:(discriminate)) as G. unfold step in *. rewrite Ht in *.
    destruct (negb (readers_active (rw s) =? 0)); [destruct G|].
    destruct (release_write_lock (rw s)) as [c'|]; cbn [or_fail] in *; [|destruct G].
    assert (X : forall x, x = Idle \/ x = PendW \/ x = PendR -> exists s', goto s t x c' None = Next s' None /\ others_unchanged s s' t /\ at_ s' t (fun x => x = Idle \/ x = PendW \/ x = PendR)).
    { intros x Hx. destruct (goto_at s t _ x c' None Ht) as [s' [E [O A]]]. exists s'. split; [exact E|]. split; [exact O|]. exists x. auto. }
    destruct (negb _); [apply X; auto|]. destruct (negb _); apply X; auto.
Qed.
Print Assumptions C21_unlock.
(** An upgrade is granted at once exactly when no other thread holds or is about to upgrade; otherwise (unless it fails) the
    thread waits, keeping its shared lock. *)
Theorem C21_upgrade lw n s t : Z.of_nat n <= 65535 -> reach lw n s -> nth_error (th s) t = Some HoldR -> nobody s upgrading ->
  ((forall u, u <> t -> ~ at_ s u (fun x => holds_exclusive x \/ holds_shared x)) ->
     exists s', step s t Upgrade = Next s' (Some true) /\ others_unchanged s s' t /\ nth_error (th s') t = Some HoldW) /\
  ((exists u, u <> t /\ at_ s u (fun x => holds_exclusive x \/ holds_shared x)) ->
     exists s', step s t Upgrade = Next s' None /\ others_unchanged s s' t /\ nth_error (th s') t = Some WaitU).
Proof.
  intros Hn R Ht Hno. pose proof (reach_ok lw n s Hn R) as Hok. pose proof (step_ok lw n s t Upgrade Hn Hok ltac:(discriminate)) as G.
  assert (HoldsW : forall s' o, step s t Upgrade = Next s' o -> nth_error (th s') t = Some HoldW -> forall u, u <> t -> ~ at_ s u (fun x => holds_exclusive x \/ holds_shared x)).
  { intros s' o E A u N. eapply (C21_upgrade_alone lw n s t Upgrade s' o u Hn R); auto; [discriminate| |exists HoldW; split; [exact A|reflexivity]].
    exists HoldR. split; [exact Ht|left; reflexivity]. }
  pose proof (zU s) as ZU. destruct Hok as [Hl [[H1 [H2 [H3 [H4 [H5 H6]]]]] _]].
  assert (E5 : reader_wants_upgrade (rw s) = false) by (apply ZU in Hno; destruct (reader_wants_upgrade (rw s)); [cbn [b2z] in H5; lia|reflexivity]).
  assert (Only : (forall u, u <> t -> ~ at_ s u (fun x => holds_exclusive x \/ holds_shared x)) -> writer_active (rw s) = false /\ readers_active (rw s) = 1).
  { intros Hal. assert (W0 : cnt isHoldW (th s) = 0).
    { apply zHoldW. intros u [x [Hx ->]]. destruct (Nat.eq_dec u t) as [->|N]; [rewrite Ht in Hx; discriminate|]. apply (Hal u N). exists HoldW. split; [exact Hx|left; reflexivity]. }
    assert (U0 : cnt isU (th s) = 0) by (apply ZU; exact Hno).
    assert (R1 : cnt isHoldR (set_th (th s) t Idle) = 0).
    { change (set_th (th s) t Idle) with (th (mkS (set_th (th s) t Idle) (rw s))). apply zHoldR. intros u [x [Hx ->]]. cbn [th] in Hx. rewrite (nth_set _ _ _ _ _ Ht) in Hx.
      destruct (Nat.eqb_spec u t); [discriminate|]. apply (Hal u n0). exists HoldR. split; [exact Hx|right; left; reflexivity]. }
    rewrite (cnt_set _ _ _ _ _ Ht) in R1. cbn [isHoldR b2z] in R1. split; [destruct (writer_active (rw s)); [cbn [b2z] in H4; lia|reflexivity]|lia]. }
  unfold step in *. rewrite Ht in *. unfold try_request_upgrade in *. rewrite E5 in *. unfold enter_upgrade in *.
  destruct (can_upgrade_lock (request_write_lock (set_wants true (rw s)))) as [[]|] eqn:Ec; [| |destruct G].
  - destruct (upgrade_lock _) as [c'|]; cbn [or_fail] in *; [|destruct G]. destruct (goto_at s t _ HoldW c' (Some true) Ht) as [s' [E [O A]]]. split.
    + intros _. exists s'. auto.
    + intros [u [N Hu]]. exfalso. exact (HoldsW _ _ E A u N Hu).
  - destruct (goto_at s t _ WaitU (request_write_lock (set_wants true (rw s))) None Ht) as [s' [E [O A]]]. split.
    + intros Hal. exfalso. destruct (Only Hal) as [A1 A2]. unfold can_upgrade_lock in Ec. destruct (_ && _) in Ec; [|discriminate].
      cbn [writer_active readers_active request_write_lock set_wants] in Ec. rewrite A1, A2 in Ec. discriminate.
    + intros _. exists s'. auto.
Qed.
Print Assumptions C21_upgrade.
(** Notifications: all waiting readers are woken; one waiting writer or upgrader is woken if there is one. *)
Theorem C22_notify s t : (nth_error (th s) t = Some PendR -> exists s', step s t NotifyR = Next s' None /\ nth_error (th s') t = Some Idle /\ rw s' = rw s /\
    forall u, u <> t -> nth_error (th s') u = match nth_error (th s) u with Some WaitR => Some WakeR | x => x end) /\
  (nth_error (th s) t = Some PendW ->
    (forall w x, nth_error (th s) w = Some x -> x = WaitW \/ x = WaitU -> exists s', step s t (NotifyW (Some w)) = Next s' None /\ nth_error (th s') t = Some Idle /\
       nth_error (th s') w = Some (if match x with WaitW => true | _ => false end then WakeW else WakeU) /\ rw s' = rw s /\
       forall u, u <> t -> u <> w -> nth_error (th s') u = nth_error (th s) u) /\
    (nobody s (fun x => x = WaitW \/ x = WaitU) <-> exists s', step s t (NotifyW None) = Next s' None)).
Proof.
  split; intros Ht.
  - unfold step. rewrite Ht. eexists. split; [reflexivity|]. cbn [th rw].
    assert (Hm : nth_error (map (fun x => match x with WaitR => WakeR | y => y end) (th s)) t = Some PendR) by (rewrite nth_error_map, Ht; reflexivity).
    split; [rewrite (nth_set _ _ _ _ _ Hm), Nat.eqb_refl; reflexivity|]. split; [reflexivity|]. intros u N. rewrite (nth_set _ _ _ _ _ Hm).
    destruct (Nat.eqb_spec u t); [contradiction|]. rewrite nth_error_map. destruct (nth_error (th s) u) as [[]|]; reflexivity.
  - split.
    + intros w x Hw Hx. unfold step. rewrite Ht, Hw. assert (Q : waits_write x = true) by (destruct Hx as [-> | ->]; reflexivity). rewrite Q.
      eexists. split; [reflexivity|]. cbn [th rw]. assert (N : w <> t) by (intros ->; rewrite Ht in Hw; injection Hw as <-; discriminate).
      assert (Ht' : nth_error (set_th (th s) w (wake x)) t = Some PendW) by (rewrite (nth_set _ _ _ _ _ Hw); destruct (Nat.eqb_spec t w); [congruence|exact Ht]).
      split; [rewrite (nth_set _ _ _ _ _ Ht'), Nat.eqb_refl; reflexivity|]. split.
      { rewrite (nth_set _ _ _ _ _ Ht'). destruct (Nat.eqb_spec w t); [contradiction|]. rewrite (nth_set _ _ _ _ _ Hw), Nat.eqb_refl. destruct Hx as [-> | ->]; reflexivity. }
      split; [reflexivity|]. intros u N1 N2. rewrite (nth_set _ _ _ _ _ Ht'). destruct (Nat.eqb_spec u t); [contradiction|]. rewrite (nth_set _ _ _ _ _ Hw).
      destruct (Nat.eqb_spec u w); [contradiction|reflexivity].
    + unfold step. rewrite Ht. destruct (existsb waits_write (th s)) eqn:E.
      * split; [|intros [s' X]; discriminate]. intros N. exfalso. apply existsb_exists in E. destruct E as [x [Hx Q]]. apply In_nth_error in Hx. destruct Hx as [u Hu].
        apply (N u). exists x. split; [exact Hu|]. destruct x; try discriminate; auto.
      * split; [intros _; eexists; reflexivity|]. intros _ u [x [Hx Q]]. assert (X : existsb waits_write (th s) = true); [|congruence].
        apply existsb_exists. exists x. split; [eapply nth_error_In; exact Hx|]. destruct Q as [-> | ->]; reflexivity.
Qed.
Print Assumptions C22_notify.

(** A woken thread re-checks under the mutex and acquires exactly if the lock is available to it. *)
Theorem C22_recheck lw n s t : Z.of_nat n <= 65535 -> reach lw n s ->
  (nth_error (th s) t = Some WakeR -> exists s', step s t Recheck = Next s' None /\ others_unchanged s s' t /\
    (nobody s (fun x => holds_exclusive x \/ wants_exclusive x \/ upgrading x) -> nth_error (th s') t = Some HoldR) /\
    (~ nobody s (fun x => holds_exclusive x \/ wants_exclusive x \/ upgrading x) -> nth_error (th s') t = Some WaitR)) /\
  (nth_error (th s) t = Some WakeW -> exists s', step s t Recheck = Next s' None /\ others_unchanged s s' t /\
    (nobody s (fun x => holds_exclusive x \/ holds_shared x) -> nth_error (th s') t = Some HoldW) /\
    (~ nobody s (fun x => holds_exclusive x \/ holds_shared x) -> nth_error (th s') t = Some WaitW)) /\
  (nth_error (th s) t = Some WakeU ->
    ((forall u, u <> t -> ~ at_ s u (fun x => holds_exclusive x \/ holds_shared x)) ->
      exists s', step s t Recheck = Next s' (Some true) /\ others_unchanged s s' t /\ nth_error (th s') t = Some HoldW) /\
    ((exists u, u <> t /\ at_ s u (fun x => holds_exclusive x \/ holds_shared x)) ->
      exists s', step s t Recheck = Next s' None /\ others_unchanged s s' t /\ nth_error (th s') t = Some WaitU)).
Proof.
  intros Hn R. pose proof (reach_ok lw n s Hn R) as Hok. pose proof (step_ok lw n s t Recheck Hn Hok ltac:(discriminate)) as G. split; [|split]; intros Ht.
  - pose proof (free_read lw n s Hok) as F. unfold step in *. rewrite Ht in *. unfold enter_read in *. destruct (can_acquire_read_lock (rw s)).
    + destruct (acquire_read_lock _) as [c'|]; cbn [or_fail] in *; [|destruct G]. destruct (goto_at s t _ HoldR c' None Ht) as [s' [E [O A]]].
      exists s'. split; [exact E|]. split; [exact O|]. split; [intros _; exact A|]. intros N. destruct (N (proj1 F eq_refl)).
    + destruct (goto_at s t _ WaitR (rw s) None Ht) as [s' [E [O A]]]. exists s'. split; [exact E|]. split; [exact O|]. split; [|intros _; exact A].
      intros N. apply F in N. discriminate.
  - pose proof (free_write lw n s Hok) as F. unfold step in *. rewrite Ht in *. unfold enter_write in *. destruct (can_acquire_write_lock (rw s)).
    + destruct (acquire_write_lock _) as [c'|]; cbn [or_fail] in *; [|destruct G]. destruct (goto_at s t _ HoldW c' None Ht) as [s' [E [O A]]].
      exists s'. split; [exact E|]. split; [exact O|]. split; [intros _; exact A|]. intros N. destruct (N (proj1 F eq_refl)).
    + destruct (goto_at s t _ WaitW (rw s) None Ht) as [s' [E [O A]]]. exists s'. split; [exact E|]. split; [exact O|]. split; [|intros _; exact A].
      intros N. apply F in N. discriminate.
  - assert (HoldsW : forall s' o, step s t Recheck = Next s' o -> nth_error (th s') t = Some HoldW -> forall u, u <> t -> ~ at_ s u (fun x => holds_exclusive x \/ holds_shared x)).
    { intros s' o E A u N. eapply (C21_upgrade_alone lw n s t Recheck s' o u Hn R); auto; [discriminate| |exists HoldW; split; [exact A|reflexivity]].
      exists WakeU. split; [exact Ht|right; right; reflexivity]. }
    destruct Hok as [Hl [[H1 [H2 [H3 [H4 [H5 H6]]]]] _]].
    assert (Only : (forall u, u <> t -> ~ at_ s u (fun x => holds_exclusive x \/ holds_shared x)) -> writer_active (rw s) = false /\ readers_active (rw s) = 1).
    { intros Hal. assert (W0 : cnt isHoldW (th s) = 0).
      { apply zHoldW. intros u [x [Hx ->]]. destruct (Nat.eq_dec u t) as [->|N]; [rewrite Ht in Hx; discriminate|]. apply (Hal u N). exists HoldW. split; [exact Hx|left; reflexivity]. }
      assert (R0 : cnt isHoldR (th s) = 0).
      { apply zHoldR. intros u [x [Hx ->]]. destruct (Nat.eq_dec u t) as [->|N]; [rewrite Ht in Hx; discriminate|]. apply (Hal u N). exists HoldR. split; [exact Hx|right; left; reflexivity]. }
      pose proof (cnt_pos isU _ _ _ Ht eq_refl).
      split; [destruct (writer_active (rw s)); [cbn [b2z] in H4; lia|reflexivity]|destruct (reader_wants_upgrade (rw s)); cbn [b2z] in H5; lia]. }
    unfold step in *. rewrite Ht in *. unfold enter_upgrade in *. destruct (can_upgrade_lock (rw s)) as [[]|] eqn:Ec; [| |destruct G].
    + destruct (upgrade_lock _) as [c'|]; cbn [or_fail] in *; [|destruct G]. destruct (goto_at s t _ HoldW c' (Some true) Ht) as [s' [E [O A]]]. split.
      * intros _. exists s'. auto.
      * intros [u [N Hu]]. exfalso. exact (HoldsW _ _ E A u N Hu).
    + destruct (goto_at s t _ WaitU (rw s) None Ht) as [s' [E [O A]]]. split.
      * intros Hal. exfalso. destruct (Only Hal) as [A1 A2]. unfold can_upgrade_lock in Ec. destruct (_ && _) in Ec; [|discriminate]. rewrite A1, A2 in Ec. discriminate.
      * intros _. exists s'. auto.
Qed.
Print Assumptions C22_recheck.

(** ** C22: no lost wake-ups *)
(** A reader blocked although nobody holds or wants the exclusive lock is about to be notified. *)
Theorem C22_readers_not_forgotten lw n s t : Z.of_nat n <= 65535 -> reach lw n s -> nth_error (th s) t = Some WaitR ->
  nobody s (fun x => holds_exclusive x \/ wants_exclusive x \/ upgrading x) -> exists u, nth_error (th s) u = Some PendR.
Proof.
  intros Hn R Ht Hf. pose proof (reach_ok lw n s Hn R) as Hok. apply (free_read lw n s Hok) in Hf. destruct Hok as [_ [_ [[L1 _] _]]].
  specialize (L1 Hf (cnt_pos isWaitR _ _ _ Ht eq_refl)). destruct (cnt_ex _ _ L1) as [u [y [Hy Py]]]. exists u. destruct y; try discriminate. exact Hy.
Qed.
(** A writer blocked although nobody holds the lock: some writer has been notified or is about to be. *)
Theorem C22_writers_not_forgotten lw n s t : Z.of_nat n <= 65535 -> reach lw n s -> nth_error (th s) t = Some WaitW ->
  nobody s (fun x => holds_exclusive x \/ holds_shared x) -> exists u, at_ s u (fun x => x = WakeW \/ x = PendW).
Proof.
  intros Hn R Ht Hf. pose proof (reach_ok lw n s Hn R) as Hok. apply (free_write lw n s Hok) in Hf. destruct Hok as [_ [_ [[_ L2] _]]].
  specialize (L2 Hf (cnt_pos isWaitW _ _ _ Ht eq_refl)). pose proof (cnt_bounds isWakeW (th s)). pose proof (cnt_bounds isPendW (th s)).
  destruct (Z.eq_dec (cnt isWakeW (th s)) 0) as [E|E].
  - destruct (cnt_ex isPendW (th s) ltac:(lia)) as [u [y [Hy Py]]]. exists u, y. destruct y; try discriminate. auto.
  - destruct (cnt_ex isWakeW (th s) ltac:(lia)) as [u [y [Hy Py]]]. exists u, y. destruct y; try discriminate. auto.
Qed.
(** Hence no deadlock among readers and writers: when nobody holds the lock, a waiting thread implies one that can run. *)
Theorem C22_no_deadlock lw n s t : Z.of_nat n <= 65535 -> reach lw n s -> nobody s (fun x => holds_exclusive x \/ holds_shared x) ->
  at_ s t (fun x => x = WaitR \/ x = WaitW) -> exists u a s' o, a <> Spurious /\ at_ s u (fun x => x = WakeR \/ x = WakeW \/ x = PendR \/ x = PendW) /\ step s u a = Next s' o.
Proof.
  intros Hn R Hf [x [Hx Px]].
  assert (Hu : exists u, at_ s u (fun x => x = WakeR \/ x = WakeW \/ x = PendR \/ x = PendW)).
  { destruct (Z.eq_dec (cnt isWaitW (th s)) 0) as [E|E].
    - destruct (Z.eq_dec (cnt isWakeW (th s)) 0) as [E'|E'].
      + destruct Px as [-> | ->]; [|pose proof (cnt_pos isWaitW _ _ _ Hx eq_refl); lia].
        destruct (C22_readers_not_forgotten lw n s t Hn R Hx) as [u Hu].
        * rewrite (nobody_or s holds_exclusive), (nobody_or s wants_exclusive). apply nobody_or in Hf. destruct Hf as [F1 F2]. split; [exact F1|split].
          -- apply zW. rewrite split_W. lia.
          -- intros v [y [Hy Py]]. apply (F2 v). exists y. split; [assumption|]. unfold holds_shared. destruct Py; auto.
        * exists u, PendR. auto.
      + destruct (cnt_ex isWakeW (th s) ltac:(pose proof (cnt_bounds isWakeW (th s)); lia)) as [u [y [Hy Py]]]. exists u, y. destruct y; try discriminate. auto.
    - destruct (cnt_ex isWaitW (th s) ltac:(pose proof (cnt_bounds isWaitW (th s)); lia)) as [u [y [Hy Py]]]. destruct y; try discriminate.
      destruct (C22_writers_not_forgotten lw n s u Hn R Hy Hf) as [v [z [Hz Pz]]]. exists v, z. split; [assumption|]. destruct Pz; auto. }
  destruct Hu as [u [y [Hy Py]]]. pose proof (reach_ok lw n s Hn R) as Hok.
  assert (Hen : exists a s' o, a <> Spurious /\ step s u a = Next s' o).
  { destruct Py as [-> | [-> | [-> | ->]]].
    - exists Recheck. pose proof (step_ok lw n s u Recheck Hn Hok ltac:(discriminate)) as G. unfold step in *. rewrite Hy in *. unfold enter_read in *.
      destruct (can_acquire_read_lock (rw s)); [|unfold goto; eexists _, _; split; [discriminate|reflexivity]].
      destruct (acquire_read_lock (rw s)); cbn [or_fail] in *; [|destruct G]. unfold goto. eexists _, _; split; [discriminate|reflexivity].
    - exists Recheck. pose proof (step_ok lw n s u Recheck Hn Hok ltac:(discriminate)) as G. unfold step in *. rewrite Hy in *. unfold enter_write in *.
      destruct (can_acquire_write_lock (rw s)); [|unfold goto; eexists _, _; split; [discriminate|reflexivity]].
      destruct (acquire_write_lock (rw s)); cbn [or_fail] in *; [|destruct G]. unfold goto. eexists _, _; split; [discriminate|reflexivity].
    - exists NotifyR. unfold step. rewrite Hy. eexists _, _; split; [discriminate|reflexivity].
    - destruct (existsb waits_write (th s)) eqn:E.
      + apply existsb_exists in E. destruct E as [z [Hin Hz]]. apply In_nth_error in Hin. destruct Hin as [w Hw].
        exists (NotifyW (Some w)). unfold step. rewrite Hy, Hw, Hz. eexists _, _; split; [discriminate|reflexivity].
      + exists (NotifyW None). unfold step. rewrite Hy, E. eexists _, _; split; [discriminate|reflexivity]. }
  destruct Hen as [a [s' [o [Ha Hs]]]]. exists u, a, s', o. split; [assumption|]. split; [|assumption]. exists y. auto.
Qed.
(** An upgrading thread is not forgotten either, provided nobody calls the blocking [lock_write]. *)
Theorem C22_upgrader_not_forgotten n s t : Z.of_nat n <= 65535 -> reach false n s -> nth_error (th s) t = Some WaitU ->
  (forall u, u <> t -> ~ at_ s u (fun x => holds_exclusive x \/ holds_shared x)) -> exists u, nth_error (th s) u = Some PendW.
Proof.
  intros Hn R Ht Hf. destruct (reach_ok false n s Hn R) as [Hl [[H1 [H2 [H3 [H4 [H5 H6]]]]] [_ HU]]]. destruct (HU eq_refl) as [Hw HLU].
  pose proof (cnt_pos isU _ _ _ Ht eq_refl). pose proof (cnt_pos isWaitU _ _ _ Ht eq_refl).
  assert (Z1 : cnt isHoldR (th s) = 0).
  { destruct (Z.eq_dec (cnt isHoldR (th s)) 0) as [|N]; [assumption|exfalso].
    destruct (cnt_ex isHoldR (th s) ltac:(pose proof (cnt_bounds isHoldR (th s)); lia)) as [u [y [Hy Py]]]. destruct y; try discriminate.
    apply (Hf u); [intros ->; rewrite Ht in Hy; discriminate|]. exists HoldR. split; [assumption|]. right. left. reflexivity. }
  assert (Z2 : cnt isHoldW (th s) = 0).
  { destruct (Z.eq_dec (cnt isHoldW (th s)) 0) as [|N]; [assumption|exfalso].
    destruct (cnt_ex isHoldW (th s) ltac:(pose proof (cnt_bounds isHoldW (th s)); lia)) as [u [y [Hy Py]]]. destruct y; try discriminate.
    apply (Hf u); [intros ->; rewrite Ht in Hy; discriminate|]. exists HoldW. split; [assumption|]. left. reflexivity. }
  destruct (reader_wants_upgrade (rw s)) eqn:E5; cbn [b2z] in *; [|lia].
  destruct (writer_active (rw s)) eqn:E4; cbn [b2z] in *; [lia|].
  assert (1 <= cnt isWakeU (th s) + cnt isPendW (th s)).
  { apply HLU; [reflexivity| |assumption]. unfold can_upgrade_lock. rewrite E5, E4. cbn [andb negb].
    destruct (Z.ltb_spec 0 (writers_waiting (rw s))); [|lia]. destruct (Z.eqb_spec (readers_active (rw s)) 1); [reflexivity|lia]. }
  pose proof (split_U (th s)). pose proof (cnt_bounds isPendW (th s)).
  destruct (cnt_ex isPendW (th s) ltac:(lia)) as [u [y [Hy Py]]]. exists u. destruct y; try discriminate. exact Hy.
Qed.

(** ** Where the claims fail *)
Inductive run (ok_act : action -> Prop) : state -> state -> Prop :=
| run_refl s : run ok_act s s
| run_step s t a s' o s2 : ok_act a -> step s t a = Next s' o -> run ok_act s' s2 -> run ok_act s s2.
(** With [lock_write], the wake-up of the upgrading thread can be lost: thread 1 is the only thread holding the lock, it waits
    for the upgrade that it could now perform, and no execution without a spurious wake-up ever lets it proceed. *)
Definition stuck := mkS [Idle; WaitU; WaitW] (mkC 0 2 1 false true).
Lemma reach_stuck : reach true 3 stuck.
Proof.
  assert (X : forall l s, reach true 3 s -> forall s', (fix go l s := match l with [] => Some s | (t, a) :: l' => match step s t a with Next s2 _ => go l' s2 | _ => None end end) l s = Some s' -> reach true 3 s').
  { induction l as [|[t a] l IH]; intros s R s' E; [injection E as <-; exact R|].
    destruct (step s t a) as [| |s2 o] eqn:Es; try discriminate. apply (IH s2); [|exact E]. eapply reach_step; eauto. discriminate. }
  apply (X [(0, LockRead); (1, LockRead); (1, Upgrade); (2, LockWrite); (0, UnlockRead); (0, NotifyW (Some 2)); (2, Recheck)]%nat (init 3)); [constructor|].
  vm_compute. reflexivity.
Qed.
Theorem C22_refuted_upgrade_wakeup_lost : exists s, reach true 3 s /\ nth_error (th s) 1 = Some WaitU /\
  (forall u, u <> 1%nat -> ~ at_ s u (fun x => holds_exclusive x \/ holds_shared x)) /\
  (forall s', run (fun a => a <> Spurious) s s' -> nth_error (th s') 1 = Some WaitU).
Proof.
  exists stuck. split; [exact reach_stuck|]. split; [reflexivity|]. split.
  - intros u N [x [Hx Px]]. destruct u as [|[|[|u]]]; cbn in Hx; try congruence; try (injection Hx as <-; destruct Px as [X|[X|[X|X]]]; discriminate).
    destruct u; discriminate.
  - assert (I : forall s s', run (fun a => a <> Spurious) s s' ->
      (s = stuck \/ s = mkS [WaitR; WaitU; WaitW] (mkC 1 2 1 false true) \/ s = mkS [WaitW; WaitU; WaitW] (mkC 0 3 1 false true)) -> nth_error (th s') 1 = Some WaitU).
    { intros s s' Hr. induction Hr as [s|s t a s1 o s2 Ha Hs Hr IH]; intros D.
      - destruct D as [-> | [-> | ->]]; reflexivity.
      - apply IH. clear IH Hr. destruct t as [|[|[|t]]]; [| | |destruct D as [-> | [-> | ->]]; cbn in Hs; destruct t; discriminate];
          destruct D as [-> | [-> | ->]]; destruct a; cbn in Hs; try discriminate; try (exfalso; apply Ha; reflexivity); injection Hs as <- <-; unfold stuck; auto. }
    intros s' Hr. apply (I stuck s' Hr). auto.
Qed.
(** With more than 65536 threads the reader counter wraps around to 0 and a writer is admitted next to 65536 readers. *)
Lemma set_mid k m x : set_th (repeat HoldR k ++ x :: repeat Idle m) k HoldR = repeat HoldR (S k) ++ repeat Idle m.
Proof. induction k as [|k IH]; cbn in *; [reflexivity|]. f_equal. exact IH. Qed.
Lemma nth_mid {A} k m (a x b : A) : nth_error (repeat a k ++ x :: repeat b m) k = Some x.
Proof. rewrite nth_error_app2; rewrite repeat_length; [|lia]. rewrite Nat.sub_diag. reflexivity. Qed.
Lemma reach_readers k m : reach true (k + m) (mkS (repeat HoldR k ++ repeat Idle m) (mkC 0 0 (Z.of_nat k mod 65536) false false)).
Proof.
  revert m. induction k as [|k IH]; intros m.
  - cbn [repeat app Nat.add]. rewrite Z.mod_0_l by discriminate. constructor.
  - specialize (IH (S m)). replace (S k + m)%nat with (k + S m)%nat by lia.
    eapply (reach_step _ _ _ k LockRead); [exact IH|discriminate|].
    unfold step. cbn [th rw repeat]. rewrite nth_mid. unfold enter_read, can_acquire_read_lock, request_read_lock, acquire_read_lock.
    cbn [readers_waiting writers_waiting readers_active writer_active reader_wants_upgrade]. unfold goto. cbn [th].
    change (negb false && negb false && (0 =? 0) && (0 <? inc16 0)) with true.
    change (can_acquire_read_lock {| readers_waiting := inc16 0; writers_waiting := 0; readers_active := Z.of_nat k mod 65536; writer_active := false; reader_wants_upgrade := false |}) with true.
    change (negb false && negb false && (0 =? 0)) with true. change (true && (0 <? inc16 0)) with true. cbv iota. cbn [or_fail]. rewrite set_mid.
    replace (dec16 (inc16 0)) with 0 by reflexivity.
    replace (inc16 (Z.of_nat k mod 65536)) with (Z.of_nat (S k) mod 65536); [reflexivity|].
    unfold inc16. rewrite Zplus_mod_idemp_l. f_equal. lia.
Qed.
Theorem C21_overflow_refuted : exists n s t u, reach true n s /\ t <> u /\ at_ s t holds_exclusive /\ at_ s u holds_shared.
Proof.
  remember (Z.to_nat 65536) as k eqn:Ek. assert (Hk : Z.of_nat k = 65536) by (subst k; apply Z2Nat.id; discriminate). clear Ek.
  exists (k + 1)%nat, (mkS (set_th (repeat HoldR k ++ [Idle]) k HoldW) (mkC 0 0 0 true false)), k, O.
  assert (Hn : nth_error (repeat HoldR k ++ [Idle]) k = Some Idle) by (apply (nth_mid k 0 HoldR Idle Idle)).
  split; [|split; [lia|split]].
  - pose proof (reach_readers k 1) as R. rewrite Hk in R. change (65536 mod 65536) with 0 in R. cbn [repeat] in R.
    eapply (reach_step _ _ _ k LockWrite); [exact R|discriminate|]. unfold step. cbn [th rw]. rewrite Hn. reflexivity.
  - exists HoldW. split; [|reflexivity]. cbn [th]. rewrite (nth_set _ _ _ _ _ Hn), Nat.eqb_refl. reflexivity.
  - exists HoldR. split; [|left; reflexivity]. cbn [th]. rewrite (nth_set _ _ _ _ _ Hn). destruct k as [|k]; [lia|]. reflexivity.
Qed.

(** ** Non-vacuity: an execution with an upgrade, three threads *)
Example C21_example : exists s, reach true 3 s /\ th s = [Idle; HoldW; WaitR].
Proof.
  assert (X : forall l s, reach true 3 s -> forall s', (fix go l s := match l with [] => Some s | (t, a) :: l' => match step s t a with Next s2 _ => go l' s2 | _ => None end end) l s = Some s' -> reach true 3 s').
  { induction l as [|[t a] l IH]; intros s R s' E; [injection E as <-; exact R|].
    destruct (step s t a) as [| |s2 o] eqn:Es; try discriminate. apply (IH s2); [|exact E]. eapply reach_step; eauto. discriminate. }
  eexists. split.
  - apply (X [(0, LockRead); (1, LockRead); (1, Upgrade); (2, LockRead); (0, UnlockRead); (0, NotifyW (Some 1)); (1, Recheck)]%nat (init 3)); [constructor|].
    cbv. reflexivity.
  - reflexivity.
Qed.
