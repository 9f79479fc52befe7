(** * C20: the interning pool *)
From Coq Require Import List Bool ZArith Lia.
From Verif Require Import RWLock RWLockProps Pool.
Import ListNotations.
Local Open Scope Z_scope.

(** ** Effect of the lock's actions on the states of the threads *)
Definition own (x : ts) (a : action) (o : option bool) (y : ts) : bool :=
  match x, a with
  | Idle, LockRead => match y with HoldR | WaitR => true | _ => false end
  | HoldR, Upgrade => match o, y with Some false, HoldR => true | Some true, HoldW => true | None, WaitU => true | _, _ => false end
  | HoldR, UnlockRead => match y with Idle | PendW => true | _ => false end
  | HoldW, UnlockWrite => match y with Idle | PendR | PendW => true | _ => false end
  | WakeR, Recheck => match y with HoldR | WaitR => true | _ => false end
  | WakeW, Recheck => match y with HoldW | WaitW => true | _ => false end
  | WakeU, Recheck => match y with HoldW | WaitU => true | _ => false end
  | WaitR, Spurious => match y with WakeR => true | _ => false end
  | WaitW, Spurious => match y with WakeW => true | _ => false end
  | WaitU, Spurious => match y with WakeU => true | _ => false end
  | PendR, NotifyR => match y with Idle => true | _ => false end
  | PendW, NotifyW _ => match y with Idle => true | _ => false end
  | _, _ => false
  end.
Lemma own_self s t x : nth_error (th s) t = Some x -> forall y, nth_error (set_th (th s) t y) t = Some y.
Proof. intros H y. rewrite (nth_set _ _ _ _ _ H), Nat.eqb_refl. reflexivity. Qed.
Lemma own_other s t u x : nth_error (th s) t = Some x -> u <> t -> forall y, nth_error (set_th (th s) t y) u = nth_error (th s) u.
Proof. intros H N y. rewrite (nth_set _ _ _ _ _ H). destruct (Nat.eqb_spec u t); congruence. Qed.

Definition pool_action (a : action) : bool := match a with LockWrite | TryRead | TryWrite => false | _ => true end.
Lemma step_effect s t a s' o : pool_action a = true -> step s t a = Next s' o ->
  exists x y, nth_error (th s) t = Some x /\ nth_error (th s') t = Some y /\ own x a o y = true /\
  forall u, u <> t -> nth_error (th s') u = nth_error (th s) u \/ exists z, nth_error (th s) u = Some z /\ nth_error (th s') u = Some (wake z).
Proof.
  intros Ha H. unfold step in H. destruct (nth_error (th s) t) as [x|] eqn:Ht; [|discriminate].
  assert (G : forall y c q, goto s t y c q = Next s' o -> own x a q y = true ->
     exists x0 y0, Some x = Some x0 /\ nth_error (th s') t = Some y0 /\ own x0 a o y0 = true /\
     forall u, u <> t -> nth_error (th s') u = nth_error (th s) u \/ exists z, nth_error (th s) u = Some z /\ nth_error (th s') u = Some (wake z)).
  { intros y c q E Ho. unfold goto in E. injection E as <- <-. exists x, y. split; [reflexivity|]. cbn [th]. split; [apply (own_self s t x Ht)|].
    split; [exact Ho|]. intros u N. left. apply (own_other s t u x Ht N). }
  destruct x, a; try discriminate; unfold enter_read, enter_write, enter_upgrade, or_fail, try_request_upgrade in H;
    repeat match type of H with
    | AssertFail = _ => discriminate
    | NotEnabled = _ => discriminate
    | goto _ _ _ _ _ = _ => apply (G _ _ _ H); reflexivity
    | Next s _ = _ => injection H as <- <-; exists HoldR, HoldR; auto
    | (match ?e with _ => _ end) = _ => destruct e eqn:?
    end; try discriminate.
  - injection H as <- <-. exists PendR, Idle. cbn [th].
    set (f := fun x => match x with WaitR => WakeR | y => y end).
    assert (Hm : nth_error (map f (th s)) t = Some PendR) by (rewrite nth_error_map, Ht; reflexivity).
    split; [reflexivity|]. split; [apply (own_self (mkS (map f (th s)) (rw s)) t PendR Hm)|]. split; [reflexivity|].
    intros u N. rewrite (own_other (mkS (map f (th s)) (rw s)) t u PendR Hm N). cbn [th]. rewrite nth_error_map.
    destruct (nth_error (th s) u) as [z|] eqn:Eu; cbn [option_map]; [|left; reflexivity].
    destruct z; cbn [f]; auto. right. exists WaitR. auto.
  - injection H as <- <-. exists PendW, Idle. cbn [th]. clear G. match goal with E : nth_error (th s) n = Some t0 |- _ => rename E into En end.
    assert (Nw : t <> n) by (intros ->; rewrite Ht in En; injection En as <-; discriminate).
    assert (Hm : nth_error (set_th (th s) n (wake t0)) t = Some PendW) by (rewrite (nth_set _ _ _ _ _ En); destruct (Nat.eqb_spec t n); congruence).
    split; [reflexivity|]. split; [apply (own_self (mkS (set_th (th s) n (wake t0)) (rw s)) t PendW Hm)|]. split; [reflexivity|].
    intros u N. rewrite (own_other (mkS (set_th (th s) n (wake t0)) (rw s)) t u PendW Hm N). cbn [th].
    rewrite (nth_set _ _ _ _ _ En). destruct (Nat.eqb_spec u n) as [->|]; [|auto]. right. exists t0. auto.
Qed.

Section PoolProps.
Context {V : Type} (eqb : V -> V -> bool).
Hypothesis eqb_spec : forall a b, eqb a b = true <-> a = b.

Lemma find_from_some (l : list (V * Z)) u : forall k i, find_from eqb k l u = Some i -> exists j c, i = (k + j)%nat /\ nth_error l j = Some (u, c).
Proof.
  induction l as [|[v c] l IH]; intros k i H; cbn [find_from] in H; [discriminate|].
  destruct (eqb v u) eqn:E.
  - injection H as <-. apply eqb_spec in E. subst v. exists O, c. split; [lia|reflexivity].
  - destruct (IH _ _ H) as [j [c' [-> Hj]]]. exists (S j), c'. split; [lia|exact Hj].
Qed.
Lemma find_from_none (l : list (V * Z)) u : forall k, find_from eqb k l u = None <-> ~ In u (map fst l).
Proof.
  induction l as [|[v c] l IH]; intros k; cbn [find_from map fst In]; [split; [intros _ []|reflexivity]|].
  destruct (eqb v u) eqn:E.
  - apply eqb_spec in E. subst v. split; [discriminate|]. intros H. exfalso. apply H. auto.
  - rewrite IH. split; [|intros H X; apply H; auto]. intros H [X|X]; [|auto]. apply eqb_spec in X. congruence.
Qed.
Lemma find_some l u i : find eqb l u = Some i -> exists c, nth_error l i = Some (u, c).
Proof. intros H. destruct (find_from_some l u 0 i H) as [j [c [-> Hj]]]. exists c. exact Hj. Qed.
Lemma find_none l u : find eqb l u = None <-> ~ In u (map fst l).
Proof. apply find_from_none. Qed.
Lemma bump_nth (l : list (V * Z)) i d j : nth_error (bump l i d) j =
  match nth_error l j with Some (v, c) => Some (v, if Nat.eqb j i then (c + d) mod 4294967296 else c) | None => None end.
Proof.
  revert i j. induction l as [|[v c] l IH]; intros [|i] [|j]; cbn [bump nth_error Nat.eqb]; try reflexivity.
  - destruct (nth_error l j) as [[]|]; reflexivity.
  - apply IH.
Qed.
Lemma bump_keys (l : list (V * Z)) i d : map fst (bump l i d) = map fst l.
Proof. revert i. induction l as [|[v c] l IH]; intros [|i]; cbn [bump map fst]; try reflexivity. rewrite IH. reflexivity. Qed.
Lemma bump_find l i d u : find eqb (bump l i d) u = None <-> find eqb l u = None.
Proof. rewrite !find_none, bump_keys. reflexivity. Qed.
Lemma bump_length (l : list (V * Z)) i d : length (bump l i d) = length l.
Proof. rewrite <- (map_length fst), bump_keys, map_length. reflexivity. Qed.
Lemma set_pc_nth (l : list (pc V)) i j x y : nth_error l i = Some y -> nth_error (set_pc l i x) j = if Nat.eqb j i then Some x else nth_error l j.
Proof.
  revert i j. induction l as [|z l IH]; intros [|i] [|j] H; cbn [nth_error set_pc Nat.eqb] in *; try discriminate; try reflexivity.
  apply IH. exact H.
Qed.
Lemma set_pc_length (l : list (pc V)) i x : length (set_pc l i x) = length l.
Proof. revert i. induction l as [|z l IH]; intros [|i]; cbn; auto. Qed.

(** handles under construction *)
Definition carries (i : nat) (c : pc V) : bool := match c with PRelR _ j | PRelW _ j | PRet _ j => Nat.eqb i j | _ => false end.
Fixpoint inflight (i : nat) (l : list (pc V)) : Z := match l with [] => 0 | c :: l' => b2z (carries i c) + inflight i l' end.
Fixpoint occ (i : nat) (l : list nat) : Z := match l with [] => 0 | j :: l' => b2z (Nat.eqb i j) + occ i l' end.
Lemma inflight_set i l t x y : nth_error l t = Some y -> inflight i (set_pc l t x) = inflight i l - b2z (carries i y) + b2z (carries i x).
Proof.
  revert t. induction l as [|z l IH]; intros [|t] H; cbn [nth_error set_pc inflight] in *; try discriminate.
  - injection H as ->. lia.
  - rewrite (IH t H). lia.
Qed.
Lemma occ_remove i j l : In j l -> occ i (remove_one j l) = occ i l - b2z (Nat.eqb i j).
Proof.
  induction l as [|k l IH]; intros H; [destruct H|]. cbn [remove_one occ]. destruct (Nat.eqb_spec k j) as [->|N].
  - lia.
  - cbn [occ]. rewrite IH; [lia|]. destruct H; [congruence|assumption].
Qed.

Definition compat (c : pc V) (x : ts) : bool :=
  match c, x with
  | PIdle, Idle => true
  | PFind _, (HoldR | WaitR | WakeR) => true
  | PUp _, HoldR | PBack _, HoldR | PRelR _ _, HoldR => true
  | PRetry _, (Idle | PendW) => true
  | PIns _, (WaitU | WakeU | HoldW) => true
  | PRelW _ _, HoldW => true
  | PRet _ _, (Idle | PendR | PendW) => true
  | _, _ => false
  end.
Definition absent_at (c : pc V) (u : V) : Prop := c = PUp u \/ c = PIns u.
Definition result_at (c : pc V) (u : V) (i : nat) : Prop := c = PRelR u i \/ c = PRelW u i \/ c = PRet u i.

Record PInv (n : nat) (p : pstate V) (tr : list (event V)) : Prop := {
  pi_lock : reach false n (lk p);
  pi_len : length (pcs p) = n;
  pi_compat : forall t c, nth_error (pcs p) t = Some c -> exists x, nth_error (th (lk p)) t = Some x /\ compat c x = true;
  pi_nodup : NoDup (map fst (tab p));
  pi_absent : forall t c u, nth_error (pcs p) t = Some c -> absent_at c u -> find eqb (tab p) u = None;
  pi_result : forall t c u i, nth_error (pcs p) t = Some c -> result_at c u i -> exists k, nth_error (tab p) i = Some (u, k);
  pi_count : forall i v k, nth_error (tab p) i = Some (v, k) -> k = (occ i (live p) + inflight i (pcs p)) mod 4294967296;
  pi_live : forall i, In i (live p) -> (i < length (tab p))%nat;
  pi_trace : forall t u i, In (Ret t u i) tr -> exists k, nth_error (tab p) i = Some (u, k)
}.

Lemma compat_wake c x : compat c x = true -> compat c (wake x) = true.
Proof. destruct c, x; cbn; auto. Qed.

Lemma pinv_init n : PInv n (pinit n) [].
Proof.
  assert (Hn : forall t c, nth_error (repeat (@PIdle V) n) t = Some c -> c = PIdle /\ nth_error (repeat Idle n) t = Some Idle).
  { intros t c H. pose proof (nth_error_In _ _ H) as I. apply repeat_spec in I. subst c. split; [reflexivity|].
    assert (t < n)%nat by (rewrite <- (repeat_length (@PIdle V) n); apply nth_error_Some; congruence).
    destruct (nth_error (repeat Idle n) t) as [x|] eqn:E; [apply nth_error_In in E; apply repeat_spec in E; congruence|].
    apply nth_error_None in E. rewrite repeat_length in E. lia. }
  constructor; cbn [pinit lk tab pcs live map fst length].
  - constructor.
  - apply repeat_length.
  - intros t c H. destruct (Hn t c H) as [-> H']. exists Idle. auto.
  - constructor.
  - intros; reflexivity.
  - intros t c u i H [X|[X|X]]; destruct (Hn t c H) as [-> _]; discriminate.
  - intros [|i] v k H; discriminate.
  - intros i [].
  - intros t u i [].
Qed.

(** Lock-only steps. *)
Lemma pinv_lockstep n p tr t a s' o c c' e : PInv n p tr -> pool_action a = true -> step (lk p) t a = Next s' o ->
  nth_error (pcs p) t = Some c -> (forall x y, compat c x = true -> own x a o y = true -> compat c' y = true) ->
  (forall u, absent_at c' u -> absent_at c u) -> (forall u i, result_at c' u i -> result_at c u i) -> (forall i, carries i c' = carries i c) ->
  (forall t u i, e <> Ret t u i) ->
  PInv n (mkP s' (tab p) (set_pc (pcs p) t c') (live p)) (e :: tr).
Proof.
  intros I Ha Hs Hc Hcomp Habs Hres Hcar He. destruct (step_effect _ _ _ _ _ Ha Hs) as [x [y [Hx [Hy [Ho Hoth]]]]].
  constructor; cbn [lk tab pcs live].
  - eapply reach_step; [apply (pi_lock _ _ _ I)| |exact Hs]. intros _ ->. discriminate.
  - rewrite set_pc_length. apply (pi_len _ _ _ I).
  - intros u d. rewrite (set_pc_nth _ _ _ _ _ Hc). destruct (Nat.eqb_spec u t) as [->|N].
    + intros E. injection E as <-. exists y. split; [exact Hy|]. destruct (pi_compat _ _ _ I t c Hc) as [x' [Hx' Hco]]. rewrite Hx in Hx'. injection Hx' as <-.
      apply (Hcomp x y Hco Ho).
    + intros E. destruct (pi_compat _ _ _ I u d E) as [z [Hz Hco]]. destruct (Hoth u N) as [Eq | [z' [E1 E2]]].
      * exists z. rewrite Eq. auto.
      * exists (wake z). rewrite Hz in E1. injection E1 as <-. split; [exact E2|]. apply compat_wake. exact Hco.
  - apply (pi_nodup _ _ _ I).
  - intros u d v. rewrite (set_pc_nth _ _ _ _ _ Hc). destruct (Nat.eqb_spec u t) as [->|N].
    + intros E. injection E as <-. intros A. apply (pi_absent _ _ _ I t c v Hc (Habs v A)).
    + apply (pi_absent _ _ _ I).
  - intros u d v i. rewrite (set_pc_nth _ _ _ _ _ Hc). destruct (Nat.eqb_spec u t) as [->|N].
    + intros E. injection E as <-. intros A. apply (pi_result _ _ _ I t c v i Hc (Hres v i A)).
    + apply (pi_result _ _ _ I).
  - intros i v k Hi. rewrite (inflight_set _ _ _ _ _ Hc), Hcar. rewrite (pi_count _ _ _ I i v k Hi). f_equal. lia.
  - apply (pi_live _ _ _ I).
  - intros t0 u i [E|Hin]; [exfalso; apply (He _ _ _ E)|]. apply (pi_trace _ _ _ I t0 u i Hin).
Qed.

(** The table is only touched while nobody else looks for a missing value: *)
Lemma no_absent_while_writing n p tr t u d v : Z.of_nat n <= 65535 -> PInv n p tr -> nth_error (th (lk p)) t = Some HoldW -> u <> t ->
  nth_error (pcs p) u = Some d -> ~ absent_at d v.
Proof.
  intros Hn I Hw N Hd A. destruct (pi_compat _ _ _ I u d Hd) as [x [Hx Hc]].
  apply N. apply (C21_mutual_exclusion false n (lk p) t u Hn (pi_lock _ _ _ I)).
  - exists HoldW. split; [exact Hw|reflexivity].
  - exists x. split; [exact Hx|]. unfold holds_exclusive, holds_shared. destruct A as [-> | ->]; destruct x; try discriminate; auto.
Qed.

Lemma emplace_absent l u : find eqb l u = None -> emplace eqb l u = (l ++ [(u, 0)], length l).
Proof. unfold emplace. intros ->. reflexivity. Qed.

Lemma pinv_step n p tr e p' : Z.of_nat n <= 65535 -> PInv n p tr -> pstep eqb p e p' -> PInv n p' (e :: tr).
Proof.
  intros Hn I H. destruct H as [t u s' o Hc Hs|t a s' o Ha Hs|t u i Hc Ht Hf|t u Hc Ht Hf|t u s' o Hc Hs|t u s' o Hc Hs|t u s' o Hc Hs|t u tb i Hc Ht He|t u i s' o Hc Hs|t u i s' o Hc Hs|t u i Hc Ht|i Hi|i Hi].
  - eapply (pinv_lockstep n p tr t LockRead s' o PIdle (PFind u)); eauto; try reflexivity.
    + intros [] []; cbn; congruence.
    + intros v [X|X]; discriminate.
    + intros v i [X|[X|X]]; discriminate.
    + discriminate.
  - (* internal *)
    assert (Hc : exists c, nth_error (pcs p) t = Some c).
    { destruct (nth_error (pcs p) t) eqn:E; [eauto|]. exfalso. apply nth_error_None in E. rewrite (pi_len _ _ _ I) in E.
      destruct (reach_ok false n (lk p) Hn (pi_lock _ _ _ I)) as [Hl _]. unfold step in Hs. assert (X : nth_error (th (lk p)) t = None) by (apply nth_error_None; lia).
      rewrite X in Hs. discriminate. }
    destruct Hc as [c Hc].
    assert (Hsame : set_pc (pcs p) t c = pcs p).
    { clear - Hc. revert t Hc. induction (pcs p) as [|z l IH]; intros [|t] H; cbn in *; try discriminate; [congruence|]. rewrite (IH t H). reflexivity. }
    rewrite <- Hsame. eapply (pinv_lockstep n p tr t a s' o c c); eauto; try (destruct a; (reflexivity || discriminate)); try discriminate.
    intros x y Hx Ho. destruct c, x; cbn in Hx; try discriminate; destruct a; try discriminate; destruct y; cbn in *; try discriminate; reflexivity.
  - (* found *)
    destruct (find_some _ _ _ Hf) as [k Hk].
    constructor; cbn [lk tab pcs live].
    + apply (pi_lock _ _ _ I).
    + rewrite set_pc_length. apply (pi_len _ _ _ I).
    + intros v d. rewrite (set_pc_nth _ _ _ _ _ Hc). destruct (Nat.eqb_spec v t) as [->|N]; [|apply (pi_compat _ _ _ I)].
      intros E. injection E as <-. exists HoldR. auto.
    + rewrite bump_keys. apply (pi_nodup _ _ _ I).
    + intros v d w. rewrite (set_pc_nth _ _ _ _ _ Hc), bump_find. destruct (Nat.eqb_spec v t) as [->|N]; [|apply (pi_absent _ _ _ I)].
      intros E. injection E as <-. intros [X|X]; discriminate.
    + intros v d w j. rewrite (set_pc_nth _ _ _ _ _ Hc), bump_nth. destruct (Nat.eqb_spec v t) as [->|N].
      * intros E. injection E as <-. intros [X|[X|X]]; try discriminate. injection X as <- <-. rewrite Hk. eexists; reflexivity.
      * intros Hd A. destruct (pi_result _ _ _ I _ _ _ _ Hd A) as [k' Hk']. rewrite Hk'. eexists; reflexivity.
    + intros j v k'. rewrite bump_nth, (inflight_set _ _ _ _ _ Hc). destruct (nth_error (tab p) j) as [[v' k0]|] eqn:Ej; [|discriminate].
      intros E. injection E as <- <-. pose proof (pi_count _ _ _ I j v' k0 Ej) as C. cbn [carries]. destruct (Nat.eqb j i); cbn [b2z].
      * rewrite C, Zplus_mod_idemp_l. f_equal. lia.
      * rewrite C. f_equal. lia.
    + intros j. rewrite bump_length. apply (pi_live _ _ _ I).
    + intros t0 v j [E|Hin]; [discriminate|]. rewrite bump_nth. destruct (pi_trace _ _ _ I t0 v j Hin) as [k' Hk']. rewrite Hk'. eexists; reflexivity.
  - (* absent *)
    constructor; cbn [lk tab pcs live]; try apply I.
    + rewrite set_pc_length. apply (pi_len _ _ _ I).
    + intros v d. rewrite (set_pc_nth _ _ _ _ _ Hc). destruct (Nat.eqb_spec v t) as [->|N]; [|apply (pi_compat _ _ _ I)].
      intros E. injection E as <-. exists HoldR. auto.
    + intros v d w. rewrite (set_pc_nth _ _ _ _ _ Hc). destruct (Nat.eqb_spec v t) as [->|N]; [|apply (pi_absent _ _ _ I)].
      intros E. injection E as <-. intros [X|X]; [injection X as <-; exact Hf|discriminate].
    + intros v d w j. rewrite (set_pc_nth _ _ _ _ _ Hc). destruct (Nat.eqb_spec v t) as [->|N]; [|apply (pi_result _ _ _ I)].
      intros E. injection E as <-. intros [X|[X|X]]; discriminate.
    + intros j v k Hj. rewrite (inflight_set _ _ _ _ _ Hc), (pi_count _ _ _ I j v k Hj). f_equal. cbn [carries b2z]. lia.
    + intros t0 v j [E|Hin]; [discriminate|]. apply (pi_trace _ _ _ I t0 v j Hin).
  - (* upgrade *)
    eapply (pinv_lockstep n p tr t Upgrade s' o (PUp u)); eauto; try reflexivity; try discriminate.
    + intros x y Hx Ho. destruct x; cbn in *; try discriminate. destruct o as [[]|], y; try discriminate; reflexivity.
    + intros v [X|X]; destruct o as [[]|]; try discriminate; injection X as <-; left; reflexivity.
    + intros v i [X|[X|X]]; destruct o as [[]|]; discriminate.
    + intros i. destruct o as [[]|]; reflexivity.
  - eapply (pinv_lockstep n p tr t UnlockRead s' o (PBack u)); eauto; try reflexivity; try discriminate.
    + intros [] []; cbn; congruence.
    + intros v [X|X]; discriminate.
    + intros v i [X|[X|X]]; discriminate.
  - eapply (pinv_lockstep n p tr t LockRead s' o (PRetry u)); eauto; try reflexivity; try discriminate.
    + intros [] []; cbn; congruence.
    + intros v [X|X]; discriminate.
    + intros v i [X|[X|X]]; discriminate.
  - (* insert *)
    assert (Hf : find eqb (tab p) u = None) by (eapply (pi_absent _ _ _ I t (PIns u) u Hc); right; reflexivity).
    rewrite (emplace_absent _ _ Hf) in He. injection He as <- <-.
    assert (Hold : forall j v k, nth_error (tab p) j = Some (v, k) -> nth_error (bump (tab p ++ [(u, 0)]) (length (tab p)) 1) j = Some (v, k)).
    { intros j v k Hj. rewrite bump_nth, nth_error_app1, Hj by (apply nth_error_Some; congruence).
      destruct (Nat.eqb_spec j (length (tab p))) as [->|]; [|reflexivity]. exfalso. assert (length (tab p) < length (tab p))%nat by (apply nth_error_Some; congruence). lia. }
    assert (Hnew : nth_error (bump (tab p ++ [(u, 0)]) (length (tab p)) 1) (length (tab p)) = Some (u, 1)).
    { rewrite bump_nth, nth_error_app2, Nat.sub_diag, Nat.eqb_refl by lia. reflexivity. }
    constructor; cbn [lk tab pcs live].
    + apply (pi_lock _ _ _ I).
    + rewrite set_pc_length. apply (pi_len _ _ _ I).
    + intros v d. rewrite (set_pc_nth _ _ _ _ _ Hc). destruct (Nat.eqb_spec v t) as [->|N]; [|apply (pi_compat _ _ _ I)].
      intros E. injection E as <-. exists HoldW. auto.
    + rewrite bump_keys, map_app. cbn [map fst]. apply find_none in Hf. pose proof (pi_nodup _ _ _ I) as ND. clear - Hf ND.
      induction (map fst (tab p)) as [|a l IH]; cbn [app]; [constructor; [intros []|constructor]|].
      inversion ND; subst. constructor; [|apply IH; [intros X; apply Hf; right; exact X|assumption]].
      rewrite in_app_iff. intros [X|[X|[]]]; [auto|]. apply Hf. left. congruence.
    + intros v d w. rewrite (set_pc_nth _ _ _ _ _ Hc). destruct (Nat.eqb_spec v t) as [->|N].
      * intros E. injection E as <-. intros [X|X]; discriminate.
      * intros Hd A. exfalso. eapply (no_absent_while_writing n p tr t v d w Hn I Ht N Hd A).
    + intros v d w j. rewrite (set_pc_nth _ _ _ _ _ Hc). destruct (Nat.eqb_spec v t) as [->|N].
      * intros E. injection E as <-. intros [X|[X|X]]; try discriminate. injection X as <- <-. exists 1. exact Hnew.
      * intros Hd A. destruct (pi_result _ _ _ I _ _ _ _ Hd A) as [k Hk]. exists k. apply Hold. exact Hk.
    + intros j v k Hj. rewrite (inflight_set _ _ _ _ _ Hc). cbn [carries].
      destruct (Nat.eqb_spec j (length (tab p))) as [->|N].
      * rewrite Hnew in Hj. injection Hj as <- <-. cbn [b2z].
        assert (Z1 : occ (length (tab p)) (live p) = 0).
        { pose proof (pi_live _ _ _ I) as L. clear - L. induction (live p) as [|j l IH]; cbn [occ]; [reflexivity|].
          rewrite IH by (intros i Hi; apply L; right; exact Hi). specialize (L j (or_introl eq_refl)). destruct (Nat.eqb_spec (length (tab p)) j); [lia|reflexivity]. }
        assert (Z2 : inflight (length (tab p)) (pcs p) = 0).
        { assert (L : forall c w j, In c (pcs p) -> result_at c w j -> (j < length (tab p))%nat).
          { intros c w j Hin A. apply In_nth_error in Hin. destruct Hin as [v Hv]. destruct (pi_result _ _ _ I v c w j Hv A) as [k Hk]. apply nth_error_Some. congruence. }
          clear - L. induction (pcs p) as [|c l IH]; cbn [inflight]; [reflexivity|]. rewrite IH by (intros c' w j Hi; apply L; right; exact Hi).
          assert (carries (length (tab p)) c = false) as ->; [|reflexivity].
          destruct c; cbn [carries]; try reflexivity; apply Nat.eqb_neq; specialize (L _ u i (or_introl eq_refl) ltac:(unfold result_at; auto)); lia. }
        rewrite Z1, Z2. reflexivity.
      * rewrite bump_nth in Hj. cbn [b2z].
        destruct (nth_error (tab p ++ [(u, 0)]) j) as [[v' k']|] eqn:E; [|discriminate]. destruct (Nat.eqb_spec j (length (tab p))); [congruence|]. injection Hj as <- <-.
        assert (j < length (tab p))%nat. { assert (j < length (tab p ++ [(u, 0%Z)]))%nat by (apply nth_error_Some; congruence). rewrite app_length in H. cbn in H. lia. }
        rewrite nth_error_app1 in E by assumption. rewrite (pi_count _ _ _ I j v' k' E). f_equal. lia.
    + intros j Hj. rewrite bump_length, app_length. pose proof (pi_live _ _ _ I j Hj). cbn. lia.
    + intros t0 v j [E|Hin]; [discriminate|]. destruct (pi_trace _ _ _ I t0 v j Hin) as [k Hk]. exists k. apply Hold. exact Hk.
  - eapply (pinv_lockstep n p tr t UnlockRead s' o (PRelR u i)); eauto; try reflexivity; try discriminate.
    + intros [] []; cbn; congruence.
    + intros v [X|X]; discriminate.
    + intros v j [X|[X|X]]; try discriminate. injection X as <- <-. left. reflexivity.
  - eapply (pinv_lockstep n p tr t UnlockWrite s' o (PRelW u i)); eauto; try reflexivity; try discriminate.
    + intros [] []; cbn; congruence.
    + intros v [X|X]; discriminate.
    + intros v j [X|[X|X]]; try discriminate. injection X as <- <-. right. left. reflexivity.
  - (* return *)
    destruct (pi_result _ _ _ I t _ u i Hc ltac:(right; right; reflexivity)) as [k Hk].
    constructor; cbn [lk tab pcs live]; try apply I.
    + rewrite set_pc_length. apply (pi_len _ _ _ I).
    + intros v d. rewrite (set_pc_nth _ _ _ _ _ Hc). destruct (Nat.eqb_spec v t) as [->|N]; [|apply (pi_compat _ _ _ I)].
      intros E. injection E as <-. exists Idle. auto.
    + intros v d w. rewrite (set_pc_nth _ _ _ _ _ Hc). destruct (Nat.eqb_spec v t) as [->|N]; [|apply (pi_absent _ _ _ I)].
      intros E. injection E as <-. intros [X|X]; discriminate.
    + intros v d w j. rewrite (set_pc_nth _ _ _ _ _ Hc). destruct (Nat.eqb_spec v t) as [->|N]; [|apply (pi_result _ _ _ I)].
      intros E. injection E as <-. intros [X|[X|X]]; discriminate.
    + intros j v k' Hj. rewrite (inflight_set _ _ _ _ _ Hc), (pi_count _ _ _ I j v k' Hj). f_equal. cbn [carries occ b2z]. lia.
    + intros j [<-|Hj]; [apply nth_error_Some; congruence|apply (pi_live _ _ _ I j Hj)].
    + intros t0 v j [E|Hin]; [injection E as <- <- <-; eauto|]. apply (pi_trace _ _ _ I t0 v j Hin).
  - (* copy *)
    constructor; cbn [lk tab pcs live]; try apply I.
    + rewrite bump_keys. apply (pi_nodup _ _ _ I).
    + intros v d w Hd A. rewrite bump_find. apply (pi_absent _ _ _ I v d w Hd A).
    + intros v d w j Hd A. rewrite bump_nth. destruct (pi_result _ _ _ I _ _ _ _ Hd A) as [k' Hk']. rewrite Hk'. eexists; reflexivity.
    + intros j v k'. rewrite bump_nth. destruct (nth_error (tab p) j) as [[v' k0]|] eqn:Ej; [|discriminate].
      intros E. injection E as <- <-. pose proof (pi_count _ _ _ I j v' k0 Ej) as C. cbn [occ]. destruct (Nat.eqb j i); cbn [b2z].
      * rewrite C, Zplus_mod_idemp_l. f_equal. lia.
      * rewrite C. f_equal. 
    + intros j Hj. rewrite bump_length. destruct Hj as [<-|Hj]; [apply (pi_live _ _ _ I i Hi)|apply (pi_live _ _ _ I j Hj)].
    + intros t0 v j [E|Hin]; [discriminate|]. rewrite bump_nth. destruct (pi_trace _ _ _ I t0 v j Hin) as [k' Hk']. rewrite Hk'. eexists; reflexivity.
  - (* destroy *)
    constructor; cbn [lk tab pcs live]; try apply I.
    + rewrite bump_keys. apply (pi_nodup _ _ _ I).
    + intros v d w Hd A. rewrite bump_find. apply (pi_absent _ _ _ I v d w Hd A).
    + intros v d w j Hd A. rewrite bump_nth. destruct (pi_result _ _ _ I _ _ _ _ Hd A) as [k' Hk']. rewrite Hk'. eexists; reflexivity.
    + intros j v k'. rewrite bump_nth. destruct (nth_error (tab p) j) as [[v' k0]|] eqn:Ej; [|discriminate].
      intros E. injection E as <- <-. pose proof (pi_count _ _ _ I j v' k0 Ej) as C. rewrite (occ_remove j i _ Hi). destruct (Nat.eqb j i); cbn [b2z].
      * rewrite C, Zplus_mod_idemp_l. f_equal. lia.
      * rewrite C. f_equal. lia.
    + intros j Hj. rewrite bump_length. apply (pi_live _ _ _ I). clear - Hj. induction (live p) as [|k l IH]; cbn in *; [destruct Hj|].
      destruct (Nat.eqb k i); [auto|]. destruct Hj; auto.
    + intros t0 v j [E|Hin]; [discriminate|]. rewrite bump_nth. destruct (pi_trace _ _ _ I t0 v j Hin) as [k' Hk']. rewrite Hk'. eexists; reflexivity.
Qed.
Lemma preach_inv n p tr : Z.of_nat n <= 65535 -> preach eqb n p tr -> PInv n p tr.
Proof. intros Hn R. induction R as [|p tr e p' R IH Hs]; [apply pinv_init|]. apply (pinv_step n p tr e p' Hn IH Hs). Qed.

(** ** C20 *)
(** Handles are equal iff the pooled values are, whichever threads pooled them, whenever. *)
Theorem C20_equal_handles_iff_equal_values n p tr t u i t' u' i' : Z.of_nat n <= 65535 -> preach eqb n p tr ->
  In (Ret t u i) tr -> In (Ret t' u' i') tr -> (i = i' <-> u = u').
Proof.
  intros Hn R H1 H2. pose proof (preach_inv n p tr Hn R) as I.
  destruct (pi_trace _ _ _ I _ _ _ H1) as [k1 K1]. destruct (pi_trace _ _ _ I _ _ _ H2) as [k2 K2]. split; intros E; subst.
  - congruence.
  - pose proof (proj1 (NoDup_nth_error (map fst (tab p))) (pi_nodup _ _ _ I)) as ND. apply ND.
    + rewrite map_length. apply nth_error_Some. congruence.
    + rewrite !nth_error_map, K1, K2. reflexivity.
Qed.
(** A handle returned for [u] refers to an entry holding [u] forever after. *)
Theorem C20_handle_stays_valid n p tr t u i : Z.of_nat n <= 65535 -> preach eqb n p tr -> In (Ret t u i) tr ->
  exists k, nth_error (tab p) i = Some (u, k).
Proof. intros Hn R H. exact (pi_trace _ _ _ (preach_inv n p tr Hn R) _ _ _ H). Qed.
(** Each value is stored at most once. *)
Theorem C20_no_duplicates n p tr i j u k k' : Z.of_nat n <= 65535 -> preach eqb n p tr ->
  nth_error (tab p) i = Some (u, k) -> nth_error (tab p) j = Some (u, k') -> i = j.
Proof.
  intros Hn R H1 H2. pose proof (preach_inv n p tr Hn R) as I.
  apply (proj1 (NoDup_nth_error (map fst (tab p))) (pi_nodup _ _ _ I)).
  - rewrite map_length. apply nth_error_Some. congruence.
  - rewrite !nth_error_map, H1, H2. reflexivity.
Qed.
(** The reference count is the number of handles: those owned by user code plus those about to be returned. *)
Theorem C20_count_exact n p tr i u k : Z.of_nat n <= 65535 -> preach eqb n p tr -> nth_error (tab p) i = Some (u, k) ->
  Z.of_nat (length (live p)) + Z.of_nat n < 4294967296 ->
  k = Z.of_nat (count_occ Nat.eq_dec (live p) i) + Z.of_nat (length (filter (carries i) (pcs p))).
Proof.
  intros Hn R H Hs. pose proof (preach_inv n p tr Hn R) as I. rewrite (pi_count _ _ _ I i u k H).
  assert (E1 : occ i (live p) = Z.of_nat (count_occ Nat.eq_dec (live p) i)).
  { clear. induction (live p) as [|j l IH]; cbn [occ count_occ]; [reflexivity|]. rewrite IH. destruct (Nat.eqb_spec i j), (Nat.eq_dec j i); cbn [b2z]; try congruence; lia. }
  assert (E2 : inflight i (pcs p) = Z.of_nat (length (filter (carries i) (pcs p)))).
  { clear. induction (pcs p) as [|c l IH]; cbn [inflight filter]; [reflexivity|]. rewrite IH. destruct (carries i c); cbn [b2z length]; lia. }
  rewrite E1, E2. apply Z.mod_small. pose proof (count_occ_bound Nat.eq_dec i (live p)).
  assert (length (filter (carries i) (pcs p)) <= n)%nat.
  { rewrite <- (pi_len _ _ _ I). clear. induction (pcs p) as [|c l IH]; cbn [filter length]; [lia|]. destruct (carries i c); cbn [length]; lia. }
  lia.
Qed.
(** While a thread modifies the table no other thread reads or modifies it. *)
Theorem C20_no_data_race n p tr t u t' u' : Z.of_nat n <= 65535 -> preach eqb n p tr -> t' <> t ->
  nth_error (pcs p) t = Some (PIns u) -> nth_error (th (lk p)) t = Some HoldW ->
  ~ (nth_error (pcs p) t' = Some (PFind u') /\ nth_error (th (lk p)) t' = Some HoldR) /\
  ~ (nth_error (pcs p) t' = Some (PIns u') /\ nth_error (th (lk p)) t' = Some HoldW).
Proof.
  intros Hn R N Hc Ht. pose proof (preach_inv n p tr Hn R) as I.
  split; intros [_ X]; apply N; apply (C21_mutual_exclusion false n (lk p) t t' Hn (pi_lock _ _ _ I));
    first [exists HoldW; split; [exact Ht|reflexivity] | exists HoldR; split; [exact X|right; left; reflexivity] | exists HoldW; split; [exact X|left; reflexivity]].
Qed.
(** Whatever step is taken: a step that changes the set of stored values is taken while some thread holds the lock exclusively and
    no other thread holds it in any mode; a thread finishes its lookup only while holding the lock in shared mode, and finishes its
    insertion only while holding it exclusively. *)
Theorem C20_table_accesses n p tr e p' : Z.of_nat n <= 65535 -> preach eqb n p tr -> pstep eqb p e p' ->
  (map fst (tab p') <> map fst (tab p) ->
     exists t, at_ (lk p) t holds_exclusive /\ forall u, u <> t -> ~ at_ (lk p) u (fun x => holds_exclusive x \/ holds_shared x)) /\
  (forall t u, nth_error (pcs p) t = Some (PFind u) -> nth_error (pcs p') t <> Some (PFind u) -> at_ (lk p) t (fun x => x = HoldR)) /\
  (forall t u, nth_error (pcs p) t = Some (PIns u) -> nth_error (pcs p') t <> Some (PIns u) -> at_ (lk p) t holds_exclusive).
Proof.
  intros Hn R S. pose proof (preach_inv n p tr Hn R) as I. split; [|split].
  - intros D. destruct S; cbn [tab] in D; rewrite ?bump_keys in D; try (exfalso; apply D; reflexivity).
    exists t. assert (X : at_ (lk p) t holds_exclusive) by (exists HoldW; split; [assumption|reflexivity]).
    split; [exact X|]. intros w N Y. apply N. exact (C21_mutual_exclusion false n (lk p) t w Hn (pi_lock _ _ _ I) X Y).
  - intros t0 u0 E D. destruct S; cbn [pcs] in D; try (exfalso; apply D; exact E);
      match goal with Hc : nth_error (pcs p) ?t = Some _ |- _ => rewrite (set_pc_nth _ _ _ _ _ Hc) in D; destruct (Nat.eqb_spec t0 t) as [->|]; [|exfalso; apply D; exact E] end;
      first [congruence | exists HoldR; split; [assumption|reflexivity] | idtac].
  - intros t0 u0 E D. destruct S; cbn [pcs] in D; try (exfalso; apply D; exact E);
      match goal with Hc : nth_error (pcs p) ?t = Some _ |- _ => rewrite (set_pc_nth _ _ _ _ _ Hc) in D; destruct (Nat.eqb_spec t0 t) as [->|]; [|exfalso; apply D; exact E] end;
      first [congruence | exists HoldW; split; [assumption|reflexivity] | idtac].
Qed.
(** No call of the pool can get stuck: as long as some call is in progress, a step other than a spurious wake-up or a new call is possible. *)
Lemma own_moves x a o y : internal a = true -> own x a o y = true -> x <> y.
Proof. destruct a; try discriminate; intros _; destruct x, y; cbn; congruence. Qed.
Theorem C20_progress n p tr t c : Z.of_nat n <= 65535 -> preach eqb n p tr -> nth_error (pcs p) t = Some c -> c <> PIdle ->
  exists e p', pstep eqb p e p' /\ (forall v w, e <> Call v w) /\ e <> Tau (Some Spurious) /\ (lk p' <> lk p \/ pcs p' <> pcs p).
Proof.
  intros Hn R Hc Nc. pose proof (preach_inv n p tr Hn R) as I. pose proof (pi_lock _ _ _ I) as RL. pose proof (reach_ok false n (lk p) Hn RL) as Hok.
  assert (Lock : forall v a s' o, internal a = true -> a <> Spurious -> step (lk p) v a = Next s' o ->
    exists e p', pstep eqb p e p' /\ (forall v w, e <> Call v w) /\ e <> Tau (Some Spurious) /\ (lk p' <> lk p \/ pcs p' <> pcs p)).
  { intros v a s' o Ha Na Hs. eexists _, _. split; [eapply ps_lock; eauto|]. split; [discriminate|]. split; [congruence|]. left. cbn [lk]. intros E.
    assert (HA : pool_action a = true) by (clear - Ha; destruct a; (reflexivity || discriminate)).
    destruct (step_effect _ _ _ _ _ HA Hs) as [x [y [Hx [Hy [Ho _]]]]].
    rewrite E, Hx in Hy. injection Hy as ->. exact (own_moves y a o y Ha Ho eq_refl). }
  assert (Setpc : forall v d d', nth_error (pcs p) v = Some d -> d' <> d -> set_pc (pcs p) v d' <> pcs p).
  { intros v d d' Hv Nd E. assert (X : nth_error (set_pc (pcs p) v d') v = Some d') by (rewrite (set_pc_nth _ _ _ _ _ Hv), Nat.eqb_refl; reflexivity). rewrite E in X. congruence. }
  assert (En : forall v a x, a <> LockWrite -> nth_error (th (lk p)) v = Some x -> step (lk p) v a <> NotEnabled -> exists s' o, step (lk p) v a = Next s' o).
  { intros v a x Na Hx Ne. pose proof (step_ok false n (lk p) v a Hn Hok ltac:(intros _; exact Na)) as G. destruct (step (lk p) v a); [congruence|destruct G|eauto]. }
  assert (Wake : forall v x, nth_error (th (lk p)) v = Some x -> x = WakeR \/ x = WakeU -> exists e p', pstep eqb p e p' /\ (forall v w, e <> Call v w) /\ e <> Tau (Some Spurious) /\ (lk p' <> lk p \/ pcs p' <> pcs p)).
  { intros v x Hx D. destruct (En v Recheck x ltac:(discriminate) Hx) as [s' [o Hs]].
    - unfold step. rewrite Hx. destruct D as [-> | ->]; unfold enter_read, enter_upgrade, or_fail, goto; repeat match goal with |- context [match ?e with _ => _ end] => destruct e end; discriminate.
    - eapply (Lock v Recheck); eauto; discriminate. }
  assert (Pend : forall v, nth_error (th (lk p)) v = Some PendW -> exists e p', pstep eqb p e p' /\ (forall v w, e <> Call v w) /\ e <> Tau (Some Spurious) /\ (lk p' <> lk p \/ pcs p' <> pcs p)).
  { intros v Hx. destruct (existsb waits_write (th (lk p))) eqn:E.
    - apply existsb_exists in E. destruct E as [z [Hin Hz]]. apply In_nth_error in Hin. destruct Hin as [w Hw].
      eapply (Lock v (NotifyW (Some w))); [reflexivity|discriminate|]. unfold step. rewrite Hx, Hw, Hz. reflexivity.
    - eapply (Lock v (NotifyW None)); [reflexivity|discriminate|]. unfold step. rewrite Hx, E. reflexivity. }
  assert (PendRd : forall v, nth_error (th (lk p)) v = Some PendR -> exists e p', pstep eqb p e p' /\ (forall v w, e <> Call v w) /\ e <> Tau (Some Spurious) /\ (lk p' <> lk p \/ pcs p' <> pcs p)).
  { intros v Hx. eapply (Lock v NotifyR); [reflexivity|discriminate|]. unfold step. rewrite Hx. reflexivity. }
  (* a thread that holds a lock and is not waiting can act *)
  assert (Hold : forall v x, nth_error (th (lk p)) v = Some x -> x = HoldR \/ x = HoldW -> exists e p', pstep eqb p e p' /\ (forall v w, e <> Call v w) /\ e <> Tau (Some Spurious) /\ (lk p' <> lk p \/ pcs p' <> pcs p)).
  { intros v x Hx D. destruct (nth_error (pcs p) v) as [d|] eqn:Hd.
    2:{ exfalso. apply nth_error_None in Hd. rewrite (pi_len _ _ _ I) in Hd. destruct Hok as [Hl _]. assert (v < length (th (lk p)))%nat by (apply nth_error_Some; congruence). lia. }
    destruct (pi_compat _ _ _ I v d Hd) as [x' [Hx' Hco]]. rewrite Hx in Hx'. injection Hx' as <-.
    destruct D as [-> | ->]; destruct d; cbn in Hco; try discriminate.
    - destruct (find eqb (tab p) u) as [i|] eqn:Ef; eexists _, _; (split; [first [eapply ps_found; eauto; fail | eapply ps_absent; eauto]|]); (split; [discriminate|]); (split; [discriminate|]); right; cbn [pcs]; eapply Setpc; eauto; discriminate.
    - destruct (En v Upgrade _ ltac:(discriminate) Hx) as [s' [o Hs]].
      { unfold step. rewrite Hx. unfold enter_upgrade, or_fail, goto. repeat match goal with |- context [match ?e with _ => _ end] => destruct e end; discriminate. }
      eexists _, _. split; [eapply ps_upgrade; eauto|]. split; [discriminate|]. split; [discriminate|]. right. cbn [pcs]. eapply Setpc; eauto. destruct o as [[]|]; discriminate.
    - destruct (En v UnlockRead _ ltac:(discriminate) Hx) as [s' [o Hs]].
      { unfold step. rewrite Hx. unfold or_fail, goto. repeat match goal with |- context [match ?e with _ => _ end] => destruct e end; discriminate. }
      eexists _, _. split; [eapply ps_back; eauto|]. split; [discriminate|]. split; [discriminate|]. right. cbn [pcs]. eapply Setpc; eauto. discriminate.
    - destruct (En v UnlockRead _ ltac:(discriminate) Hx) as [s' [o Hs]].
      { unfold step. rewrite Hx. unfold or_fail, goto. repeat match goal with |- context [match ?e with _ => _ end] => destruct e end; discriminate. }
      eexists _, _. split; [eapply ps_relR; eauto|]. split; [discriminate|]. split; [discriminate|]. right. cbn [pcs]. eapply Setpc; eauto. discriminate.
    - destruct (emplace eqb (tab p) u) as [tb i] eqn:Ee.
      eexists _, _. split; [eapply ps_insert; eauto|]. split; [discriminate|]. split; [discriminate|]. right. cbn [pcs]. eapply Setpc; eauto. discriminate.
    - destruct (En v UnlockWrite _ ltac:(discriminate) Hx) as [s' [o Hs]].
      { unfold step. rewrite Hx. unfold or_fail, goto. repeat match goal with |- context [match ?e with _ => _ end] => destruct e end; discriminate. }
      eexists _, _. split; [eapply ps_relW; eauto|]. split; [discriminate|]. split; [discriminate|]. right. cbn [pcs]. eapply Setpc; eauto. discriminate. }
  (* an upgrader, or no holder at all *)
  assert (Upg : forall v, nth_error (th (lk p)) v = Some WaitU -> exists e p', pstep eqb p e p' /\ (forall v w, e <> Call v w) /\ e <> Tau (Some Spurious) /\ (lk p' <> lk p \/ pcs p' <> pcs p)).
  { intros v Hv. destruct (Z.eq_dec (cnt isHoldR (th (lk p)) + cnt isHoldW (th (lk p))) 0) as [E|E].
    - destruct (C22_upgrader_not_forgotten n (lk p) v Hn RL Hv) as [w Hw]; [|exact (Pend w Hw)].
      intros w Nw [y [Hy Py]]. pose proof (cnt_bounds isHoldR (th (lk p))). pose proof (cnt_bounds isHoldW (th (lk p))).
      destruct Py as [-> | [-> | Py]].
      + pose proof (cnt_pos isHoldW _ _ _ Hy eq_refl). lia.
      + pose proof (cnt_pos isHoldR _ _ _ Hy eq_refl). lia.
      + apply Nw. apply (C21_one_upgrader false n (lk p) v w Hn RL); [exists WaitU; split; [exact Hv|left; reflexivity]|exists y; split; [exact Hy|exact Py]].
    - pose proof (cnt_bounds isHoldR (th (lk p))). pose proof (cnt_bounds isHoldW (th (lk p))).
      destruct (Z.eq_dec (cnt isHoldR (th (lk p))) 0).
      + destruct (cnt_ex isHoldW (th (lk p)) ltac:(lia)) as [w [y [Hy Py]]]. destruct y; try discriminate. eapply (Hold w); eauto.
      + destruct (cnt_ex isHoldR (th (lk p)) ltac:(lia)) as [w [y [Hy Py]]]. destruct y; try discriminate. eapply (Hold w); eauto. }
  destruct (pi_compat _ _ _ I t c Hc) as [x [Hx Hco]].
  destruct x; try (eapply Hold; eauto; fail).
  - (* Idle: about to retry or to return *)
    destruct c; cbn in Hco; try discriminate; [congruence| |].
    + destruct (En t LockRead _ ltac:(discriminate) Hx) as [s' [o Hs]].
      { unfold step. rewrite Hx. unfold enter_read, or_fail, goto. repeat match goal with |- context [match ?e with _ => _ end] => destruct e end; discriminate. }
      eexists _, _. split; [eapply ps_retry; eauto|]. split; [discriminate|]. split; [discriminate|]. right. cbn [pcs]. eapply Setpc; eauto. discriminate.
    + eexists _, _. split; [eapply ps_ret; eauto|]. split; [discriminate|]. split; [discriminate|]. right. cbn [pcs]. eapply Setpc; [eauto|discriminate].
  - (* WaitR *)
    destruct (Z.eq_dec (cnt isHoldR (th (lk p))) 0) as [E1|E1].
    2:{ destruct (cnt_ex isHoldR (th (lk p)) ltac:(pose proof (cnt_bounds isHoldR (th (lk p))); lia)) as [w [y [Hy Py]]]. destruct y; try discriminate. eapply (Hold w); eauto. }
    destruct (Z.eq_dec (cnt isHoldW (th (lk p))) 0) as [E2|E2].
    2:{ destruct (cnt_ex isHoldW (th (lk p)) ltac:(pose proof (cnt_bounds isHoldW (th (lk p))); lia)) as [w [y [Hy Py]]]. destruct y; try discriminate. eapply (Hold w); eauto. }
    destruct (Z.eq_dec (cnt isU (th (lk p))) 0) as [E3|E3].
    2:{ destruct (cnt_ex isU (th (lk p)) ltac:(pose proof (cnt_bounds isU (th (lk p))); lia)) as [w [y [Hy Py]]]. destruct y; try discriminate; [eapply Upg; eauto|eapply Wake; eauto]. }
    destruct (C22_readers_not_forgotten false n (lk p) t Hn RL Hx) as [w Hw]; [|exact (PendRd w Hw)].
    rewrite (nobody_or (lk p) holds_exclusive), (nobody_or (lk p) wants_exclusive), <- zHoldW, <- zW, <- zU. split; [exact E2|]. split; [|exact E3].
    destruct Hok as [_ [_ [_ HU]]]. destruct (HU eq_refl) as [X _]. exact X.
  - eapply Wake; eauto.
  - destruct c; discriminate.
  - destruct c; discriminate.
  - eapply Upg; eauto.
  - eapply Wake; eauto.
  - eapply PendRd; eauto.
  - eapply Pend; eauto.
Qed.
End PoolProps.

(** Non-vacuity: two threads pool the same value concurrently and obtain the same handle. *)
Example C20_example : exists p tr, preach Nat.eqb 2 p tr /\ In (Ret 0 7%nat 0) tr /\ In (Ret 1 7%nat 0) tr /\ tab p = [(7%nat, 2)].
Proof.
  pose proof (pr_init Nat.eqb 2) as H.
  Ltac nxt H tac := eapply pr_step in H; [|tac; reflexivity];
    match type of H with preach ?e ?n ?p ?tr => let p' := eval vm_compute in p in change (preach e n p' tr) in H end.
  nxt H ltac:(eapply (ps_call _ _ 0 7%nat)).
  nxt H ltac:(eapply (ps_absent _ _ 0)).
  nxt H ltac:(eapply (ps_upgrade _ _ 0)).
  nxt H ltac:(eapply (ps_call _ _ 1 7%nat)).
  nxt H ltac:(eapply (ps_insert _ _ 0)).
  nxt H ltac:(eapply (ps_relW _ _ 0)).
  nxt H ltac:(eapply (ps_lock _ _ 0 NotifyR)).
  nxt H ltac:(eapply (ps_lock _ _ 1 Recheck)).
  nxt H ltac:(eapply (ps_ret _ _ 0)).
  nxt H ltac:(eapply (ps_found _ _ 1)).
  nxt H ltac:(eapply (ps_relR _ _ 1)).
  nxt H ltac:(eapply (ps_ret _ _ 1)).
  eexists _, _. split; [exact H|]. cbn. repeat split; auto.
Qed.
