(** * C34: the doubly linked list behaves as a sequence *)
From Coq Require Import List Arith Lia Bool NArith.
From Verif Require Import XorList.
Import ListNotations.

Section Props.
Context {V : Type}.

(** ** The representation invariant: the nodes of the list with their addresses, in order *)
Notation cells := (list (N * V)).

Definition first_addr (l : cells) (n : N) : N := match l with [] => n | c :: _ => fst c end.
Fixpoint last_addr (p : N) (l : cells) : N := match l with [] => p | c :: r => last_addr (fst c) r end.

(** The cells [l] between a predecessor [p] and a successor [n]. *)
Fixpoint chain (h : N -> option (N * V)) (p : N) (l : cells) (n : N) : Prop :=
  match l with
  | [] => True
  | (a, v) :: r => h a = Some (N.lxor p (first_addr r n), v) /\ chain h a r n
  end.

Definition addrs (l : cells) : list N := map fst l.

(** [rep s l]: the list [s] consists of the cells [l]; the heap holds nothing else. *)
Record rep (s : dll V) (l : cells) : Prop := mkRep {
  r_chain : chain (hp s) 0 l 0;
  r_nodup : NoDup (addrs l);
  r_nonnull : ~ In 0%N (addrs l);
  r_head : head s = first_addr l 0;
  r_tail : tail s = last_addr 0 l;
  r_size : size s = length l;
  r_dom : forall a, hp s a <> None -> In a (addrs l) }.

(** The iterator at index [i]: (address of cell i or null, address of cell i-1 or null). *)
Definition iter_at (l : cells) (i : nat) : iter := (first_addr (skipn i l) 0%N, last_addr 0%N (firstn i l)).

(** ** Lemmas *)
Lemma lxor_cancel a b : N.lxor (N.lxor a b) b = a.
Proof. rewrite N.lxor_assoc, N.lxor_nilpotent, N.lxor_0_r. reflexivity. Qed.
Lemma lxor_cancel_l a b : N.lxor a (N.lxor a b) = b.
Proof. rewrite <- N.lxor_assoc, N.lxor_nilpotent, N.lxor_0_l. reflexivity. Qed.

Lemma upd_same h a (x : option (N * V)) : upd h a x a = x.
Proof. unfold upd. rewrite N.eqb_refl. reflexivity. Qed.
Lemma upd_other h a (x : option (N * V)) b : b <> a -> upd h a x b = h b.
Proof. unfold upd. intros H. destruct (N.eqb_spec b a); congruence. Qed.

Lemma first_addr_app l1 l2 n : first_addr (l1 ++ l2) n = first_addr l1 (first_addr l2 n).
Proof. destruct l1; auto. Qed.
Lemma last_addr_app p l1 l2 : last_addr p (l1 ++ l2) = last_addr (last_addr p l1) l2.
Proof. revert p; induction l1; cbn; auto. Qed.
Lemma last_addr_in p l : l <> [] -> In (last_addr p l) (addrs l).
Proof.
  revert p. induction l as [|c r IH]; intros p H; [congruence|]. cbn. destruct r as [|d r]; [left; reflexivity|].
  right. apply (IH (fst c)). discriminate.
Qed.

Lemma chain_app h p l1 l2 n : chain h p (l1 ++ l2) n <-> chain h p l1 (first_addr l2 n) /\ chain h (last_addr p l1) l2 n.
Proof.
  revert p; induction l1 as [|[a v] r IH]; intros p; cbn [app chain last_addr].
  - tauto.
  - rewrite first_addr_app, IH. cbn [fst]. tauto.
Qed.

Lemma chain_frame h h' p l n : (forall a, In a (addrs l) -> h' a = h a) -> chain h p l n -> chain h' p l n.
Proof.
  revert p; induction l as [|[a v] r IH]; intros p He Hc; cbn in *; auto.
  destruct Hc as [Ha Hc]. split; [rewrite He; auto|]. apply IH; auto.
Qed.

Lemma chain_upd h p l n a x : ~ In a (addrs l) -> chain h p l n -> chain (upd h a x) p l n.
Proof. intros Hn. apply chain_frame. intros b Hb. apply upd_other. intros ->; auto. Qed.

(** Changing the successor of the last cell. *)
Lemma xor_last h p l n m d : l <> [] -> NoDup (addrs l) -> chain h p l n -> d = N.lxor n m ->
  exists h', xor_at h (last_addr p l) d = Some h' /\ chain h' p l m /\ (forall b, b <> last_addr p l -> h' b = h b) /\
             h' (last_addr p l) <> None.
Proof.
  intros Hl Hd Hc ->. destruct (exists_last Hl) as (r & [a v] & ->).
  rewrite last_addr_app. cbn [last_addr fst]. apply chain_app in Hc. cbn [first_addr fst] in Hc. destruct Hc as [Hr Ha].
  cbn [chain first_addr] in Ha. destruct Ha as [Ha _]. unfold xor_at. rewrite Ha. eexists. split; [reflexivity|].
  assert (Hna : ~ In a (addrs r)).
  { unfold addrs in *. rewrite map_app in Hd. cbn in Hd. apply NoDup_remove_2 in Hd. rewrite app_nil_r in Hd. auto. }
  split; [|split].
  - apply chain_app. cbn [first_addr fst]. split; [apply chain_upd; auto|]. cbn [chain first_addr]. split; [|auto]. rewrite upd_same.
    rewrite <- N.lxor_assoc, lxor_cancel. reflexivity.
  - intros b Hb. apply upd_other; auto.
  - rewrite upd_same. discriminate.
Qed.

(** Changing the predecessor of the first cell. *)
Lemma xor_first h p q l n d : l <> [] -> NoDup (addrs l) -> chain h p l n -> d = N.lxor p q ->
  exists h', xor_at h (first_addr l 0) d = Some h' /\ chain h' q l n /\ (forall b, b <> first_addr l 0 -> h' b = h b) /\
             h' (first_addr l 0) <> None.
Proof.
  intros Hl Hd Hc ->. destruct l as [|[a v] r]; [congruence|]. cbn [first_addr fst]. cbn [chain] in *.
  destruct Hc as [Ha Hc]. unfold xor_at. rewrite Ha. eexists. split; [reflexivity|].
  inversion Hd as [|? ? Hna Hdr]; subst. split; [|split].
  - rewrite upd_same. split; [|apply chain_upd; auto]. f_equal. f_equal.
    rewrite (N.lxor_comm p (first_addr r n)), N.lxor_assoc, lxor_cancel_l. apply N.lxor_comm.
  - intros b Hb. apply upd_other; auto.
  - rewrite upd_same. discriminate.
Qed.

Lemma first_addr_nil l : ~ In 0%N (addrs l) -> (first_addr l 0 =? 0)%N = match l with [] => true | _ => false end.
Proof. destruct l as [|[a v] r]; cbn; auto. intros H. apply N.eqb_neq. intros ->. apply H; auto. Qed.

Lemma last_addr_nil l : ~ In 0%N (addrs l) -> (last_addr 0 l =? 0)%N = match l with [] => true | _ => false end.
Proof.
  intros H. destruct l as [|c r]; [reflexivity|]. apply N.eqb_neq. intros E. apply H. rewrite <- E. apply last_addr_in. discriminate.
Qed.

Lemma addrs_app l1 l2 : addrs (l1 ++ l2) = addrs l1 ++ addrs l2.
Proof. apply map_app. Qed.

Lemma NoDup_app_inv (l1 l2 : list N) : NoDup (l1 ++ l2) -> NoDup l1 /\ NoDup l2 /\ (forall a, In a l1 -> In a l2 -> False).
Proof.
  induction l1 as [|x l1 IH]; cbn; intros H; [repeat split; auto; constructor|]. inversion H as [|? ? Hn Hr]; subst.
  destruct (IH Hr) as (H1 & H2 & H3). split; [|split; auto].
  - constructor; auto. intros Hi. apply Hn, in_app_iff; auto.
  - intros a [<-|Ha] Hb; [apply Hn, in_app_iff; auto|eauto].
Qed.

Lemma NoDup_insert (l1 l2 : list N) a : NoDup (l1 ++ l2) -> ~ In a (l1 ++ l2) -> NoDup (l1 ++ a :: l2).
Proof.
  induction l1 as [|x l1 IH]; cbn; intros H Hn; [constructor; auto|]. inversion H; subst. constructor.
  - rewrite in_app_iff in *. cbn. intros [Hi|[Hi|Hi]]; [tauto| |tauto]. subst. apply Hn. auto.
  - apply IH; auto.
Qed.

Lemma chain_dom h l : forall p n, chain h p l n -> forall b, In b (addrs l) -> h b <> None.
Proof.
  induction l as [|[b w] r IH]; intros p n Hc c Hi; cbn in *; [tauto|].
  destruct Hc as [Hb Hc]. destruct Hi as [<-|Hi]; [congruence|eauto].
Qed.

(** Insertion between [l1] and [l2]. *)
Lemma emplace_rep s l1 l2 a v : rep s (l1 ++ l2) -> a <> 0%N -> hp s a = None ->
  exists s', emplace a (first_addr l2 0, last_addr 0 l1) v s = Some (s', (a, last_addr 0 l1)) /\ rep s' (l1 ++ (a, v) :: l2).
Proof.
  intros R Ha Hf. destruct R as [Rc Rd Rn Rh Rt Rs Rdom].
  apply chain_app in Rc. destruct Rc as [C1 C2]. rewrite addrs_app in *.
  destruct (NoDup_app_inv _ _ Rd) as (D1 & D2 & D12).
  assert (N1 : ~ In 0%N (addrs l1)) by (intros X; apply Rn, in_app_iff; auto).
  assert (N2 : ~ In 0%N (addrs l2)) by (intros X; apply Rn, in_app_iff; auto).
  assert (Hcell : forall p l n, chain (hp s) p l n -> forall b, In b (addrs l) -> hp s b <> None).
  { clear. intros p l; revert p; induction l as [|[b w] r IH]; intros p n Hc c Hi; cbn in *; [tauto|].
    destruct Hc as [Hb Hc]. destruct Hi as [<-|Hi]; [congruence|eauto]. }
  assert (A1 : ~ In a (addrs l1)) by (intros X; eapply Hcell in X; [apply X, Hf|eassumption]).
  assert (A2 : ~ In a (addrs l2)) by (intros X; eapply Hcell in X; [apply X, Hf|eassumption]).
  unfold emplace. rewrite (first_addr_nil l2 N2), (last_addr_nil l1 N1).
  set (h0 := upd (hp s) a (Some (N.lxor (last_addr 0 l1) (first_addr l2 0), v))).
  assert (X1 : exists h1, (if match l1 with [] => true | _ => false end then Some h0
                            else xor_at h0 (last_addr 0 l1) (N.lxor (first_addr l2 0) a)) = Some h1 /\
               chain h1 0 l1 a /\ (forall b, ~ In b (addrs l1) -> h1 b = h0 b)).
  { destruct l1 as [|c1 r1] eqn:E1.
    - exists h0. repeat split; auto.
    - rewrite <- E1 in *. assert (Hne : l1 <> []) by (subst; discriminate).
      destruct (xor_last h0 0%N l1 (first_addr l2 0) a _ Hne D1 (chain_upd _ _ _ _ _ _ A1 C1) eq_refl) as (h1 & Y1 & Y2 & Y3 & _).
      exists h1. split; [subst; exact Y1|]. split; [exact Y2|]. intros b Hb. apply Y3. intros ->. apply Hb, last_addr_in; auto. }
  destruct X1 as (h1 & Y1 & Y2 & Y3). rewrite Y1.
  assert (X2 : exists h2, (if match l2 with [] => true | _ => false end then Some h1
                            else xor_at h1 (first_addr l2 0) (N.lxor (last_addr 0 l1) a)) = Some h2 /\
               chain h2 a l2 0 /\ (forall b, ~ In b (addrs l2) -> h2 b = h1 b)).
  { assert (C2' : chain h1 (last_addr 0 l1) l2 0).
    { eapply chain_frame; [|exact C2]. intros b Hb. rewrite Y3 by (intros X; eapply D12; eauto). unfold h0. apply upd_other. intros ->; auto. }
    destruct l2 as [|c2 r2] eqn:E2.
    - exists h1. repeat split; auto.
    - rewrite <- E2 in *. assert (Hne : l2 <> []) by (subst; discriminate).
      destruct (xor_first h1 _ a l2 0%N _ Hne D2 C2' eq_refl) as (h2 & Z1 & Z2 & Z3 & _).
      exists h2. split; [subst; exact Z1|]. split; [exact Z2|]. intros b Hb. apply Z3. intros ->. apply Hb.
      rewrite E2. cbn. auto. }
  destruct X2 as (h2 & Z1 & Z2 & Z3). rewrite Z1. eexists. split; [reflexivity|].
  constructor; cbn [hp head tail size].
  - apply chain_app. cbn [first_addr fst]. split.
    + eapply chain_frame; [|exact Y2]. intros b Hb. apply Z3. intros X. eapply D12; eauto.
    + cbn [chain]. split; [|exact Z2]. rewrite Z3, Y3 by auto. unfold h0. apply upd_same.
  - rewrite addrs_app. cbn. apply NoDup_insert; auto. rewrite in_app_iff. tauto.
  - rewrite addrs_app. cbn. rewrite in_app_iff in *. cbn. intuition.
  - rewrite Rh. destruct l1; reflexivity.
  - rewrite Rt, !last_addr_app. cbn [last_addr fst]. destruct l2; reflexivity.
  - rewrite Rs, !app_length. cbn. lia.
  - intros b Hb. rewrite addrs_app. cbn. destruct (N.eqb_spec b a) as [->|Hne]; [apply in_app_iff; cbn; auto|].
    assert (hp s b <> None -> In b (addrs l1 ++ a :: addrs l2)) as HH.
    { intros X. apply Rdom in X. rewrite in_app_iff in *. cbn. tauto. }
    destruct (in_dec N.eq_dec b (addrs l2)) as [|I2]; [apply in_app_iff; cbn; auto|].
    destruct (in_dec N.eq_dec b (addrs l1)) as [|I1]; [apply in_app_iff; cbn; auto|].
    apply HH. rewrite Z3, Y3 in Hb by auto. unfold h0 in Hb. rewrite upd_other in Hb; auto.
Qed.

Lemma iter_at_split l1 l2 : iter_at (l1 ++ l2) (length l1) = (first_addr l2 0%N, last_addr 0%N l1).
Proof. unfold iter_at. rewrite skipn_app, skipn_all, Nat.sub_diag, firstn_app, firstn_all, Nat.sub_diag. cbn. rewrite app_nil_r. reflexivity. Qed.

(** Erasing the cell between [l1] and [l2]. *)
Lemma erase_rep s l1 c l2 : rep s (l1 ++ c :: l2) ->
  exists s', erase (fst c, last_addr 0 l1) s = Some (s', (first_addr l2 0%N, last_addr 0%N l1)) /\ rep s' (l1 ++ l2) /\
             hp s' (fst c) = None.
Proof.
  destruct c as [a v]. intros R. destruct R as [Rc Rd Rn Rh Rt Rs Rdom].
  apply chain_app in Rc. cbn [first_addr fst chain] in Rc. destruct Rc as [C1 [Ca C2]]. rewrite addrs_app in *. cbn [addrs map fst] in *.
  fold (addrs l2) in *.
  pose proof (NoDup_remove_1 _ _ _ Rd) as Rd'. pose proof (NoDup_remove_2 _ _ _ Rd) as Rna.
  destruct (NoDup_app_inv _ _ Rd') as (D1 & D2 & D12).
  assert (N1 : ~ In 0%N (addrs l1)) by (intros X; apply Rn, in_app_iff; auto).
  assert (N2 : ~ In 0%N (addrs l2)) by (intros X; apply Rn, in_app_iff; cbn; auto).
  assert (A0 : a <> 0%N) by (intros ->; apply Rn, in_app_iff; cbn; auto).
  assert (A1 : ~ In a (addrs l1)) by (intros X; apply Rna, in_app_iff; auto).
  assert (A2 : ~ In a (addrs l2)) by (intros X; apply Rna, in_app_iff; auto).
  cbn [fst]. unfold erase. rewrite Ca. destruct (N.eqb_spec a 0); [congruence|].
  rewrite (N.lxor_comm (last_addr 0 l1)), lxor_cancel. rewrite (first_addr_nil l2 N2), (last_addr_nil l1 N1).
  assert (X1 : exists h1, (if match l1 with [] => true | _ => false end then Some (hp s)
                            else xor_at (hp s) (last_addr 0 l1) (N.lxor a (first_addr l2 0))) = Some h1 /\
               chain h1 0 l1 (first_addr l2 0) /\ (forall b, ~ In b (addrs l1) -> h1 b = hp s b)).
  { destruct l1 as [|c1 r1] eqn:E1.
    - exists (hp s). repeat split; auto.
    - rewrite <- E1 in *. assert (Hne : l1 <> []) by (subst; discriminate).
      destruct (xor_last (hp s) 0%N l1 a (first_addr l2 0) _ Hne D1 C1 eq_refl) as (h1 & Y1 & Y2 & Y3 & _).
      exists h1. split; [subst; exact Y1|]. split; [exact Y2|]. intros b Hb. apply Y3. intros ->. apply Hb, last_addr_in; auto. }
  destruct X1 as (h1 & Y1 & Y2 & Y3). rewrite Y1.
  assert (X2 : exists h2, (if match l2 with [] => true | _ => false end then Some h1
                            else xor_at h1 (first_addr l2 0) (N.lxor a (last_addr 0 l1))) = Some h2 /\
               chain h2 (last_addr 0 l1) l2 0 /\ (forall b, ~ In b (addrs l2) -> h2 b = h1 b)).
  { assert (C2' : chain h1 a l2 0).
    { eapply chain_frame; [|exact C2]. intros b Hb. rewrite Y3; auto. intros X; eapply D12; eauto. }
    destruct l2 as [|c2 r2] eqn:E2.
    - exists h1. repeat split; auto.
    - rewrite <- E2 in *. assert (Hne : l2 <> []) by (subst; discriminate).
      destruct (xor_first h1 _ (last_addr 0 l1) l2 0%N _ Hne D2 C2' eq_refl) as (h2 & Z1 & Z2 & Z3 & _).
      exists h2. split; [subst; exact Z1|]. split; [exact Z2|]. intros b Hb. apply Z3. intros ->. apply Hb.
      rewrite E2. cbn. auto. }
  destruct X2 as (h2 & Z1 & Z2 & Z3). rewrite Z1. eexists. split; [reflexivity|]. split; [|cbn; apply upd_same].
  constructor; cbn [hp head tail size].
  - apply chain_app. split; apply chain_upd; auto.
    eapply chain_frame; [|exact Y2]. intros b Hb. apply Z3. intros X. eapply D12; eauto.
  - rewrite addrs_app; auto.
  - rewrite addrs_app, in_app_iff. tauto.
  - rewrite Rh. destruct l1; reflexivity.
  - rewrite Rt, !last_addr_app. cbn [last_addr fst]. destruct l2; reflexivity.
  - rewrite Rs, !app_length. cbn. lia.
  - intros b Hb. rewrite addrs_app. destruct (N.eqb_spec b a) as [->|Hne]; [rewrite upd_same in Hb; congruence|].
    rewrite upd_other in Hb by auto.
    destruct (in_dec N.eq_dec b (addrs l2)) as [|I2]; [apply in_app_iff; cbn; auto|].
    destruct (in_dec N.eq_dec b (addrs l1)) as [|I1]; [apply in_app_iff; cbn; auto|].
    rewrite Z3, Y3 in Hb by auto. apply Rdom in Hb. rewrite in_app_iff in Hb |- *. cbn in Hb. intuition congruence.
Qed.

(** Reversal. *)
Lemma first_addr_rev l p : first_addr (rev l) p = last_addr p l.
Proof.
  revert p; induction l as [|c r IH]; intros p; cbn; auto. rewrite first_addr_app. cbn. apply IH.
Qed.
Lemma last_addr_rev l n : last_addr n (rev l) = first_addr l n.
Proof. destruct l as [|c r]; cbn; auto. rewrite last_addr_app. reflexivity. Qed.

Lemma chain_rev h p l n : chain h p l n -> chain h n (rev l) p.
Proof.
  revert p; induction l as [|[a v] r IH]; intros p Hc; cbn in *; auto. destruct Hc as [Ha Hc].
  apply chain_app. cbn [first_addr fst]. split; [apply IH; auto|]. cbn [chain first_addr]. split; auto.
  rewrite last_addr_rev, N.lxor_comm. exact Ha.
Qed.

Lemma addrs_rev l : addrs (rev l) = rev (addrs l).
Proof. apply map_rev. Qed.

Lemma reverse_rep s l : rep s l -> rep (reverse s) (rev l).
Proof.
  intros [Rc Rd Rn Rh Rt Rs Rdom]. constructor; cbn.
  - apply chain_rev; auto.
  - rewrite addrs_rev. apply NoDup_rev; auto.
  - rewrite addrs_rev, <- in_rev; auto.
  - rewrite first_addr_rev; auto.
  - rewrite last_addr_rev; auto.
  - rewrite rev_length; auto.
  - intros a Ha. rewrite addrs_rev, <- in_rev; auto.
Qed.

(** Iteration. *)
Lemma incr_at s l1 c l2 : rep s (l1 ++ c :: l2) ->
  incr (hp s) (fst c, last_addr 0 l1) = Some (first_addr l2 0%N, fst c) /\ deref (hp s) (fst c, last_addr 0 l1) = Some (snd c).
Proof.
  destruct c as [a v]. intros R. destruct R as [Rc Rd Rn _ _ _ _]. apply chain_app in Rc. cbn [chain first_addr fst] in Rc.
  destruct Rc as [_ [Ca _]]. cbn [fst snd].
  assert (A0 : a <> 0%N). { intros ->. apply Rn. rewrite addrs_app, in_app_iff. cbn. auto. }
  unfold incr, deref. cbn [fst]. destruct (N.eqb_spec a 0); [congruence|]. rewrite Ca, lxor_cancel_l. auto.
Qed.

Lemma decr_at s l1 c l2 : rep s (l1 ++ c :: l2) ->
  decr (hp s) (first_addr l2 0%N, fst c) = Some (fst c, last_addr 0%N l1).
Proof.
  destruct c as [a v]. intros R. destruct R as [Rc Rd Rn _ _ _ _]. apply chain_app in Rc. cbn [chain first_addr fst] in Rc.
  destruct Rc as [_ [Ca _]]. cbn [fst snd].
  assert (A0 : a <> 0%N). { intros ->. apply Rn. rewrite addrs_app, in_app_iff. cbn. auto. }
  unfold decr. destruct (N.eqb_spec a 0); [congruence|]. rewrite Ca, lxor_cancel. auto.
Qed.

Lemma iter_eqb_refl it : iter_eqb it it = true.
Proof. unfold iter_eqb. rewrite !N.eqb_refl. reflexivity. Qed.

Lemma walk_at s l2 : forall l1, rep s (l1 ++ l2) ->
  walk (length l2) (hp s) (first_addr l2 0%N, last_addr 0%N l1) (0%N, tail s) = Some (map snd l2).
Proof.
  induction l2 as [|c r IH]; intros l1 R; cbn [length walk map first_addr].
  - rewrite (r_tail _ _ R), app_nil_r. rewrite iter_eqb_refl. reflexivity.
  - assert (A0 : fst c <> 0%N).
    { intros E. apply (r_nonnull _ _ R). rewrite addrs_app, in_app_iff. cbn. rewrite <- E. auto. }
    unfold iter_eqb at 1. cbn [fst snd]. destruct (N.eqb_spec (fst c) 0); [congruence|]. cbn [andb].
    destruct (incr_at s l1 c r R) as [-> ->].
    assert (E : (l1 ++ [c]) ++ r = l1 ++ c :: r) by (rewrite <- app_assoc; reflexivity).
    specialize (IH (l1 ++ [c])). rewrite E in IH. specialize (IH R). rewrite last_addr_app in IH. cbn [last_addr] in IH.
    rewrite IH. reflexivity.
Qed.

Lemma contents_rep s l : rep s l -> contents s = Some (map snd l).
Proof.
  intros R. unfold contents, begin_, end_. rewrite (r_size _ _ R), (r_head _ _ R). apply (walk_at s l []). exact R.
Qed.

Lemma rcontents_rep s l : rep s l -> rcontents s = Some (rev (map snd l)).
Proof.
  intros R. pose proof (contents_rep _ _ (reverse_rep _ _ R)) as H. rewrite map_rev in H. exact H.
Qed.

Lemma advance_at s l2 : forall l1 i, rep s (l1 ++ l2) -> i <= length l2 ->
  advance i (hp s) (first_addr l2 0%N, last_addr 0%N l1) = Some (iter_at (l1 ++ l2) (length l1 + i)).
Proof.
  induction l2 as [|c r IH]; intros l1 i R Hi.
  - cbn in Hi. destruct i; [|lia]. cbn [advance]. rewrite Nat.add_0_r, iter_at_split. reflexivity.
  - destruct i as [|i]; [cbn [advance]; rewrite Nat.add_0_r, iter_at_split; reflexivity|].
    cbn [advance first_addr]. destruct (incr_at s l1 c r R) as [-> _].
    assert (E : (l1 ++ [c]) ++ r = l1 ++ c :: r) by (rewrite <- app_assoc; reflexivity).
    specialize (IH (l1 ++ [c]) i). rewrite E in IH. specialize (IH R). rewrite last_addr_app in IH. cbn [last_addr] in IH.
    rewrite app_length in IH. cbn [length] in IH. rewrite IH by (cbn in Hi; lia). do 2 f_equal. lia.
Qed.

Lemma retreat_at s l i : rep s l -> i <= length l -> retreat i (hp s) (end_ s) = Some (iter_at l (length l - i)).
Proof.
  intros R. assert (G : forall l1 l2, l = l1 ++ l2 -> i <= length l1 ->
     retreat i (hp s) (first_addr l2 0%N, last_addr 0%N l1) = Some (iter_at l (length l1 - i))).
  { clear - R. induction i as [|i IH]; intros l1 l2 El Hi.
    - cbn. rewrite Nat.sub_0_r. subst l. rewrite iter_at_split. reflexivity.
    - assert (Hne : l1 <> []) by (destruct l1; [cbn in Hi; lia|discriminate]).
      destruct (exists_last Hne) as (r & c & ->). cbn [retreat]. rewrite last_addr_app. cbn [last_addr].
      rewrite app_length in *. cbn [length] in *.
      assert (El' : l = r ++ c :: l2) by (rewrite El, <- app_assoc; reflexivity).
      pose proof R as R'. rewrite El' in R'. rewrite (decr_at s r c l2 R').
      replace (length r + 1 - S i) with (length r - i) by lia. apply (IH r (c :: l2)); auto. lia. }
  intros Hi. specialize (G l [] (eq_sym (app_nil_r l)) Hi). unfold end_. rewrite (r_tail _ _ R). exact G.
Qed.

Lemma split_at {A} (l : list A) i : i <= length l -> exists l1 l2, l = l1 ++ l2 /\ length l1 = i.
Proof. intros H. exists (firstn i l), (skipn i l). split; [symmetry; apply firstn_skipn|apply firstn_length_le; auto]. Qed.


(** ** Specification: a sequence *)

Definition seq_insert (i : nat) (vs xs : list V) : list V := firstn i xs ++ vs ++ skipn i xs.
Definition seq_erase (i : nat) (xs : list V) : list V := firstn i xs ++ skipn (S i) xs.

(** A position: a number of steps from [begin()] or back from [end()]. *)
Inductive position := FromBegin (i : nat) | FromEnd (j : nat).

Inductive op :=
  | PushBack (a : N) (v : V) | PushFront (a : N) (v : V)
  | Insert (p : position) (a : N) (v : V)
  | InsertCount (p : position) (addrs : list N) (v : V)
  | InsertRange (p : position) (vs : list (N * V))
  | Erase (p : position)
  | PopFront | PopBack | Reverse | Clear.

(** What an operation returns: nothing, a value, or an iterator (its element, or the end). *)
Inductive result := Done | Value (v : V) | Iterator (v : option V).

Definition index (xs : list V) (p : position) : option nat :=
  match p with
  | FromBegin i => if i <=? length xs then Some i else None
  | FromEnd j => if j <=? length xs then Some (length xs - j) else None
  end.

(** The sequence's operations; [None] is a violated precondition: a position beyond the list, erasing the end, popping an
    empty list. *)
Definition seq_step (o : op) (xs : list V) : option (list V * result) :=
  match o with
  | PushBack _ v => Some (xs ++ [v], Done)
  | PushFront _ v => Some (v :: xs, Done)
  | Insert p _ v =>
      match index xs p with Some i => Some (seq_insert i [v] xs, Iterator (Some v)) | None => None end
  | InsertCount p addrs v =>
      match index xs p with
      | Some i => let ys := seq_insert i (repeat v (length addrs)) xs in Some (ys, Iterator (nth_error ys i))
      | None => None
      end
  | InsertRange p vs =>
      match index xs p with
      | Some i => let ys := seq_insert i (map snd vs) xs in Some (ys, Iterator (nth_error ys i))
      | None => None
      end
  | Erase p =>
      match index xs p with
      | Some i => if i <? length xs then let ys := seq_erase i xs in Some (ys, Iterator (nth_error ys i)) else None
      | None => None
      end
  | PopFront => match xs with v :: r => Some (r, Value v) | [] => None end
  | PopBack => match rev xs with v :: r => Some (rev r, Value v) | [] => None end
  | Reverse => Some (rev xs, Done)
  | Clear => Some ([], Done)
  end.

(** The same operations on the list. *)
Definition iterator (s : dll V) (p : position) : option iter :=
  match p with FromBegin i => advance i (hp s) (begin_ s) | FromEnd j => retreat j (hp s) (end_ s) end.

(** The returned iterator is observed by comparing it with [end()] and dereferencing it. *)
Definition observe (x : option (dll V * iter)) : option (dll V * result) :=
  match x with
  | None => None
  | Some (s, it) =>
      if iter_eqb it (end_ s) then Some (s, Iterator None)
      else match deref (hp s) it with Some v => Some (s, Iterator (Some v)) | None => None end
  end.

Definition step (o : op) (s : dll V) : option (dll V * result) :=
  match o with
  | PushBack a v => option_map (fun s' => (s', Done)) (push_back a v s)
  | PushFront a v => option_map (fun s' => (s', Done)) (push_front a v s)
  | Insert p a v => match iterator s p with Some it => observe (emplace a it v s) | None => None end
  | InsertCount p addrs v => match iterator s p with Some it => observe (insert_count addrs it v s) | None => None end
  | InsertRange p vs => match iterator s p with Some it => observe (insert_range vs it s) | None => None end
  | Erase p => match iterator s p with Some it => observe (erase it s) | None => None end
  | PopFront => option_map (fun x => (fst x, Value (snd x))) (pop_front s)
  | PopBack => option_map (fun x => (fst x, Value (snd x))) (pop_back s)
  | Reverse => Some (reverse s, Done)
  | Clear => option_map (fun s' => (s', Done)) (clear s)
  end.

(** The allocator's promise: the addresses it hands out are not null, not in use, and different. *)
Definition new_addrs (o : op) : list N :=
  match o with
  | PushBack a _ | PushFront a _ | Insert _ a _ => [a]
  | InsertCount _ addrs _ => addrs
  | InsertRange _ vs => map fst vs
  | _ => []
  end.
Definition fresh (o : op) (s : dll V) : Prop :=
  NoDup (new_addrs o) /\ forall a, In a (new_addrs o) -> a <> 0%N /\ hp s a = None.

(** A run of the list next to a run of the sequence, with the results of both. *)
Inductive runs : dll V -> list V -> Prop :=
  | run_nil : runs empty_list []
  | run_step s xs o s' r ys q : runs s xs -> fresh o s -> seq_step o xs = Some (ys, q) -> step o s = Some (s', r) -> runs s' ys.

(** ** Proofs *)
Lemma rep_empty : rep (@empty_list V) [].
Proof. constructor; cbn; auto. constructor. Qed.

Lemma iter_at_end s l : rep s l -> iter_at l (length l) = end_ s.
Proof. intros R. unfold iter_at, end_. rewrite skipn_all, firstn_all, (r_tail _ _ R). reflexivity. Qed.

Lemma observe_at s l i it : rep s l -> i <= length l -> it = iter_at l i ->
  observe (Some (s, it)) = Some (s, Iterator (nth_error (map snd l) i)).
Proof.
  intros R Hi ->. destruct (split_at l i Hi) as (l1 & l2 & -> & <-). cbn [observe]. rewrite iter_at_split.
  destruct l2 as [|c l2].
  - rewrite app_nil_r in *. cbn [first_addr]. replace (0%N, last_addr 0%N l1) with (end_ s) by (unfold end_; rewrite (r_tail _ _ R); reflexivity).
    rewrite iter_eqb_refl. rewrite (proj2 (nth_error_None _ _)); [reflexivity|]. rewrite map_length. lia.
  - cbn [first_addr]. assert (A0 : fst c <> 0%N).
    { intros E. apply (r_nonnull _ _ R). rewrite addrs_app, in_app_iff. cbn. rewrite <- E. auto. }
    unfold iter_eqb, end_. cbn [fst snd]. destruct (N.eqb_spec (fst c) 0); [congruence|]. cbn [andb].
    destruct (incr_at s l1 c l2 R) as [_ ->]. rewrite map_app. rewrite nth_error_app2 by (rewrite map_length; lia).
    rewrite map_length, Nat.sub_diag. reflexivity.
Qed.

Lemma iterator_at s l p i : rep s l -> index (map snd l) p = Some i -> i <= length l /\ iterator s p = Some (iter_at l i).
Proof.
  intros R H. destruct p as [k|k]; cbn in *; rewrite map_length in H; destruct (Nat.leb_spec k (length l)); try discriminate; injection H as <-.
  - split; [auto|]. unfold begin_. rewrite (r_head _ _ R). apply (advance_at s l [] k); auto.
  - split; [lia|]. apply retreat_at; auto.
Qed.

Lemma fresh_after s l1 l2 a v s' b : rep s (l1 ++ l2) -> rep s' (l1 ++ (a, v) :: l2) -> b <> a -> hp s b = None -> hp s' b = None.
Proof.
  intros R R' Hb Hn. destruct (hp s' b) eqn:E; [|reflexivity]. exfalso.
  assert (In b (addrs (l1 ++ (a, v) :: l2))) as Hi by (apply (r_dom _ _ R'); congruence).
  rewrite addrs_app, in_app_iff in Hi. cbn in Hi.
  assert (In b (addrs (l1 ++ l2))) as Hj by (rewrite addrs_app, in_app_iff; intuition congruence).
  exact (chain_dom _ _ _ _ (r_chain _ _ R) _ Hj Hn).
Qed.

Lemma map_seq_insert (l1 l2 : cells) vs : seq_insert (length l1) vs (map snd (l1 ++ l2)) = map snd l1 ++ vs ++ map snd l2.
Proof.
  unfold seq_insert. rewrite map_app, <- (map_length snd l1), firstn_app, firstn_all, Nat.sub_diag, skipn_app, skipn_all, Nat.sub_diag.
  cbn. rewrite app_nil_r. reflexivity.
Qed.

Lemma insert_count_rep ads : forall s l1 l2 v, rep s (l1 ++ l2) -> NoDup ads -> (forall a, In a ads -> a <> 0%N /\ hp s a = None) ->
  exists s' m, insert_count ads (first_addr l2 0%N, last_addr 0%N l1) v s = Some (s', (first_addr (m ++ l2) 0%N, last_addr 0%N l1)) /\
    rep s' (l1 ++ m ++ l2) /\ map snd m = repeat v (length ads).
Proof.
  induction ads as [|a r IH]; intros s l1 l2 v R Hd Hf; cbn [insert_count].
  - exists s, []. auto.
  - destruct (Hf a (or_introl eq_refl)) as [H0 Hn]. destruct (emplace_rep s l1 l2 a v R H0 Hn) as (s1 & E & R1). rewrite E.
    inversion Hd as [|? ? Hna Hdr]; subst.
    destruct (IH s1 l1 ((a, v) :: l2) v R1 Hdr) as (s2 & m & E2 & R2 & Em).
    { intros b Hb. destruct (Hf b (or_intror Hb)) as [Hb0 Hbn]. split; [auto|]. refine (fresh_after _ _ _ _ _ _ _ R R1 _ Hbn). intros ->; auto. }
    cbn [first_addr fst] in E2. rewrite E2. exists s2, (m ++ [(a, v)]). rewrite <- app_assoc. split; [reflexivity|]. split; [auto|].
    rewrite map_app, Em. cbn. rewrite <- repeat_cons. reflexivity.
Qed.

Lemma insert_loop_rep vs : forall s l1 c l2, rep s (l1 ++ c :: l2) -> NoDup (map fst vs) ->
  (forall a, In a (map fst vs) -> a <> 0%N /\ hp s a = None) ->
  exists s', insert_loop vs (fst c, last_addr 0%N l1) s = Some s' /\ rep s' (l1 ++ c :: vs ++ l2).
Proof.
  induction vs as [|[a v] r IH]; intros s l1 c l2 R Hd Hf; cbn [insert_loop].
  - exists s. auto.
  - destruct (incr_at s l1 c l2 R) as [-> _]. destruct (Hf a (or_introl eq_refl)) as [H0 Hn].
    assert (E1 : (l1 ++ [c]) ++ l2 = l1 ++ c :: l2) by (rewrite <- app_assoc; reflexivity).
    rewrite <- E1 in R. destruct (emplace_rep s (l1 ++ [c]) l2 a v R H0 Hn) as (s1 & E & R1).
    rewrite last_addr_app in E. cbn [last_addr] in E. rewrite E.
    inversion Hd as [|? ? Hna Hdr]; subst.
    destruct (IH s1 (l1 ++ [c]) (a, v) l2 R1 Hdr) as (s2 & E2 & R2).
    { intros b Hb. destruct (Hf b (or_intror Hb)) as [Hb0 Hbn]. split; [auto|]. refine (fresh_after _ _ _ _ _ _ _ R R1 _ Hbn). intros ->; auto. }
    rewrite last_addr_app in E2. cbn [last_addr fst] in E2. rewrite E2. exists s2. split; [reflexivity|].
    rewrite <- app_assoc in R2. exact R2.
Qed.

Lemma insert_range_rep vs s l1 l2 : rep s (l1 ++ l2) -> NoDup (map fst vs) -> (forall a, In a (map fst vs) -> a <> 0%N /\ hp s a = None) ->
  exists s', insert_range vs (first_addr l2 0%N, last_addr 0%N l1) s = Some (s', (first_addr (vs ++ l2) 0%N, last_addr 0%N l1)) /\
    rep s' (l1 ++ vs ++ l2).
Proof.
  intros R Hd Hf. destruct vs as [|[a v] r]; cbn [insert_range]; [exists s; auto|].
  destruct (Hf a (or_introl eq_refl)) as [H0 Hn]. destruct (emplace_rep s l1 l2 a v R H0 Hn) as (s1 & E & R1). rewrite E.
  inversion Hd as [|? ? Hna Hdr]; subst.
  destruct (insert_loop_rep r s1 l1 (a, v) l2 R1 Hdr) as (s2 & E2 & R2).
  { intros b Hb. destruct (Hf b (or_intror Hb)) as [Hb0 Hbn]. split; [auto|]. refine (fresh_after _ _ _ _ _ _ _ R R1 _ Hbn). intros ->; auto. }
  cbn [fst] in E2. rewrite E2. exists s2. auto.
Qed.

Lemma pop_front_rep s c l : rep s (c :: l) -> exists s', pop_front s = Some (s', snd c) /\ rep s' l.
Proof.
  intros R. unfold pop_front, front, begin_. rewrite (r_head _ _ R). cbn [first_addr].
  destruct (incr_at s [] c l R) as [_ E]. cbn [last_addr] in E. rewrite E.
  destruct (erase_rep s [] c l R) as (s' & E2 & R2 & _). cbn [last_addr] in E2. rewrite E2. exists s'. auto.
Qed.

Lemma clear_rep l : forall s, rep s l -> exists s', clear_loop (length l) s = Some s' /\ rep s' [].
Proof.
  induction l as [|c l IH]; intros s R; cbn [length clear_loop].
  - rewrite (r_head _ _ R). cbn. exists s. auto.
  - rewrite (r_head _ _ R). rewrite (first_addr_nil (c :: l) (r_nonnull _ _ R)).
    destruct (pop_front_rep s c l R) as (s1 & -> & R1). apply IH; auto.
Qed.

Lemma step_rep s l o ys q : rep s l -> fresh o s -> seq_step o (map snd l) = Some (ys, q) ->
  exists s' l', step o s = Some (s', q) /\ rep s' l' /\ map snd l' = ys.
Proof.
  intros R [Hd Hf] H. destruct o as [a v|a v|p a v|p ads v|p vs|p| | | |]; cbn [seq_step step new_addrs] in *.
  - injection H as <- <-. destruct (Hf a (or_introl eq_refl)) as [H0 Hn]. rewrite <- (app_nil_r l) in R.
    destruct (emplace_rep s l [] a v R H0 Hn) as (s' & E & R'). rewrite app_nil_r in R.
    unfold push_back, end_. rewrite (r_tail _ _ R). cbn [first_addr] in E. rewrite E. cbn. exists s', (l ++ [(a, v)]).
    split; [reflexivity|]. split; [auto|]. rewrite map_app. reflexivity.
  - injection H as <- <-. destruct (Hf a (or_introl eq_refl)) as [H0 Hn].
    destruct (emplace_rep s [] l a v R H0 Hn) as (s' & E & R').
    unfold push_front, begin_. rewrite (r_head _ _ R). cbn [last_addr] in E. rewrite E. cbn. exists s', ((a, v) :: l). auto.
  - destruct (index (map snd l) p) as [i|] eqn:Ei; [|discriminate]. injection H as <- <-.
    destruct (iterator_at s l p i R Ei) as [Hi ->]. destruct (split_at l i Hi) as (l1 & l2 & -> & <-). rewrite iter_at_split.
    destruct (Hf a (or_introl eq_refl)) as [H0 Hn]. destruct (emplace_rep s l1 l2 a v R H0 Hn) as (s' & -> & R').
    rewrite (observe_at s' _ (length l1) _ R').
    + exists s', (l1 ++ (a, v) :: l2). split; [|split; [auto|]].
      * do 3 f_equal. rewrite map_app, nth_error_app2 by (rewrite map_length; lia). rewrite map_length, Nat.sub_diag. reflexivity.
      * rewrite map_seq_insert, map_app. reflexivity.
    + rewrite app_length. lia.
    + rewrite iter_at_split. reflexivity.
  - destruct (index (map snd l) p) as [i|] eqn:Ei; [|discriminate]. injection H as <- <-.
    destruct (iterator_at s l p i R Ei) as [Hi ->]. destruct (split_at l i Hi) as (l1 & l2 & -> & <-). rewrite iter_at_split.
    destruct (insert_count_rep ads s l1 l2 v R Hd Hf) as (s' & m & -> & R' & Em).
    rewrite (observe_at s' _ (length l1) _ R').
    + exists s', (l1 ++ m ++ l2). rewrite map_seq_insert, <- Em, !map_app. auto.
    + rewrite app_length. lia.
    + rewrite iter_at_split. reflexivity.
  - destruct (index (map snd l) p) as [i|] eqn:Ei; [|discriminate]. injection H as <- <-.
    destruct (iterator_at s l p i R Ei) as [Hi ->]. destruct (split_at l i Hi) as (l1 & l2 & -> & <-). rewrite iter_at_split.
    destruct (insert_range_rep vs s l1 l2 R Hd Hf) as (s' & -> & R').
    rewrite (observe_at s' _ (length l1) _ R').
    + exists s', (l1 ++ vs ++ l2). rewrite map_seq_insert, !map_app. auto.
    + rewrite app_length. lia.
    + rewrite iter_at_split. reflexivity.
  - destruct (index (map snd l) p) as [i|] eqn:Ei; [|discriminate].
    destruct (iterator_at s l p i R Ei) as [Hi ->]. rewrite map_length in H. destruct (Nat.ltb_spec i (length l)); [|discriminate].
    injection H as <- <-. destruct (split_at l i Hi) as (l1 & l2 & -> & <-). rewrite iter_at_split.
    destruct l2 as [|c l2]; [rewrite app_nil_r in *; lia|]. cbn [first_addr].
    destruct (erase_rep s l1 c l2 R) as (s' & -> & R' & _).
    assert (Es : seq_erase (length l1) (map snd (l1 ++ c :: l2)) = map snd (l1 ++ l2)).
    { unfold seq_erase. rewrite !map_app, <- (map_length snd l1), firstn_app, firstn_all, Nat.sub_diag. cbn [firstn map]. rewrite app_nil_r. f_equal.
      replace (S (length (map snd l1))) with (length (map snd l1 ++ [snd c])) by (rewrite app_length; cbn; lia).
      replace (map snd l1 ++ snd c :: map snd l2) with ((map snd l1 ++ [snd c]) ++ map snd l2) by (rewrite <- app_assoc; reflexivity).
      rewrite skipn_app, skipn_all, Nat.sub_diag. reflexivity. }
    rewrite Es. rewrite (observe_at s' _ (length l1) _ R').
    + exists s', (l1 ++ l2). auto.
    + rewrite app_length. lia.
    + rewrite iter_at_split. reflexivity.
  - destruct l as [|c l]; [discriminate|]. injection H as <- <-. destruct (pop_front_rep s c l R) as (s' & -> & R').
    exists s', l. auto.
  - rewrite <- map_rev in H. destruct (rev l) as [|c r] eqn:Er; [discriminate|]. cbn [map] in H. injection H as <- <-.
    unfold pop_back. pose proof (reverse_rep s l R) as Rr. rewrite Er in Rr.
    destruct (pop_front_rep _ c r Rr) as (s' & -> & R'). cbn. exists (reverse s'), (rev r).
    split; [reflexivity|]. split; [apply reverse_rep; auto|]. rewrite map_rev. reflexivity.
  - injection H as <- <-. exists (reverse s), (rev l). split; [reflexivity|]. split; [apply reverse_rep; auto|]. apply map_rev.
  - injection H as <- <-. unfold clear. rewrite (r_size _ _ R). destruct (clear_rep l s R) as (s' & -> & R').
    exists s', []. auto.
Qed.

Lemma runs_rep s xs : runs s xs -> exists l, rep s l /\ map snd l = xs.
Proof.
  induction 1 as [|s xs o s' r ys q Hr (l & R & <-) Hf Hq Hs].
  - exists []. split; [apply rep_empty|reflexivity].
  - destruct (step_rep s l o ys q R Hf Hq) as (s1 & l1 & E & R1 & E1). rewrite E in Hs. injection Hs as <- <-. eauto.
Qed.

(** ** C34 *)

(** After any run, any operation whose precondition the sequence meets succeeds on the list and returns what the sequence
    returns. *)
Theorem C34_operations : forall s xs o ys q, runs s xs -> fresh o s -> seq_step o xs = Some (ys, q) ->
  exists s', step o s = Some (s', q) /\ runs s' ys.
Proof.
  intros s xs o ys q Hr Hf Hq. destruct (runs_rep s xs Hr) as (l & R & <-).
  destruct (step_rep s l o ys q R Hf Hq) as (s' & l' & E & R' & E'). exists s'. split; [auto|]. eapply run_step; eauto.
Qed.

(** After any run, what the list shows is the sequence: forwards, backwards, its size, its ends. *)
Theorem C34_contents : forall s xs, runs s xs ->
  contents s = Some xs /\ rcontents s = Some (rev xs) /\ size s = length xs /\
  front s = hd_error xs /\ back s = hd_error (rev xs).
Proof.
  intros s xs Hr. destruct (runs_rep s xs Hr) as (l & R & <-). split; [apply contents_rep; auto|]. split; [apply rcontents_rep; auto|].
  split; [rewrite map_length; apply (r_size _ _ R)|].
  assert (F : forall s l, rep s l -> front s = hd_error (map snd l)).
  { clear. intros s l R. unfold front. rewrite (r_head _ _ R). destruct l as [|c l]; [reflexivity|].
    destruct (incr_at s [] c l R) as [_ E]. exact E. }
  split; [apply F; auto|]. rewrite <- map_rev. apply (F (reverse s)). apply reverse_rep; auto.
Qed.

(** No memory is lost: the number of allocated nodes is the number of elements. *)
Theorem C34_no_leak : forall s xs, runs s xs ->
  exists live, NoDup live /\ length live = length xs /\ forall a, hp s a <> None <-> In a live.
Proof.
  intros s xs Hr. destruct (runs_rep s xs Hr) as (l & R & <-). exists (addrs l). split; [apply (r_nodup _ _ R)|].
  split; [unfold addrs; rewrite !map_length; auto|]. intros a. split; [apply (r_dom _ _ R)|].
  apply (chain_dom _ _ _ _ (r_chain _ _ R)).
Qed.

(** A copy has the same elements. *)
Theorem C34_copy : forall s xs addrs, runs s xs -> length addrs = length xs -> NoDup addrs -> ~ In 0%N addrs ->
  exists s', copy addrs s = Some s' /\ runs s' xs.
Proof.
  intros s xs ads Hr Hl Hd H0. unfold copy. destruct (C34_contents s xs Hr) as (-> & _).
  assert (Hc : map fst (combine ads xs) = ads /\ map snd (combine ads xs) = xs).
  { clear - Hl. revert xs Hl; induction ads as [|a r IH]; intros [|x xs] Hl; try discriminate; auto.
    cbn. destruct (IH xs ltac:(cbn in Hl; lia)) as [-> ->]. auto. }
  destruct Hc as [Hc1 Hc2]. 
  assert (Hf : fresh (InsertRange (FromBegin 0) (combine ads xs)) empty_list).
  { split; cbn; rewrite Hc1; auto. intros a Ha. split; [intros ->; auto|reflexivity]. }
  destruct (C34_operations empty_list [] (InsertRange (FromBegin 0) (combine ads xs))
              (seq_insert 0 (map snd (combine ads xs)) []) _ run_nil Hf eq_refl) as (s' & E & Hr').
  unfold seq_insert in Hr'. cbn [firstn skipn app] in Hr'. rewrite app_nil_r, Hc2 in Hr'.
  cbn [step iterator advance] in E. destruct (insert_range _ _ _) as [[s1 it]|] eqn:Ei; [|discriminate].
  cbn [observe] in E. cbn. exists s1. split; [reflexivity|].
  destruct (iter_eqb it (end_ s1)); [injection E as -> _; auto|]. destruct (deref (hp s1) it); [injection E as -> _; auto|discriminate].
Qed.

(** Iterators elsewhere stay valid: inserting at index i keeps every iterator at another index (those behind move on by one),
    erasing index i keeps all but the iterators at i and i+1. *)
Definition valid (s : dll V) (i : nat) (it : iter) : Prop := i <= size s /\ advance i (hp s) (begin_ s) = Some it.

Lemma valid_at s l i it : rep s l -> valid s i it <-> i <= length l /\ it = iter_at l i.
Proof.
  intros R. unfold valid, begin_. rewrite (r_size _ _ R), (r_head _ _ R). split.
  - intros [Hi H]. split; [auto|]. pose proof (advance_at s l [] i R Hi) as E. cbn [last_addr] in E. rewrite E in H. cbn in H. congruence.
  - intros [Hi ->]. split; [auto|]. apply (advance_at s l [] i R Hi).
Qed.

Lemma iter_at_insert l1 c l2 j : j <= length (l1 ++ l2) -> j <> length l1 ->
  iter_at (l1 ++ c :: l2) (if j <? length l1 then j else S j) = iter_at (l1 ++ l2) j.
Proof.
  intros Hj Hne. unfold iter_at. destruct (Nat.ltb_spec j (length l1)) as [Hlt|Hge].
  - rewrite !skipn_app, !firstn_app. replace (j - length l1) with 0 by lia. cbn [firstn skipn]. rewrite !app_nil_r. f_equal.
    rewrite !first_addr_app. destruct (skipn j l1) eqn:E; [|reflexivity]. exfalso.
    apply (f_equal (@length _)) in E. rewrite skipn_length in E. cbn in E. lia.
  - destruct (split_at l2 (j - length l1)) as (m1 & m2 & -> & Hm); [rewrite app_length in Hj; lia|].
    destruct m1 as [|d m1]; [cbn in Hm; lia|].
    replace (l1 ++ c :: (d :: m1) ++ m2) with ((l1 ++ c :: d :: m1) ++ m2) by (rewrite <- app_assoc; reflexivity).
    replace (l1 ++ (d :: m1) ++ m2) with ((l1 ++ d :: m1) ++ m2) by (rewrite <- app_assoc; reflexivity).
    replace (S j) with (length (l1 ++ c :: d :: m1)) by (rewrite app_length; cbn in *; lia).
    replace j with (length (l1 ++ d :: m1)) by (rewrite app_length; cbn in *; lia).
    pose proof (iter_at_split (l1 ++ c :: d :: m1) m2) as E1. pose proof (iter_at_split (l1 ++ d :: m1) m2) as E2.
    unfold iter_at in E1, E2. rewrite E1, E2, !last_addr_app. reflexivity.
Qed.

Theorem C34_insert_keeps_iterators : forall s xs i j pos it a v s' it', runs s xs -> a <> 0%N -> hp s a = None ->
  valid s i pos -> valid s j it -> j <> i -> emplace a pos v s = Some (s', it') ->
  valid s' (if j <? i then j else S j) it /\ valid s' i it'.
Proof.
  intros s xs i j pos it a v s' it' Hr H0 Hn Hp Hit Hne E. destruct (runs_rep s xs Hr) as (l & R & _).
  apply (valid_at _ _ _ _ R) in Hp. apply (valid_at _ _ _ _ R) in Hit. destruct Hp as [Hi ->], Hit as [Hj ->].
  destruct (split_at l i Hi) as (l1 & l2 & -> & <-). rewrite iter_at_split in E.
  destruct (emplace_rep s l1 l2 a v R H0 Hn) as (s1 & E1 & R1). rewrite E1 in E. injection E as <- <-.
  rewrite !(valid_at _ _ _ _ R1). rewrite iter_at_insert by auto. rewrite !app_length in *. cbn [length].
  split; split; auto; try lia.
  - destruct (Nat.ltb_spec j (length l1)); lia.
  - rewrite iter_at_split. reflexivity.
Qed.

Theorem C34_erase_keeps_iterators : forall s xs i j pos it s' it', runs s xs ->
  valid s i pos -> valid s j it -> j <> i -> j <> S i -> erase pos s = Some (s', it') ->
  valid s' (if j <? i then j else pred j) it /\ valid s' i it'.
Proof.
  intros s xs i j pos it s' it' Hr Hp Hit Hne Hne2 E. destruct (runs_rep s xs Hr) as (l & R & _).
  apply (valid_at _ _ _ _ R) in Hp. apply (valid_at _ _ _ _ R) in Hit. destruct Hp as [Hi ->], Hit as [Hj ->].
  destruct (split_at l i Hi) as (l1 & l2 & -> & <-). rewrite iter_at_split in E. destruct l2 as [|c l2].
  { exfalso. cbn [first_addr] in E. cbn in E. discriminate. }
  destruct (erase_rep s l1 c l2 R) as (s1 & E1 & R1 & _). cbn [first_addr] in E. rewrite E1 in E. injection E as <- <-.
  rewrite !(valid_at _ _ _ _ R1). rewrite app_length in *. cbn [length] in *.
  assert (Hk : exists k, j = (if k <? length l1 then k else S k) /\ k <> length l1 /\ k <= length (l1 ++ l2) /\ (if j <? length l1 then j else pred j) = k).
  { destruct (Nat.ltb_spec j (length l1)).
    - exists j. destruct (Nat.ltb_spec j (length l1)); [|lia]. rewrite app_length. repeat split; lia.
    - exists (pred j). destruct (Nat.ltb_spec (pred j) (length l1)); [lia|]. rewrite app_length. repeat split; lia. }
  destruct Hk as (k & -> & Hk1 & Hk2 & ->). rewrite iter_at_insert by auto. rewrite app_length in Hk2.
  split; split; auto; try lia. rewrite iter_at_split. reflexivity.
Qed.

End Props.

(** ** Counterexamples *)

(** Erasing through [rbegin()], an iterator of the same type as [begin()]'s, corrupts the list: after pushing 1, 2, 3,
    [erase(rbegin())] loses the 1 and leaves a tail that points to freed memory. *)
Theorem C34_refuted_erase_rbegin : exists s s' it : _, runs s [1; 2; 3] /\ erase (rbegin s) s = Some (s', it) /\
  back s' = None /\ contents s' = None /\ size s' = 2 /\ front s' = Some 2.
Proof.
  assert (H1 : exists s1, step (PushBack 8%N 1) empty_list = Some (s1, Done) /\ runs s1 [1]).
  { apply (C34_operations _ [] _ _ _ run_nil); [|reflexivity]. split; [repeat constructor; cbn; tauto|].
    intros a [<-|[]]; split; [discriminate|reflexivity]. }
  destruct H1 as (s1 & E1 & R1). cbn in E1. injection E1 as <-.
  edestruct (C34_operations _ _ (PushBack 16%N 2) [1;2] Done R1) as (s2 & E2 & R2); [|reflexivity|].
  { split; [repeat constructor; cbn; tauto|]. intros a [<-|[]]; split; [discriminate|reflexivity]. }
  cbn in E2. injection E2 as <-.
  edestruct (C34_operations _ _ (PushBack 24%N 3) [1;2;3] Done R2) as (s3 & E3 & R3); [|reflexivity|].
  { split; [repeat constructor; cbn; tauto|]. intros a [<-|[]]; split; [discriminate|reflexivity]. }
  cbn in E3. injection E3 as <-.
  eexists. eexists. eexists. split; [exact R3|]. split; [reflexivity|]. repeat split.
Qed.

(** An iterator at the position of an insertion is lost: it still shows its element, but advancing it leads to an address
    that is no node. *)
Theorem C34_refuted_iterator_at_insertion : exists s s' it it1 : _, runs s [1; 2; 3] /\
  advance 1 (hp s) (begin_ s) = Some it /\ emplace 32%N it 9 s = Some (s', it1) /\ contents s' = Some [1; 9; 2; 3] /\
  deref (hp s') it = Some 2 /\ exists it2, incr (hp s') it = Some it2 /\ deref (hp s') it2 = None.
Proof.
  assert (H1 : exists s1, step (PushBack 8%N 1) empty_list = Some (s1, Done) /\ runs s1 [1]).
  { apply (C34_operations _ [] _ _ _ run_nil); [|reflexivity]. split; [repeat constructor; cbn; tauto|].
    intros a [<-|[]]; split; [discriminate|reflexivity]. }
  destruct H1 as (s1 & E1 & R1). cbn in E1. injection E1 as <-.
  edestruct (C34_operations _ _ (InsertRange (FromEnd 0) [(16%N, 2); (24%N, 3)]) [1;2;3] (Iterator (Some 2)) R1) as (s2 & E2 & R2); [|reflexivity|].
  { split; [repeat constructor; cbn; intuition discriminate|]. intros a [<-|[<-|[]]]; split; (discriminate || reflexivity). }
  cbn in E2. injection E2 as <-.
  eexists. eexists. eexists. eexists. split; [exact R2|]. split; [reflexivity|]. split; [reflexivity|]. repeat split.
  eexists. split; reflexivity.
Qed.

(** ** Non-vacuity: a run with all kinds of operations *)
Example C34_nonvacuous : exists s, runs s [7; 7; 5] /\ contents s = Some [7; 7; 5].
Proof.
  assert (H1 : exists s1, step (PushBack 8%N 1) empty_list = Some (s1, Done) /\ runs s1 [1]).
  { apply (C34_operations _ [] _ _ _ run_nil); [|reflexivity]. split; [repeat constructor; cbn; tauto|].
    intros a [<-|[]]; split; [discriminate|reflexivity]. }
  destruct H1 as (s1 & E1 & R1). cbn in E1. injection E1 as <-.
  edestruct (C34_operations _ _ (PushFront 16%N 5) [5; 1] Done R1) as (s2 & E2 & R2); [|reflexivity|].
  { split; [repeat constructor; cbn; tauto|]. intros a [<-|[]]; split; [discriminate|reflexivity]. }
  cbn in E2. injection E2 as <-.
  edestruct (C34_operations _ _ (InsertCount (FromEnd 1) [24%N; 32%N] 7) [5; 7; 7; 1] (Iterator (Some 7)) R2) as (s3 & E3 & R3); [|reflexivity|].
  { split; [repeat constructor; cbn; intuition discriminate|]. intros a [<-|[<-|[]]]; split; (discriminate || reflexivity). }
  cbn in E3. injection E3 as <-.
  edestruct (C34_operations _ _ PopBack [5; 7; 7] (Value 1) R3) as (s4 & E4 & R4); [split; [constructor|intros a []]|reflexivity|].
  cbn in E4. injection E4 as <-.
  edestruct (C34_operations _ _ Reverse [7; 7; 5] Done R4) as (s5 & E5 & R5); [split; [constructor|intros a []]|reflexivity|].
  exists s5. split; [auto|]. apply (C34_contents _ _ R5).
Qed.
