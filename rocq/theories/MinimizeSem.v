(** * A plan with narrower schemas computes the same (for C53) *)
From Coq Require Import NArith ZArith List Bool Arith Lia.
From Verif Require Import Interp InterpSpec Finish FinishSpec FinishProps Minimize MinimizeSpec MinimizeSim MinimizeSchemas MinimizeRows.
Import ListNotations.

Lemma op_ind2 (P : op -> Prop) :
  (forall T rows S, P (OScan T rows S)) -> (forall d f S c, P c -> P (OFilter d f S c)) -> (forall j S cs, Forall P cs -> P (OJoin j S cs)) ->
  (forall es S c, P c -> P (OProject es S c)) -> (forall es S, P (OOnce es S)) -> (forall a b S c, P c -> P (OLimit a b S c)) ->
  (forall ks aggs S c, P c -> P (OGroup ks aggs S c)) -> (forall aggs S c, P c -> P (OAggregate aggs S c)) -> (forall order S c, P c -> P (OSort order S c)) -> forall o, P o.
Proof.
  intros H1 H2 H3 H4 H5 H6 H7 H8 H9. fix F 1. intros [T rows S|d f S c|j S cs|es S c|es S|a b S c|ks aggs S c|aggs S c|order S c].
  - apply H1.
  - apply H2, F.
  - apply H3. induction cs as [|c cs IH]; constructor; [apply F|exact IH].
  - apply H4, F.
  - apply H5.
  - apply H6, F.
  - apply H7, F.
  - apply H8, F.
  - apply H9, F.
Qed.

Definition j_names (j : jcond) (id : ident) : Prop :=
  match j with JColumns ks => exists k, In k ks /\ (id = fst k \/ id = snd k) | JCnf f => exists cl l, In cl f /\ In l cl /\ In id (uses (snd l)) end.
Definition prefixed (c : op) : Prop := exists t, pipe c = sch c ++ t.
(** [o'] is [o] with fewer columns, but all that are needed *)
Inductive narrow : op -> op -> Prop :=
  | n_scan T rows S : NoDup S -> incl S T -> narrow (OScan T rows T) (OScan T rows S)
  | n_filter d f S S' c c' : narrow c c' -> (forall cl l, In cl f -> In l cl -> incl (uses (snd l)) (pipe c')) -> narrow (OFilter d f S c) (OFilter d f S' c')
  | n_join j S S' cs cs' :
      Forall2 narrow cs cs' -> NoDup S' -> incl S' (flat_map sch cs') -> (forall id, j_names j id -> In id (flat_map sch cs')) ->
      Forall prefixed (removelast cs') -> Forall (fun c => incl (sch c) (pipe c)) cs' -> narrow (OJoin j S cs) (OJoin j S' cs')
  | n_project es S c c' mask :
      narrow c c' -> (forall e, In e (pick mask es) -> incl (uses e) (pipe c')) -> narrow (OProject es S c) (OProject (pick mask es) (pick mask S) c')
  | n_once es S mask : narrow (OOnce es S) (OOnce (pick mask es) (pick mask S))
  | n_limit a b S S' c c' : narrow c c' -> narrow (OLimit a b S c) (OLimit a b S' c')
  | n_group ks aggs N c c' mask :
      narrow c c' -> prefixed c' -> (forall e, In e ks -> incl (uses e) (sch c')) -> (forall a e, In a (pick mask aggs) -> In e (agg_args a) -> incl (uses e) (sch c')) ->
      length mask = length aggs -> narrow (OGroup ks aggs (N ++ map agg_id aggs) c) (OGroup ks (pick mask aggs) (N ++ map agg_id (pick mask aggs)) c')
  | n_aggregate aggs c c' mask :
      narrow c c' -> prefixed c' -> (forall a e, In a (pick mask aggs) -> In e (agg_args a) -> incl (uses e) (sch c')) -> length mask = length aggs ->
      narrow (OAggregate aggs (map agg_id aggs) c) (OAggregate (pick mask aggs) (map agg_id (pick mask aggs)) c')
  | n_sort order S S' c c' : narrow c c' -> (forall o, In o order -> incl (uses (fst o)) (pipe c')) -> narrow (OSort order S c) (OSort order S' c').

Section Sem.
Context (text : expr -> N) (fn_sem : N -> cell -> cell) (un_sem : N -> cell -> cell) (bin_sem : N -> cell -> cell -> cell) (truth : cell -> option bool).
Notation ev := (ev fn_sem un_sem bin_sem).
Notation by_name := (by_name fn_sem un_sem bin_sem truth).
Notation built := (built text fn_sem un_sem bin_sem truth).
Notation readable := (readable text fn_sem un_sem bin_sem truth).
Notation lower := (lower text fn_sem un_sem bin_sem truth).
Notation emit := (emit text fn_sem un_sem bin_sem).

Lemma built_false top o : built false o -> built top o.
Proof. induction o using op_ind2; intros B; inversion B; subst; try (constructor; auto; fail). Qed.
(** the names of the rows *)
Lemma combine_fst {A B} (l : list A) (m : list B) : length m = length l -> map fst (combine l m) = l.
Proof. revert m. induction l as [|x l IH]; intros [|y m] H; cbn in *; try discriminate; [reflexivity|]. f_equal. apply IH. lia. Qed.
Lemma forall2_length {A B} (P : A -> B -> Prop) l m : Forall2 P l m -> length l = length m. Proof. induction 1; cbn; congruence. Qed.
Lemma row_names o : forall top, built top o -> onrows (by_name o) (fun r => map fst r = sch o).
Proof.
  induction o as [T rows S|d f S c IH|j S cs IH|es S c IH|es S|a b S c IH|ks aggs S c IH|aggs S c IH|order S c IH] using op_ind2; intros top B; unfold onrows; inversion B; subst; cbn [MinimizeSpec.by_name sch]; intros l r A Hr.
  - inversion A; subst. apply in_map_iff in Hr. destruct Hr as [x [<- Hx]]. match goal with F : Forall _ rows |- _ => rewrite Forall_forall in F; apply combine_fst, F, Hx end.
  - inversion A; subst. apply filter_In in Hr. eapply IH; [eassumption|eassumption|apply Hr].
  - inversion A as [| | |? ? ? ls ? F P| | | | | |]; subst. apply (Permutation.Permutation_in _ P) in Hr. apply in_map_iff in Hr. destruct Hr as [rs [<- Hrs]]. apply filter_In in Hrs. destruct Hrs as [Hrs _].
    apply product_in in Hrs. rewrite names_concat. match goal with F : Forall (built false) cs |- _ => rename F into BB end. clear - IH BB F Hrs. revert ls F rs Hrs. induction IH as [|c cs IHc IHcs IH']; intros ls F rs Hrs; cbn [map] in F; inversion F as [|? l ? ls' A F']; subst; inversion Hrs as [|r ? rs' ? Hr Hrs']; subst; [reflexivity|].
    inversion BB; subst. cbn [map concat flat_map]. rewrite (IHc false ltac:(assumption) l r A Hr). f_equal. eapply IH'; eassumption.
  - inversion A as [| | |? ? ? ls ? F P| | | | | |]; subst. apply (Permutation.Permutation_in _ P) in Hr. apply in_map_iff in Hr. destruct Hr as [rs [<- Hrs]]. apply filter_In in Hrs. destruct Hrs as [Hrs _].
    apply product_in in Hrs. rewrite names_concat. inversion IH as [|? ? I0 IH1]; subst. inversion IH1 as [|? ? I1 _]; subst. cbn [map] in F. inversion F as [|? l0 ? ls1 A0 F1]; subst. inversion F1 as [|? l1 ? ls2 A1 F2]; subst. inversion F2; subst.
    inversion Hrs as [|r0 ? rs1 ? R0 Hrs1]; subst. inversion Hrs1 as [|r1 ? rs2 ? R1 Hrs2]; subst. inversion Hrs2; subst. cbn [map concat]. rewrite (I0 false ltac:(assumption) l0 r0 A0 R0), (I1 false ltac:(assumption) l1 r1 A1 R1), app_nil_r. reflexivity.
  - inversion A; subst. apply in_map_iff in Hr. destruct Hr as [x [<- Hx]]. apply combine_fst. rewrite map_length. assumption.
  - inversion A; subst. destruct Hr as [<-|[]]. apply combine_fst. rewrite map_length. assumption.
  - inversion A; subst. apply (IH top ltac:(assumption) l0 r); [assumption|]. clear - Hr. assert (X : forall n (l : list nrow), In r (firstn n l) -> In r l) by (induction n; intros [|x t]; cbn; try tauto; intros [->|Y]; [left; reflexivity|right; apply IHn, Y]).
    assert (Y : forall n (l : list nrow), In r (skipn n l) -> In r l) by (induction n; intros [|x t]; cbn; try tauto; intros Z; right; apply IHn, Z). eapply Y, X, Hr.
  - inversion A as [| | | | | | |? ? ? ? l0 ks' ? A1 ND HI HR| |]; subst. apply In_nth_error in Hr. destruct Hr as [i Hi].
    assert (X : exists k, In k ks' /\ exists cs, r = combine (N ++ map agg_id aggs) (k ++ cs) /\ Forall2 (agg_value (members (map (fun e r => ev r e) ks) l0 k)) (map (name_agg fn_sem un_sem bin_sem) aggs) cs).
    { clear - HR Hi. revert i Hi. induction HR as [|k r' ks' rows H1 H2 IH]; intros [|i] Hi; cbn in Hi; try discriminate; [injection Hi as ->; exists k; split; [left; reflexivity|exact H1]|].
      destruct (IH i Hi) as [k' [I E]]. exists k'. split; [right; exact I|exact E]. }
    destruct X as [k [Ik [cs [-> F]]]]. apply HI in Ik. apply in_map_iff in Ik. destruct Ik as [r' [<- _]]. apply combine_fst. rewrite !app_length, map_length. unfold key_of. rewrite !map_length.
    apply forall2_length in F. rewrite map_length in F. lia.
  - inversion A as [| | | | | | | |? ? ? l0 cs A1 F|]; subst. destruct Hr as [<-|[]]. apply combine_fst. apply forall2_length in F. rewrite map_length in *. lia.
  - inversion A as [| | | | | | | | |? ? l0 ? A1 P _]; subst. eapply IH; [eassumption|exact A1|]. eapply Permutation.Permutation_in; eassumption.
Qed.

(** ** the schemas of the tuples *)
Lemma nodup_flat {A B} (f : A -> list B) l : NoDup (flat_map f l) -> forall x, In x l -> NoDup (f x).
Proof. induction l as [|y l IH]; cbn [flat_map]; intros ND x H; [destruct H|]. destruct H as [->|H]; [eapply nodup_app_l; exact ND|apply IH; [eapply nodup_app_r; exact ND|exact H]]. Qed.
Lemma flat_incl {A B} (f g : A -> list B) l m : Forall2 (fun a b => incl (f a) (g b)) l m -> incl (flat_map f l) (flat_map g m).
Proof. induction 1 as [|a b l m H F IH]; [intros x []|]. cbn [flat_map]. intros x Hx. apply in_app_or in Hx. apply in_or_app. destruct Hx as [Hx|Hx]; [left; apply H, Hx|right; apply IH, Hx]. Qed.
Lemma children_ok cs cs' : Forall (fun o => forall o', built false o -> narrow o o' -> incl (pipe o') (sch o) /\ NoDup (pipe o')) cs -> Forall (built false) cs -> Forall2 narrow cs cs' ->
  Forall2 (fun c' c => incl (pipe c') (sch c)) cs' cs.
Proof.
  intros IH BB HF. induction HF as [|c c' cs cs' Hn F IHf]; [constructor|]. inversion BB; inversion IH; subst. constructor; [|apply IHf; assumption]. match goal with X : forall o', built false c -> _ |- _ => apply (X c'); assumption end.
Qed.
Lemma built_children top j S cs : built top (OJoin j S cs) -> Forall (built false) cs /\ S = flat_map sch cs /\ NoDup (flat_map sch cs) /\ Forall straight (removelast cs) /\ cs <> [] /\
  forall id, j_names j id -> In id (flat_map sch cs).
Proof.
  intros B. inversion B; subst.
  - split; [assumption|]. split; [reflexivity|]. split; [assumption|]. split; [assumption|]. split; [assumption|]. intros id [cl [l [I1 [I2 I3]]]]. match goal with X : forall cl l, _ |- _ => apply (X cl l I1 I2 id I3) end.
  - cbn [flat_map removelast]. rewrite app_nil_r. split; [repeat (apply Forall_cons; [assumption|]); constructor|]. split; [reflexivity|]. split; [assumption|]. split; [repeat (apply Forall_cons; [assumption|]); constructor|]. split; [discriminate|].
    intros id [[a b] [I [-> | ->]]]; cbn [fst snd]; apply in_or_app; match goal with X : forall a b, _ |- _ => destruct (X a b I); tauto end.
Qed.
Lemma pipe_ok o : forall o', built false o -> narrow o o' -> incl (pipe o') (sch o) /\ NoDup (pipe o').
Proof.
  induction o as [T rows S|d f S c IH|j S cs IH|es S c IH|es S|a b S c IH|ks aggs S c IH|aggs S c IH|order S c IH] using op_ind2; intros o' B H; inversion H; subst; cbn [pipe sch].
  - split; assumption.
  - inversion B; subst. apply IH; assumption.
  - split; [|assumption]. destruct (built_children _ _ _ _ B) as [BB [-> [_ _]]]. pose proof (children_ok cs cs' IH BB ltac:(assumption)) as X. apply flat_incl in X.
    assert (Y : incl (flat_map sch cs') (flat_map pipe cs')).
    { clear - H9. induction H9 as [|c l Hc Hl IHl]; [intros x []|]. cbn [flat_map]. intros x Hx. apply in_app_or in Hx. apply in_or_app. destruct Hx as [Hx|Hx]; [left; apply Hc, Hx|right; apply IHl, Hx]. }
    intros x Hx. apply X, Y. auto.
  - inversion B; subst. split; [apply pick_in|apply pick_nodup; auto].
  - inversion B; subst. split; [apply pick_in|apply pick_nodup; auto].
  - inversion B; subst. apply IH; assumption.
  - inversion B; subst. match goal with E : ?N0 ++ map agg_id aggs = ?N ++ map agg_id aggs |- _ => apply app_inv_tail in E; subst N0 end. split.
    + intros x Hx. apply in_app_or in Hx. apply in_or_app. destruct Hx as [Hx|Hx]; [left; exact Hx|right]. rewrite <- pick_map in Hx. apply pick_in in Hx. exact Hx.
    + match goal with ND : NoDup (_ ++ map agg_id aggs) |- _ => rename ND into NDg end. rewrite <- pick_map. clear - NDg. assert (G : forall (l m : schema) mask, NoDup (l ++ m) -> NoDup (l ++ pick mask m)).
      { induction l as [|x l IH]; intros m mask' ND; cbn in *; [apply pick_nodup, ND|]. inversion ND; subst. constructor; [|apply IH; assumption]. intros X. apply H1. apply in_app_or in X. apply in_or_app. destruct X as [X|X]; [left; exact X|right; apply pick_in in X; exact X]. }
      apply G. assumption.
  - inversion B; subst. rewrite <- pick_map. split; [apply pick_in|apply pick_nodup; assumption].
  - inversion B; subst. apply IH; assumption.
Qed.
End Sem.
