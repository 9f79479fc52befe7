(** * Two plans that compute the same rows in different representations (for C53) *)
From Coq Require Import NArith ZArith QArith List Bool Arith Lia Permutation Sorted.
From Verif Require Import Interp InterpSpec Finish Minimize.
Import ListNotations.

(** the elements of a list whose mark is true *)
Fixpoint pick {A : Type} (mask : list bool) (l : list A) : list A :=
  match mask, l with
  | b :: mask', x :: l' => if b then x :: pick mask' l' else pick mask' l'
  | _, _ => []
  end.
Lemma pick_in {A} mask (l : list A) : incl (pick mask l) l.
Proof.
  revert l. induction mask as [|b mask IH]; intros [|x l] y Hy; cbn [pick] in Hy; try contradiction. destruct b; [destruct Hy as [->|Hy]; [left; reflexivity|]|]; right; apply (IH l y Hy).
Qed.
Lemma pick_map {A B} (f : A -> B) mask l : pick mask (map f l) = map f (pick mask l).
Proof. revert l. induction mask as [|[] mask IH]; intros [|x l]; cbn [pick map]; try reflexivity; rewrite IH; reflexivity. Qed.
Lemma pick_nodup {A} mask (l : list A) : NoDup l -> NoDup (pick mask l).
Proof.
  revert l. induction mask as [|b mask IH]; intros [|x l] ND; cbn [pick]; try constructor. inversion ND; subst. destruct b; [|apply IH; assumption].
  constructor; [|apply IH; assumption]. intros X. apply pick_in in X. contradiction.
Qed.
Lemma pick_combine {A B} mask (l : list A) (m : list B) : length l = length m -> combine (pick mask l) (pick mask m) = pick mask (combine l m).
Proof. revert l m. induction mask as [|[] mask IH]; intros [|x l] [|y m] H; cbn [pick combine length] in *; try discriminate; try reflexivity; rewrite IH by lia; reflexivity. Qed.
Lemma pick_length {A B} mask (l : list A) (m : list B) : length l = length m -> length (pick mask l) = length (pick mask m).
Proof. revert l m. induction mask as [|[] mask IH]; intros [|x l] [|y m] H; cbn [pick length] in *; try discriminate; try reflexivity; rewrite (IH l m) by lia; reflexivity. Qed.
Lemma pick_all {A} (l : list A) mask : length mask = length l -> (forall b, In b mask -> b = true) -> pick mask l = l.
Proof.
  revert l. induction mask as [|b mask IH]; intros [|x l] H HA; cbn [pick length] in *; try discriminate; [reflexivity|]. rewrite (HA b (or_introl eq_refl)). f_equal. apply IH; [lia|]. intros; apply HA; right; assumption.
Qed.

Section Sim.
Context {R R' : Type}.
(** every answer of [c'] is an answer of [c], seen through [V] *)
Definition sim (V : R -> R') (c : @plan R) (c' : @plan R') : Prop := forall l', answer c' l' -> exists l, answer c l /\ l' = map V l.
Definition onrows (c : @plan R) (P : R -> Prop) : Prop := forall l r, answer c l -> In r l -> P r.

Lemma filter_map_eq {A B} (V : A -> B) (p' : B -> bool) (p : A -> bool) l : (forall r, In r l -> p' (V r) = p r) -> filter p' (map V l) = map V (filter p l).
Proof.
  induction l as [|x l IH]; intros H; [reflexivity|]. cbn [map filter]. rewrite (H x (or_introl eq_refl)), IH by (intros r Hr; apply H; right; exact Hr). destruct (p x); reflexivity.
Qed.
Lemma sim_filter V c c' p p' : sim V c c' -> onrows c (fun r => p' (V r) = p r) -> sim V (Filter p c) (Filter p' c').
Proof.
  intros S H l' A. inversion A; subst. destruct (S _ ltac:(eassumption)) as [l0 [A0 ->]]. eexists. split; [apply ans_filter; exact A0|].
  apply filter_map_eq. intros r Hr. rewrite (H l0 r A0 Hr). reflexivity.
Qed.
Lemma sim_disjunctive V c c' p ps' : sim V c c' -> onrows c (fun r => any3 (map (fun q => q (V r)) ps') = p r) -> sim V (Filter p c) (Disjunctive ps' c').
Proof.
  intros S H l' A. inversion A; subst. destruct (S _ ltac:(eassumption)) as [l0 [A0 ->]]. eexists. split; [apply ans_filter; exact A0|].
  apply filter_map_eq. intros r Hr. rewrite (H l0 r A0 Hr). reflexivity.
Qed.
Lemma sim_limit V c c' n o : sim V c c' -> sim V (Limit n o c) (Limit n o c').
Proof.
  intros S l' A. inversion A; subst. destruct (S _ ltac:(eassumption)) as [l0 [A0 ->]]. eexists. split; [apply ans_limit; exact A0|]. rewrite skipn_map, firstn_map. reflexivity.
Qed.
Lemma precedes_eq V (order : list ((R -> option datum) * bool)) (order' : list ((R' -> option datum) * bool)) x y :
  Forall2 (fun k k' => snd k = snd k' /\ fst k' (V x) = fst k x /\ fst k' (V y) = fst k y) order order' -> precedes order' (V x) (V y) <-> precedes order x y.
Proof.
  induction 1 as [|[e b] [e' b'] order order' [E1 [E2 E3]] H IH]; [split; intros X; inversion X|]. cbn [fst snd] in *. subst b'. split; intros X; inversion X; subst.
  - apply prec_asc. congruence.
  - apply prec_desc. congruence.
  - apply prec_next; [congruence|apply IH; assumption].
  - apply prec_asc. congruence.
  - apply prec_desc. congruence.
  - apply prec_next; [congruence|apply IH; assumption].
Qed.
Lemma sorted_eq V (order : list ((R -> option datum) * bool)) (order' : list ((R' -> option datum) * bool)) l :
  Forall2 (fun k k' => snd k = snd k' /\ forall r, In r l -> fst k' (V r) = fst k r) order order' ->
  StronglySorted (fun x y => ~ precedes order' y x) (map V l) -> StronglySorted (fun x y => ~ precedes order y x) l.
Proof.
  intros H. induction l as [|x l IH]; intros S; [constructor|]. cbn [map] in S. inversion S as [|? ? S1 S2]; subst. constructor.
  - apply IH; [|exact S1]. clear - H. induction H as [|? ? ? ? [A B]]; constructor; [split; [exact A|intros; apply B; right; assumption]|assumption].
  - apply Forall_forall. intros y Hy X. rewrite Forall_forall in S2. apply (S2 (V y)); [apply in_map, Hy|]. apply precedes_eq with (order := order); [|exact X].
    clear - H Hy. induction H as [|? ? ? ? [A B]]; constructor; [|assumption]. split; [exact A|]. split; apply B; [right; exact Hy|left; reflexivity].
Qed.
Lemma sim_sort V c c' (order : list ((R -> option datum) * bool)) (order' : list ((R' -> option datum) * bool)) : sim V c c' -> Forall2 (fun k k' => snd k = snd k' /\ onrows c (fun r => fst k' (V r) = fst k r)) order order' -> sim V (Sort order c) (Sort order' c').
Proof.
  intros S H l' A. inversion A as [| | | | | | | | |? ? l1 ? A1 A2 A3]; subst. destruct (S _ A1) as [l0 [A0 ->]]. apply Permutation_map_inv in A2. destruct A2 as [l2 [-> A2]].
  exists l2. split; [|reflexivity]. apply ans_sort with (l := l0); [exact A0|apply Permutation_sym, A2|]. apply sorted_eq with (V := V) (order' := order'); [|exact A3].
  clear - H A0 A2. induction H as [|? ? ? ? [X Y]]; constructor; [|assumption]. split; [exact X|]. intros r Hr. apply (Y l0 r A0). apply (Permutation_in _ (Permutation_sym A2) Hr).
Qed.

(** ** Aggregates *)
Definition agg_like (V : R -> R') (P : R -> Prop) (a : @agg R) (a' : @agg R') : Prop :=
  match a, a' with
  | CountAll, CountAll => True
  | Count f, Count f' => forall r, P r -> f' (V r) = f r
  | SumI f, SumI f' => forall r, P r -> f' (V r) = f r
  | SumD f, SumD f' => forall r, P r -> f' (V r) = f r
  | Avg f, Avg f' => forall r, P r -> f' (V r) = f r
  | MinI f, MinI f' => forall r, P r -> f' (V r) = f r
  | MaxI f, MaxI f' => forall r, P r -> f' (V r) = f r
  | MinD f, MinD f' => forall r, P r -> f' (V r) = f r
  | MaxD f, MaxD f' => forall r, P r -> f' (V r) = f r
  | _, _ => False
  end.
Lemma map_like {B} (V : R -> R') (P : R -> Prop) (f : R -> B) (f' : R' -> B) l : (forall r, P r -> f' (V r) = f r) -> (forall r, In r l -> P r) -> map f' (map V l) = map f l.
Proof. intros H HP. rewrite map_map. apply map_ext_in. intros r Hr. apply H, HP, Hr. Qed.
Lemma agg_value_like V (P : R -> Prop) (a : @agg R) (a' : @agg R') l x : agg_like V P a a' -> (forall r, In r l -> P r) -> agg_value (map V l) a' x <-> agg_value l a x.
Proof.
  intros H HP. destruct a, a'; cbn [agg_like] in H; try contradiction; cbn [agg_value]; rewrite ?map_length; try reflexivity; rewrite (map_like V P _ _ l H HP); reflexivity.
Qed.
Lemma agg_safe_like V (P : R -> Prop) (a : @agg R) (a' : @agg R') l : agg_like V P a a' -> (forall r, In r l -> P r) -> agg_safe l a -> agg_safe (map V l) a'.
Proof.
  intros H HP. destruct a, a'; cbn [agg_like] in H; try contradiction; cbn [agg_safe]; try tauto.
  - intros [r [I X]]. exists (V r). split; [apply in_map, I|]. rewrite (H r (HP r I)). exact X.
  - intros [r [I X]]. exists (V r). split; [apply in_map, I|]. rewrite (H r (HP r I)). exact X.
  - intros [E X]. split; [intros Y; apply map_eq_nil in Y; contradiction|]. intros r' I. apply in_map_iff in I. destruct I as [r [<- I]]. rewrite (H r (HP r I)). apply X, I.
Qed.
Lemma int64_exists n : exists x, int64_of n x.
Proof.
  exists (Some (DInt ((n + 2 ^ 63) mod 2 ^ 64 - 2 ^ 63))). eexists. split; [reflexivity|]. pose proof (Z.mod_pos_bound (n + 2 ^ 63) (2 ^ 64) eq_refl) as B. split; [lia|].
  exists (- ((n + 2 ^ 63) / 2 ^ 64))%Z. pose proof (Z.div_mod (n + 2 ^ 63) (2 ^ 64)). lia.
Qed.
Lemma extreme_exists {A} (inj : A -> datum) (beats : A -> A -> Prop) (dec : forall x y, {beats x y} + {~ beats x y}) l :
  (forall x, ~ beats x x) -> (forall x y z, beats x y -> beats y z -> beats x z) -> exists x, extreme inj beats l x.
Proof.
  intros I T. assert (X : l = [] \/ exists x, In x l /\ forall y, In y l -> ~ beats y x).
  { induction l as [|a l IH]; [left; reflexivity|right]. destruct IH as [->|[x [Hx Hb]]]; [exists a; split; [left; reflexivity|intros y [<-|[]]; apply I]|].
    destruct (dec a x) as [B|B].
    - exists a. split; [left; reflexivity|]. intros y [<-|Hy]; [apply I|]. intros Z. apply (Hb y Hy). eapply T; eassumption.
    - exists x. split; [right; exact Hx|]. intros y [<-|Hy]; [exact B|apply Hb, Hy]. }
  destruct X as [->|[x [Hx Hb]]]; [exists None; left; split; reflexivity|]. exists (Some (inj x)). right. exists x. repeat split; assumption.
Qed.
Lemma agg_total (l : list R) a : exists x, agg_value l a x.
Proof.
  assert (U : forall B (m : list B) P, (exists x, P x) -> exists x, unless_empty m P x) by (intros B [|b m] P [x H]; cbn; [exists None; reflexivity|exists x; exact H]).
  destruct a; cbn [agg_value]; try (apply U; try apply int64_exists; eexists; eexists; split; reflexivity); try apply int64_exists; apply extreme_exists.
  - intros x y. destruct (Z_lt_dec x y); tauto.
  - intros x. lia.
  - intros x y z. lia.
  - intros x y. destruct (Z_lt_dec y x); tauto.
  - intros x. lia.
  - intros x y z. lia.
  - intros x y. destruct (Qlt_le_dec x y) as [H|H]; [left; exact H|right; apply Qle_not_lt, H].
  - intros x H. apply (Qlt_irrefl x H).
  - intros x y z. apply Qlt_trans.
  - intros x y. destruct (Qlt_le_dec y x) as [H|H]; [left; exact H|right; apply Qle_not_lt, H].
  - intros x H. apply (Qlt_irrefl x H).
  - intros x y z H1 H2. eapply Qlt_trans; eassumption.
Qed.

(** the cells of the aggregates that are left out can be filled in *)
Lemma fill (l : list R) (aggs : list (@agg R)) mask : length mask = length aggs -> forall cs', Forall2 (agg_value l) (pick mask aggs) cs' -> exists cs, Forall2 (agg_value l) aggs cs /\ pick mask cs = cs'.
Proof.
  revert aggs. induction mask as [|b mask IH]; intros [|a aggs] HL cs' H; cbn [pick length] in *; try discriminate; [inversion H; subst; exists []; split; constructor|].
  destruct b.
  - inversion H as [|? x ? cs1 H1 H2]; subst. destruct (IH aggs ltac:(lia) cs1 H2) as [cs [F E]]. exists (x :: cs). split; [constructor; assumption|]. cbn. rewrite E. reflexivity.
  - destruct (IH aggs ltac:(lia) cs' H) as [cs [F E]]. destruct (agg_total l a) as [x Hx]. exists (x :: cs). split; [constructor; assumption|]. exact E.
Qed.
Lemma values_like V (P : R -> Prop) l (aggs : list (@agg R)) (aggs' : list (@agg R')) cs : Forall2 (agg_like V P) aggs aggs' -> (forall r, In r l -> P r) -> Forall2 (agg_value (map V l)) aggs' cs -> Forall2 (agg_value l) aggs cs.
Proof.
  intros H HP. revert cs. induction H as [|a a' aggs aggs' H1 H2 IH]; intros cs F; inversion F; subst; constructor; [|apply IH; assumption]. eapply (agg_value_like V P); eassumption.
Qed.
Definition rows_of (c : @plan R) (r : R) : Prop := exists l, answer c l /\ In r l.
Lemma keys_like V l (keys : list (R -> option datum)) (keys' : list (R' -> option datum)) r :
  Forall2 (fun k k' => forall r, In r l -> k' (V r) = k r) keys keys' -> In r l -> key_of keys' (V r) = key_of keys r.
Proof. intros H Hr. unfold key_of. induction H as [|k k' ks ks' H1 H2 IH]; cbn [map]; [reflexivity|]. rewrite (H1 r Hr), IH. reflexivity. Qed.
Lemma members_like (V : R -> R') l keys keys' k : Forall2 (fun k k' => forall r, In r l -> k' (V r) = k r) keys keys' -> members keys' (map V l) k = map V (members keys l k).
Proof. intros H. unfold members. apply filter_map_eq. intros r Hr. rewrite (keys_like V l keys keys' r H Hr). reflexivity. Qed.
Lemma keys_list (V : R -> R') l keys keys' : Forall2 (fun k k' => forall r, In r l -> k' (V r) = k r) keys keys' -> map (key_of keys') (map V l) = map (key_of keys) l.
Proof. intros H. rewrite map_map. apply map_ext_in. intros r Hr. apply (keys_like V l); assumption. Qed.
Lemma forall2_rows {A B} (P Q : A -> B -> Prop) l m : Forall2 P l m -> (forall a b, P a b -> Q a b) -> Forall2 Q l m.
Proof. induction 1; constructor; auto. Qed.
Lemma sim_group (V : R -> R') c c' keys keys' aggs aggs' mask (mk : list (option datum) -> list (option datum) -> R) (mk' : list (option datum) -> list (option datum) -> R') (V2 : R -> R') :
  sim V c c' -> Forall2 (fun k k' => onrows c (fun r => k' (V r) = k r)) keys keys' -> length mask = length aggs -> Forall2 (agg_like V (rows_of c)) (pick mask aggs) aggs' ->
  (forall k cs, length k = length keys -> length cs = length aggs -> mk' k (pick mask cs) = V2 (mk k cs)) -> sim V2 (Group keys aggs mk c) (Group keys' aggs' mk' c').
Proof.
  intros S HK HL HA HM rows' A. inversion A as [| | | | | | |? ? ? ? l' ks ? A1 ND HI HR| |]; subst. destruct (S _ A1) as [l [A0 ->]].
  assert (HK' : Forall2 (fun k k' => forall r, In r l -> k' (V r) = k r) keys keys') by (eapply forall2_rows; [exact HK|]; intros k k' X r Hr; apply (X l r A0 Hr)).
  rewrite (keys_list V l keys keys' HK') in HI.
  assert (X : exists rows, Forall2 (fun k r => exists cs, r = mk k cs /\ Forall2 (agg_value (members keys l k)) aggs cs) ks rows /\ rows' = map V2 rows).
  { assert (HI' : forall k, In k ks -> length k = length keys) by (intros k Hk; apply HI in Hk; apply in_map_iff in Hk; destruct Hk as [r [<- _]]; unfold key_of; apply map_length).
    clear HI ND A. induction HR as [|k r' ks rows' H1 H2 IH]; [exists []; split; constructor|]. destruct IH as [rows [F ->]]; [intros; apply HI'; right; assumption|].
    destruct H1 as [cs' [-> F']]. rewrite (members_like V l keys keys' k HK') in F'.
    apply (values_like V (rows_of c) _ (pick mask aggs)) in F'; [|exact HA|intros r Hr; exists l; split; [exact A0|unfold members in Hr; apply filter_In in Hr; tauto]].
    destruct (fill _ aggs mask HL cs' F') as [cs [F2 <-]]. exists (mk k cs :: rows). split; [constructor; [exists cs; split; [reflexivity|exact F2]|exact F]|].
    cbn [map]. f_equal. apply HM; [apply HI'; left; reflexivity|]. symmetry. clear - F2. induction F2; cbn; congruence. }
  destruct X as [rows [F ->]]. exists rows. split; [|reflexivity]. eapply ans_group; [exact A0|exact ND|exact HI|exact F].
Qed.
Lemma sim_aggregate (V : R -> R') c c' aggs aggs' mask (mk : list (option datum) -> R) (mk' : list (option datum) -> R') (V2 : R -> R') :
  sim V c c' -> length mask = length aggs -> Forall2 (agg_like V (rows_of c)) (pick mask aggs) aggs' ->
  (forall cs, length cs = length aggs -> mk' (pick mask cs) = V2 (mk cs)) -> sim V2 (Aggregate aggs mk c) (Aggregate aggs' mk' c').
Proof.
  intros S HL HA HM rows' A. inversion A as [| | | | | | | |? ? ? l' cs' A1 F'|]; subst. destruct (S _ A1) as [l [A0 ->]].
  apply (values_like V (rows_of c) _ (pick mask aggs)) in F'; [|exact HA|intros r Hr; exists l; split; [exact A0|exact Hr]].
  destruct (fill _ aggs mask HL cs' F') as [cs [F2 <-]]. exists [mk cs]. split; [apply ans_aggregate with (l := l); assumption|]. cbn [map]. f_equal. apply HM. symmetry. clear - F2. induction F2; cbn; congruence.
Qed.
Lemma sim_project (V : R -> R') c c' f f' (V2 : R -> R') : sim V c c' -> onrows c (fun r => f' (V r) = V2 (f r)) -> sim V2 (Project f c) (Project f' c').
Proof.
  intros S H rows' A. inversion A; subst. destruct (S _ ltac:(eassumption)) as [l0 [A0 ->]]. eexists. split; [apply ans_project; exact A0|]. rewrite !map_map. apply map_ext_in. intros r Hr. apply (H l0 r A0 Hr).
Qed.

(** ** Joins *)
Fixpoint zip (Vs : list (R -> R')) (rs : list R) : list R' :=
  match Vs, rs with V :: Vs', r :: rs' => V r :: zip Vs' rs' | _, _ => [] end.
Inductive sims : list (R -> R') -> list (@plan R) -> list (@plan R') -> Prop :=
  | sims_nil : sims [] [] []
  | sims_cons V c c' Vs cs cs' : sim V c c' -> sims Vs cs cs' -> sims (V :: Vs) (c :: cs) (c' :: cs').
Lemma sims_answers Vs cs cs' : sims Vs cs cs' -> forall ls', Forall2 answer cs' ls' -> exists ls, Forall2 answer cs ls /\ product ls' = map (zip Vs) (product ls).
Proof.
  induction 1 as [|V c c' Vs cs cs' S SS IH]; intros ls' F; inversion F as [|? l' ? ls1 A F1]; subst; [exists []; split; [constructor|reflexivity]|].
  destruct (S _ A) as [l [A0 ->]]. destruct (IH ls1 F1) as [ls [F0 E]]. exists (l :: ls). split; [constructor; assumption|]. cbn [product]. rewrite E. clear.
  induction l as [|x l IH]; [reflexivity|]. cbn [map flat_map]. rewrite map_app, <- IH. f_equal. rewrite !map_map. apply map_ext. reflexivity.
Qed.
Lemma product_in (ls : list (list R)) rs : In rs (product ls) -> Forall2 (fun r l => In r l) rs ls.
Proof.
  revert rs. induction ls as [|l ls IH]; intros rs H; cbn [product] in H; [destruct H as [<-|[]]; constructor|]. apply in_flat_map in H. destruct H as [x [Hx H]]. apply in_map_iff in H. destruct H as [rs' [<- H]].
  constructor; [exact Hx|apply IH, H].
Qed.
Lemma sim_join Vs cs cs' (p : @jpred R) (p' : @jpred R') cat cat' V2 :
  sims Vs cs cs' -> (forall rs, Forall2 rows_of cs rs -> jholds p' (zip Vs rs) = jholds p rs /\ cat' (zip Vs rs) = V2 (cat rs)) -> sim V2 (Join p cat cs) (Join p' cat' cs').
Proof.
  intros S H rows' A. inversion A as [| | |? ? ? ls' ? F P| | | | | |]; subst. destruct (sims_answers _ _ _ S _ F) as [ls [F0 E]]. rewrite E in P.
  assert (HR : forall rs, In rs (product ls) -> Forall2 rows_of cs rs).
  { clear - F0. intros rs Hrs. apply product_in in Hrs. revert rs Hrs. induction F0 as [|c l cs ls A F IH]; intros rs Hrs; inversion Hrs; subst; constructor; [exists l; split; assumption|apply IH; assumption]. }
  rewrite (filter_map_eq (zip Vs) (jholds p') (jholds p)) in P by (intros rs Hrs; apply H, HR, Hrs). rewrite map_map in P.
  assert (E2 : map (fun x => cat' (zip Vs x)) (filter (jholds p) (product ls)) = map V2 (map cat (filter (jholds p) (product ls)))).
  { rewrite map_map. apply map_ext_in. intros rs Hrs. apply filter_In in Hrs. apply H, HR, Hrs. }
  rewrite E2 in P. apply Permutation_map_inv in P. destruct P as [rows [-> P]]. exists rows. split; [|reflexivity]. eapply ans_join; [exact F0|]. apply Permutation_sym, P.
Qed.
End Sim.
