(** * C15: CNF operations preserve meaning in SQL's three-valued logic. *)
From Coq Require Import List Bool Arith Lia.
From Verif Require Import Cnf.
Import ListNotations.

(** Three-valued logic: [None] is NULL (unknown). *)
Definition tv := option bool.
Definition and3 (a b : tv) : tv :=
  match a, b with
  | Some false, _ | _, Some false => Some false
  | Some true, Some true => Some true
  | _, _ => None
  end.
Definition or3 (a b : tv) : tv :=
  match a, b with
  | Some true, _ | _, Some true => Some true
  | Some false, Some false => Some false
  | _, _ => None
  end.
Definition not3 (a : tv) : tv := match a with Some b => Some (negb b) | None => None end.
(** SQL's [=] on Booleans is NULL if an operand is. *)
Definition eq3 (a b : tv) : tv := match a, b with Some x, Some y => Some (Bool.eqb x y) | _, _ => None end.

(** Meaning under an assignment of truth values to the literal expressions: a clause is the disjunction of its predicates,
    a CNF the conjunction of its clauses. *)
Definition ev_pred (s : nat -> tv) (p : pred) : tv := if p_neg p then not3 (s (p_expr p)) else s (p_expr p).
Definition ev_clause (s : nat -> tv) (c : clause) : tv := fold_right (fun p v => or3 (ev_pred s p) v) (Some false) c.
Definition ev_cnf (s : nat -> tv) (f : cnf) : tv := fold_right (fun c v => and3 (ev_clause s c) v) (Some true) f.
Fixpoint ev_expr (s : nat -> tv) (e : bexpr) : option tv :=
  let bin (op : tv -> tv -> tv) l r := match ev_expr s l, ev_expr s r with Some a, Some b => Some (op a b) | _, _ => None end in
  match e with
  | EAtom a => Some (s a)
  | ENot e => option_map not3 (ev_expr s e)
  | EAnd l r => bin and3 l r
  | EOr l r => bin or3 l r
  | EEq l r => bin eq3 l r
  | ENe l r => bin (fun a b => not3 (eq3 a b)) l r
  | EOther _ _ => None
  end.

(** CNFs as they arise from expressions: at least one clause, no empty clause. *)
Definition proper (f : cnf) : Prop := f <> [] /\ forall c, In c f -> c <> [].

Ltac tvs := repeat match goal with a : tv |- _ => destruct a as [[]|] end; try reflexivity.
Lemma or3_assoc a b c : or3 a (or3 b c) = or3 (or3 a b) c. Proof. tvs. Qed.
Lemma and3_assoc a b c : and3 a (and3 b c) = and3 (and3 a b) c. Proof. tvs. Qed.
Lemma and3_comm a b : and3 a b = and3 b a. Proof. tvs. Qed.
Lemma or3_comm a b : or3 a b = or3 b a. Proof. tvs. Qed.
Lemma or3_false a : or3 (Some false) a = a. Proof. tvs. Qed.
Lemma or3_false_r a : or3 a (Some false) = a. Proof. tvs. Qed.
Lemma and3_true a : and3 (Some true) a = a. Proof. tvs. Qed.
Lemma and3_true_r a : and3 a (Some true) = a. Proof. tvs. Qed.
Lemma or3_true a : or3 a (Some true) = Some true. Proof. tvs. Qed.
Lemma or3_and3 a b c : or3 a (and3 b c) = and3 (or3 a b) (or3 a c). Proof. tvs. Qed.
Lemma not3_or a b : not3 (or3 a b) = and3 (not3 a) (not3 b). Proof. tvs. Qed.
Lemma not3_and a b : not3 (and3 a b) = or3 (not3 a) (not3 b). Proof. tvs. Qed.
Lemma not3_not a : not3 (not3 a) = a. Proof. tvs. Qed.
Lemma equiv3 a b : and3 (or3 (not3 a) b) (or3 (not3 b) a) = eq3 a b. Proof. tvs. Qed.
Lemma eq3_not a b : eq3 (not3 a) (not3 b) = eq3 a b. Proof. tvs. Qed.

Lemma ev_clause_app s c1 c2 : ev_clause s (c1 ++ c2) = or3 (ev_clause s c1) (ev_clause s c2).
Proof. induction c1 as [|p c1 IH]; cbn [app ev_clause fold_right]; [symmetry; apply or3_false|]. fold (ev_clause s (c1 ++ c2)). rewrite IH. apply or3_assoc. Qed.
Lemma ev_cnf_app s f1 f2 : ev_cnf s (f1 ++ f2) = and3 (ev_cnf s f1) (ev_cnf s f2).
Proof. induction f1 as [|c f1 IH]; cbn [app ev_cnf fold_right]; [symmetry; apply and3_true|]. fold (ev_cnf s (f1 ++ f2)). rewrite IH. apply and3_assoc. Qed.
Lemma ev_distr s cl r : ev_cnf s (map (fun cr => clause_or cl cr) r) = or3 (ev_clause s cl) (ev_cnf s r).
Proof.
  induction r as [|c r IH]; cbn [map ev_cnf fold_right]; [symmetry; apply or3_true|].
  fold (ev_cnf s (map (fun cr => clause_or cl cr) r)). fold (ev_cnf s r). rewrite IH. unfold clause_or. rewrite ev_clause_app. symmetry. apply or3_and3.
Qed.
Lemma ev_product s l r : ev_cnf s (flat_map (fun cl => map (fun cr => clause_or cl cr) r) l) = or3 (ev_cnf s l) (ev_cnf s r).
Proof.
  induction l as [|c l IH]; cbn [flat_map].
  - symmetry. rewrite or3_comm. apply or3_true.
  - rewrite ev_cnf_app, IH, ev_distr. change (ev_cnf s (c :: l)) with (and3 (ev_clause s c) (ev_cnf s l)). rewrite (or3_comm (and3 _ _)), or3_and3. rewrite (or3_comm (ev_clause s c)), (or3_comm (ev_cnf s l)). reflexivity.
Qed.

(** ** Clauses *)
Theorem C15_clause_or : forall s l r, ev_clause s (clause_or l r) = or3 (ev_clause s l) (ev_clause s r).
Proof. intros. apply ev_clause_app. Qed.
Print Assumptions C15_clause_or.
Theorem C15_clause_and : forall s l r, ev_cnf s (clause_and l r) = and3 (ev_clause s l) (ev_clause s r).
Proof. intros. unfold clause_and. cbn [ev_cnf fold_right]. rewrite and3_true_r. reflexivity. Qed.
Print Assumptions C15_clause_and.
Theorem C15_clause_not : forall s c, ev_cnf s (clause_not c) = not3 (ev_clause s c).
Proof.
  intros s c. induction c as [|p c IH]; [reflexivity|]. cbn [clause_not map ev_cnf fold_right ev_clause].
  fold (clause_not c). fold (ev_cnf s (clause_not c)). fold (ev_clause s c). rewrite IH, not3_or, or3_false_r. f_equal.
  unfold ev_pred, pred_not. cbn [p_neg p_expr]. destruct (p_neg p); cbn [negb]; [symmetry; apply not3_not|reflexivity].
Qed.
Print Assumptions C15_clause_not.

(** ** CNFs *)
Theorem C15_and : forall s l r, ev_cnf s (cnf_and l r) = and3 (ev_cnf s l) (ev_cnf s r).
Proof. intros. apply ev_cnf_app. Qed.
Print Assumptions C15_and.
Theorem C15_or : forall s l r, l <> [] -> r <> [] -> ev_cnf s (cnf_or l r) = or3 (ev_cnf s l) (ev_cnf s r).
Proof. intros s [|c l] [|c' r] Hl Hr; try contradiction. unfold cnf_or. apply ev_product. Qed.
Print Assumptions C15_or.

Lemma proper_not_clause c : c <> [] -> proper (clause_not c).
Proof.
  intros Hc. unfold clause_not. split; [destruct c; [contradiction|discriminate]|]. intros x Hx. apply in_map_iff in Hx.
  destruct Hx as [p [<- _]]. discriminate.
Qed.
Lemma proper_or l r : proper l -> proper r -> proper (cnf_or l r).
Proof.
  intros [L1 L2] [R1 R2]. destruct l as [|c l]; [contradiction|]. destruct r as [|c' r]; [contradiction|]. unfold cnf_or. split.
  - cbn. discriminate.
  - intros x Hx. apply in_flat_map in Hx. destruct Hx as [cl [Hcl Hx]]. apply in_map_iff in Hx. destruct Hx as [cr [<- Hcr]].
    unfold clause_or. specialize (L2 cl Hcl). destruct cl; [contradiction|discriminate].
Qed.
Lemma proper_and l r : proper l -> proper r -> proper (cnf_and l r).
Proof.
  intros [L1 L2] [R1 R2]. unfold cnf_and. split; [destruct l; [contradiction|discriminate]|]. intros c Hc. apply in_app_or in Hc. destruct Hc; auto.
Qed.
Lemma cnf_not_gen s f : forall acc, proper acc -> (forall c, In c f -> c <> []) ->
  proper (fold_left (fun res c => cnf_or res (clause_not c)) f acc) /\
  ev_cnf s (fold_left (fun res c => cnf_or res (clause_not c)) f acc) = or3 (ev_cnf s acc) (not3 (ev_cnf s f)).
Proof.
  induction f as [|c f IH]; intros acc Ha Hf; cbn [fold_left].
  - split; [exact Ha|]. cbn. rewrite or3_false_r. reflexivity.
  - assert (Hn := proper_not_clause c (Hf c (or_introl eq_refl))).
    destruct (IH (cnf_or acc (clause_not c)) (proper_or _ _ Ha Hn) ltac:(intros x Hx; apply Hf; right; exact Hx)) as [P E].
    split; [exact P|]. rewrite E. rewrite C15_or by (apply Ha || apply Hn). rewrite C15_clause_not. cbn [ev_cnf fold_right]. fold (ev_cnf s f).
    rewrite not3_and, or3_assoc. reflexivity.
Qed.
Lemma cnf_not_proper s f : proper f -> proper (cnf_not f) /\ ev_cnf s (cnf_not f) = not3 (ev_cnf s f).
Proof.
  intros [H1 H2]. destruct f as [|c f]; [contradiction|]. unfold cnf_not. cbn [fold_left cnf_or].
  assert (Hn := proper_not_clause c (H2 c (or_introl eq_refl))).
  destruct (cnf_not_gen s f (clause_not c) Hn ltac:(intros x Hx; apply H2; right; exact Hx)) as [P E]. split; [exact P|].
  rewrite E, C15_clause_not. cbn [ev_cnf fold_right]. fold (ev_cnf s f). symmetry. apply not3_and.
Qed.
Theorem C15_not : forall s f, proper f -> ev_cnf s (cnf_not f) = not3 (ev_cnf s f).
Proof. intros s f H. apply cnf_not_proper. exact H. Qed.
Print Assumptions C15_not.

(** ** Conversion: the CNF of an expression evaluates like the expression under every assignment, and conversion fails only
    on operators without three-valued meaning. *)
Lemma gen_spec e : forall neg,
  match gen neg e with
  | Some f => proper f /\ forall s, exists v, ev_expr s e = Some v /\ ev_cnf s f = (if neg then not3 v else v)
  | None => forall s, ev_expr s e = None
  end.
Proof.
  induction e as [a|e IH|l IHl r IHr|l IHl r IHr|l IHl r IHr|l IHl r IHr|l IHl r IHr]; intros neg; cbn [gen ev_expr].
  - split; [split; [discriminate|intros c [<-|[]]; discriminate]|]. intros s. exists (s a). split; [reflexivity|]. cbn. rewrite or3_false_r, and3_true_r.
    unfold ev_pred. cbn [p_neg p_expr]. destruct neg; reflexivity.
  - specialize (IH (negb neg)). destruct (gen (negb neg) e) as [f|].
    + destruct IH as [P H]. split; [exact P|]. intros s. destruct (H s) as [v [-> E]]. exists (not3 v). split; [reflexivity|]. rewrite E.
      destruct neg; cbn [negb]; [symmetry; apply not3_not|reflexivity].
    + intros s. rewrite IH. reflexivity.
  - specialize (IHl neg). specialize (IHr neg). destruct (gen neg l) as [fl|]; [|intros s; rewrite IHl; reflexivity].
    destruct (gen neg r) as [fr|]; [|intros s; rewrite IHr; destruct (ev_expr s l); reflexivity].
    destruct IHl as [Pl Hl], IHr as [Pr Hr]. split; [destruct neg; [apply proper_or|apply proper_and]; assumption|].
    intros s. destruct (Hl s) as [a [-> El]], (Hr s) as [b [-> Er]]. eexists. split; [reflexivity|]. destruct neg.
    + rewrite C15_or by (apply Pl || apply Pr). rewrite El, Er. symmetry. apply not3_and.
    + rewrite C15_and, El, Er. reflexivity.
  - specialize (IHl neg). specialize (IHr neg). destruct (gen neg l) as [fl|]; [|intros s; rewrite IHl; reflexivity].
    destruct (gen neg r) as [fr|]; [|intros s; rewrite IHr; destruct (ev_expr s l); reflexivity].
    destruct IHl as [Pl Hl], IHr as [Pr Hr]. split; [destruct neg; [apply proper_and|apply proper_or]; assumption|].
    intros s. destruct (Hl s) as [a [-> El]], (Hr s) as [b [-> Er]]. eexists. split; [reflexivity|]. destruct neg.
    + rewrite C15_and, El, Er. symmetry. apply not3_or.
    + rewrite C15_or by (apply Pl || apply Pr). rewrite El, Er. reflexivity.
  - specialize (IHl neg). specialize (IHr neg). destruct (gen neg l) as [fl|]; [|intros s; rewrite IHl; reflexivity].
    destruct (gen neg r) as [fr|]; [|intros s; rewrite IHr; destruct (ev_expr s l); reflexivity].
    destruct IHl as [Pl Hl], IHr as [Pr Hr].
    pose proof (proj1 (cnf_not_proper (fun _ => None) fl Pl)) as Nl. pose proof (proj1 (cnf_not_proper (fun _ => None) fr Pr)) as Nr.
    assert (Pe : proper (cnf_and (cnf_or (cnf_not fl) fr) (cnf_or (cnf_not fr) fl))) by (apply proper_and; apply proper_or; assumption).
    assert (Ee : forall s, ev_cnf s (cnf_and (cnf_or (cnf_not fl) fr) (cnf_or (cnf_not fr) fl)) = eq3 (ev_cnf s fl) (ev_cnf s fr)).
    { intros s. rewrite C15_and, !C15_or by (apply Nl || apply Nr || apply Pl || apply Pr). rewrite !C15_not by assumption. apply equiv3. }
    split; [destruct neg; [apply (cnf_not_proper (fun _ => None)); exact Pe|exact Pe]|].
    intros s. destruct (Hl s) as [a [-> El]], (Hr s) as [b [-> Er]]. eexists. split; [reflexivity|]. destruct neg.
    + rewrite C15_not by exact Pe. rewrite Ee, El, Er, eq3_not. reflexivity.
    + rewrite Ee, El, Er. reflexivity.
  - specialize (IHl neg). specialize (IHr neg). destruct (gen neg l) as [fl|]; [|intros s; rewrite IHl; reflexivity].
    destruct (gen neg r) as [fr|]; [|intros s; rewrite IHr; destruct (ev_expr s l); reflexivity].
    destruct IHl as [Pl Hl], IHr as [Pr Hr].
    pose proof (proj1 (cnf_not_proper (fun _ => None) fl Pl)) as Nl. pose proof (proj1 (cnf_not_proper (fun _ => None) fr Pr)) as Nr.
    assert (Pe : proper (cnf_and (cnf_or (cnf_not fl) fr) (cnf_or (cnf_not fr) fl))) by (apply proper_and; apply proper_or; assumption).
    assert (Ee : forall s, ev_cnf s (cnf_and (cnf_or (cnf_not fl) fr) (cnf_or (cnf_not fr) fl)) = eq3 (ev_cnf s fl) (ev_cnf s fr)).
    { intros s. rewrite C15_and, !C15_or by (apply Nl || apply Nr || apply Pl || apply Pr). rewrite !C15_not by assumption. apply equiv3. }
    split; [destruct neg; [exact Pe|apply (cnf_not_proper (fun _ => None)); exact Pe]|].
    intros s. destruct (Hl s) as [a [-> El]], (Hr s) as [b [-> Er]]. eexists. split; [reflexivity|]. destruct neg.
    + rewrite Ee, El, Er, eq3_not, not3_not. reflexivity.
    + rewrite C15_not by exact Pe. rewrite Ee, El, Er. reflexivity.
  - destruct (gen neg l); [destruct (gen neg r)|]; reflexivity.
Qed.

Theorem C15_to_CNF : forall e f, to_CNF e = Some f -> proper f /\ forall s, ev_expr s e = Some (ev_cnf s f).
Proof.
  intros e f E. unfold to_CNF in E. pose proof (gen_spec e false) as H. rewrite E in H. destruct H as [P H]. split; [exact P|].
  intros s. destruct (H s) as [v [-> ->]]. reflexivity.
Qed.
Print Assumptions C15_to_CNF.
Theorem C15_to_CNF_total : forall e, (exists f, to_CNF e = Some f) <-> exists s v, ev_expr s e = Some v.
Proof.
  intros e. unfold to_CNF. pose proof (gen_spec e false) as H. destruct (gen false e) as [f|].
  - split; [|eauto]. intros _. exists (fun _ => None). destruct (proj2 H (fun _ => None)) as [v [E _]]. eauto.
  - split; [intros [f E]; discriminate|]. intros [s [v E]]. rewrite H in E. discriminate.
Qed.
Print Assumptions C15_to_CNF_total.

(** Equality of clauses and CNFs (as sets) is sound: equal ones have equal meaning. *)
Lemma pred_eqb_eq p q : pred_eqb p q = true -> p = q.
Proof.
  unfold pred_eqb. rewrite andb_true_iff, Nat.eqb_eq. intros [H1 H2]. apply eqb_prop in H1. destruct p, q. cbn in *. congruence.
Qed.
Lemma ev_clause_true s c : ev_clause s c = Some true <-> exists p, In p c /\ ev_pred s p = Some true.
Proof.
  induction c as [|p c IH]; cbn [ev_clause fold_right In].
  - split; [discriminate|intros [p [[] _]]].
  - fold (ev_clause s c). split.
    + intros H. destruct (ev_pred s p) as [[]|] eqn:E; [exists p; auto| |]; destruct (ev_clause s c) as [[]|]; try discriminate;
        destruct (proj1 IH eq_refl) as [q [Q1 Q2]]; exists q; auto.
    + intros [q [[<-|Hq] E]]; [rewrite E; reflexivity|]. assert (X : ev_clause s c = Some true) by (apply IH; eauto). rewrite X. apply or3_true.
Qed.
Lemma ev_clause_false s c : ev_clause s c = Some false <-> forall p, In p c -> ev_pred s p = Some false.
Proof.
  induction c as [|p c IH]; cbn [ev_clause fold_right In]; [split; [intros _ p []|reflexivity]|]. fold (ev_clause s c). split.
  - intros H. destruct (ev_pred s p) as [[]|] eqn:E, (ev_clause s c) as [[]|]; try discriminate. intros q [<-|Hq]; [exact E|]. apply IH; auto.
  - intros H. rewrite (H p) by (left; reflexivity). rewrite or3_false. apply IH. intros q Hq. apply H. right. exact Hq.
Qed.
Theorem C15_clause_eq : forall s c1 c2, clause_eqb c1 c2 = true -> ev_clause s c1 = ev_clause s c2.
Proof.
  intros s c1 c2 H. unfold clause_eqb in H. apply andb_true_iff in H. destruct H as [H1 H2].
  assert (Hin : forall c1 c2, clause_le c1 c2 = true -> forall p, In p c1 -> In p c2).
  { intros d1 d2 Hd p Hp. unfold clause_le in Hd. rewrite forallb_forall in Hd. specialize (Hd p Hp). apply existsb_exists in Hd.
    destruct Hd as [q [Hq E]]. apply pred_eqb_eq in E. subst q. exact Hq. }
  pose proof (Hin _ _ H1) as I1. pose proof (Hin _ _ H2) as I2.
  assert (T : ev_clause s c1 = Some true <-> ev_clause s c2 = Some true).
  { rewrite !ev_clause_true. split; intros [p [Hp E]]; exists p; auto. }
  assert (F : ev_clause s c1 = Some false <-> ev_clause s c2 = Some false).
  { rewrite !ev_clause_false. split; intros H p Hp; auto. }
  destruct (ev_clause s c1) as [[]|], (ev_clause s c2) as [[]|]; try reflexivity; intuition discriminate.
Qed.
Print Assumptions C15_clause_eq.
Lemma ev_cnf_true s f : ev_cnf s f = Some true <-> forall c, In c f -> ev_clause s c = Some true.
Proof.
  induction f as [|c f IH]; cbn [ev_cnf fold_right In]; [split; [intros _ p []|reflexivity]|]. fold (ev_cnf s f). split.
  - intros H. destruct (ev_clause s c) as [[]|] eqn:E, (ev_cnf s f) as [[]|]; try discriminate. intros q [<-|Hq]; [exact E|]. apply IH; auto.
  - intros H. rewrite (H c) by (left; reflexivity). rewrite and3_true. apply IH. intros q Hq. apply H. right. exact Hq.
Qed.
Lemma ev_cnf_false s f : ev_cnf s f = Some false <-> exists c, In c f /\ ev_clause s c = Some false.
Proof.
  induction f as [|c f IH]; cbn [ev_cnf fold_right In].
  - split; [discriminate|intros [p [[] _]]].
  - fold (ev_cnf s f). split.
    + intros H. destruct (ev_clause s c) as [[]|] eqn:E; [|exists c; auto|]; destruct (ev_cnf s f) as [[]|]; try discriminate;
        destruct (proj1 IH eq_refl) as [q [Q1 Q2]]; exists q; auto.
    + intros [q [[<-|Hq] E]]; [rewrite E; reflexivity|]. assert (X : ev_cnf s f = Some false) by (apply IH; eauto). rewrite X. destruct (ev_clause s c) as [[]|]; reflexivity.
Qed.
Theorem C15_eq : forall s f1 f2, cnf_eqb f1 f2 = true -> ev_cnf s f1 = ev_cnf s f2.
Proof.
  intros s f1 f2 H. unfold cnf_eqb in H. apply andb_true_iff in H. destruct H as [H1 H2].
  assert (Hin : forall g1 g2, cnf_le g1 g2 = true -> forall c, In c g1 -> exists c', In c' g2 /\ ev_clause s c = ev_clause s c').
  { intros g1 g2 Hd c Hc. unfold cnf_le in Hd. rewrite forallb_forall in Hd. specialize (Hd c Hc). apply existsb_exists in Hd.
    destruct Hd as [q [Hq E]]. exists q. split; [exact Hq|]. apply C15_clause_eq. exact E. }
  pose proof (Hin _ _ H1) as I1. pose proof (Hin _ _ H2) as I2.
  assert (T : ev_cnf s f1 = Some true <-> ev_cnf s f2 = Some true).
  { rewrite !ev_cnf_true. split; intros H c Hc; [destruct (I1 c Hc) as [c' [Q ->]]|destruct (I2 c Hc) as [c' [Q ->]]]; auto. }
  assert (F : ev_cnf s f1 = Some false <-> ev_cnf s f2 = Some false).
  { rewrite !ev_cnf_false. split; intros [c [Hc E]]; [destruct (I2 c Hc) as [c' [Q E']]|destruct (I1 c Hc) as [c' [Q E']]]; exists c'; split; congruence. }
  destruct (ev_cnf s f1) as [[]|], (ev_cnf s f2) as [[]|]; try reflexivity; intuition discriminate.
Qed.
Print Assumptions C15_eq.

(** Equality is exact: clauses are compared as sets of predicates, CNFs as sets of such sets. *)
Definition same_preds (c1 c2 : clause) : Prop := forall p, In p c1 <-> In p c2.
Lemma pred_eqb_iff p q : pred_eqb p q = true <-> p = q.
Proof.
  split; [apply pred_eqb_eq|]. intros ->. unfold pred_eqb. rewrite eqb_reflx, Nat.eqb_refl. reflexivity.
Qed.
Lemma clause_le_iff c1 c2 : clause_le c1 c2 = true <-> forall p, In p c1 -> In p c2.
Proof.
  unfold clause_le. rewrite forallb_forall. split; intros H p Hp; specialize (H p Hp).
  - apply existsb_exists in H. destruct H as [q [Q E]]. apply pred_eqb_iff in E. subst q. exact Q.
  - apply existsb_exists. exists p. split; [exact H|]. apply pred_eqb_iff. reflexivity.
Qed.
Theorem C15_clause_eq_exact : forall c1 c2, clause_eqb c1 c2 = true <-> same_preds c1 c2.
Proof.
  intros c1 c2. unfold clause_eqb, same_preds. rewrite andb_true_iff, !clause_le_iff. firstorder.
Qed.
Print Assumptions C15_clause_eq_exact.
Theorem C15_eq_exact : forall f1 f2, cnf_eqb f1 f2 = true <->
  (forall c, In c f1 -> exists c', In c' f2 /\ same_preds c c') /\ (forall c, In c f2 -> exists c', In c' f1 /\ same_preds c c').
Proof.
  assert (G : forall f1 f2, cnf_le f1 f2 = true <-> forall c, In c f1 -> exists c', In c' f2 /\ same_preds c c').
  { intros f1 f2. unfold cnf_le. rewrite forallb_forall. split; intros H c Hc; specialize (H c Hc).
    - apply existsb_exists in H. destruct H as [q [Q E]]. exists q. split; [exact Q|]. apply C15_clause_eq_exact. exact E.
    - apply existsb_exists. destruct H as [q [Q E]]. exists q. split; [exact Q|]. apply C15_clause_eq_exact. exact E. }
  intros f1 f2. unfold cnf_eqb. rewrite andb_true_iff, !G. tauto.
Qed.
Print Assumptions C15_eq_exact.

(** ** The exact domain of the operators on CNFs

    [cnf_or] treats the empty CNF (TRUE) as neutral, so it is right iff both operands are empty or none is; [cnf_not] is right
    iff the CNF has a clause and either all or none of its clauses are empty. *)
Lemma proper_unknown f : proper f -> ev_cnf (fun _ => None) f = None.
Proof.
  intros [N H]. assert (C : forall c, c <> [] -> ev_clause (fun _ => None) c = None).
  { assert (P : forall p, ev_pred (fun _ => None) p = None) by (intros p; unfold ev_pred; destruct (p_neg p); reflexivity).
    intros c. induction c as [|p c IH]; [contradiction|]. intros _. cbn [ev_clause fold_right]. rewrite P. fold (ev_clause (fun _ => None) c).
    destruct c as [|q c]; [reflexivity|]. rewrite IH by discriminate. reflexivity. }
  induction f as [|c f IH]; [contradiction|]. cbn [ev_cnf fold_right]. fold (ev_cnf (fun _ => None) f). rewrite C by (apply H; left; reflexivity).
  destruct f as [|d f]; [reflexivity|]. rewrite IH; [reflexivity|discriminate|]. intros x Hx. apply H. right. exact Hx.
Qed.
Lemma not_true_everywhere f : f <> [] -> exists s, ev_cnf s f <> Some true.
Proof.
  intros N. destruct f as [|c f]; [contradiction|]. exists (fun _ => None). intros E. rewrite ev_cnf_true in E.
  specialize (E c (or_introl eq_refl)). apply ev_clause_true in E. destruct E as [p [_ E]]. unfold ev_pred in E. destruct (p_neg p); discriminate.
Qed.
Theorem C15_or_exact : forall l r, (forall s, ev_cnf s (cnf_or l r) = or3 (ev_cnf s l) (ev_cnf s r)) <-> (l = [] <-> r = []).
Proof.
  intros l r. destruct l as [|c l], r as [|c' r].
  - split; [tauto|]. reflexivity.
  - split; [|intros [H _]; discriminate (H eq_refl)]. intros H. exfalso. destruct (not_true_everywhere (c' :: r)) as [s N]; [discriminate|].
    apply N. rewrite (H s : ev_cnf s (c' :: r) = _). reflexivity.
  - split; [|intros [_ H]; discriminate (H eq_refl)]. intros H. exfalso. destruct (not_true_everywhere (c :: l)) as [s N]; [discriminate|].
    apply N. rewrite (H s : ev_cnf s (c :: l) = _). apply or3_true.
  - split; [split; discriminate|]. intros _ s. apply C15_or; discriminate.
Qed.
Print Assumptions C15_or_exact.
Lemma cnf_not_filter : forall f acc, fold_left (fun res c => cnf_or res (clause_not c)) f acc
  = fold_left (fun res c => cnf_or res (clause_not c)) (filter (fun c => match c with [] => false | _ => true end) f) acc.
Proof.
  induction f as [|c f IH]; intros acc; [reflexivity|]. cbn [fold_left filter]. destruct c as [|p c]; [|apply IH].
  rewrite IH. f_equal. unfold clause_not, cnf_or. cbn [map]. destruct acc; reflexivity.
Qed.
Theorem C15_not_exact : forall f, (forall s, ev_cnf s (cnf_not f) = not3 (ev_cnf s f)) <->
  f <> [] /\ ((forall c, In c f -> c = []) \/ (forall c, In c f -> c <> [])).
Proof.
  intros f. set (ne := filter (fun c : clause => match c with [] => false | _ => true end) f).
  assert (En : cnf_not f = cnf_not ne) by (unfold cnf_not; apply cnf_not_filter).
  assert (Hne : forall c, In c ne <-> In c f /\ c <> []).
  { intros c. unfold ne. rewrite filter_In. destruct c; intuition discriminate. }
  assert (Pne : ne <> [] -> proper ne) by (intros N; split; [exact N|]; intros c Hc; apply Hne in Hc; tauto).
  split.
  - intros H. split.
    + intros ->. specialize (H (fun _ => None)). discriminate.
    + destruct ne as [|d ne'] eqn:Ene.
      * left. intros c Hc. destruct c as [|p c]; [reflexivity|]. exfalso. apply (proj2 (Hne (p :: c))). split; [exact Hc|discriminate].
      * right. intros c Hc ->. assert (F : ev_cnf (fun _ => None) f = Some false) by (apply ev_cnf_false; exists []; auto).
        specialize (H (fun _ => None)). rewrite F, En, C15_not, proper_unknown in H by (apply Pne; discriminate). discriminate.
  - intros [N [A|A]] s.
    + assert (Z : ne = []). { destruct ne as [|d ne'] eqn:Q; [reflexivity|]. destruct (proj1 (Hne d) (or_introl eq_refl)) as [X Y]. destruct (Y (A d X)). }
      rewrite En, Z. destruct f as [|c f]; [contradiction|]. symmetry.
      assert (F : ev_cnf s (c :: f) = Some false) by (apply ev_cnf_false; exists c; split; [left; reflexivity|]; rewrite (A c) by (left; reflexivity); reflexivity).
      rewrite F. reflexivity.
    + apply C15_not. split; assumption.
Qed.
Print Assumptions C15_not_exact.

(** Finding: an empty CNF (TRUE) is treated as neutral for OR, and its negation is itself. *)
Theorem C15_empty_refuted : (exists s r, ev_cnf s (cnf_or [] r) <> or3 (ev_cnf s []) (ev_cnf s r)) /\
  (forall s, ev_cnf s (cnf_not []) <> not3 (ev_cnf s [])).
Proof.
  split; [|intros s; discriminate]. exists (fun _ => Some false), [[ {| p_expr := 0; p_neg := false |} ]]. discriminate.
Qed.
Print Assumptions C15_empty_refuted.

Example C15_nonvacuous : exists f, to_CNF (ENot (EAnd (EEq (EAtom 0) (EAtom 1)) (EOr (ENot (EAtom 2)) (EAtom 0)))) = Some f /\ proper f /\
  ev_cnf (fun a => match a with 0 => Some true | 1 => None | _ => Some true end) f = None.
Proof.
  destruct (to_CNF (ENot (EAnd (EEq (EAtom 0) (EAtom 1)) (EOr (ENot (EAtom 2)) (EAtom 0))))) as [f|] eqn:E; [|discriminate].
  exists f. split; [reflexivity|]. split; [apply (C15_to_CNF _ _ E)|]. vm_compute in E. injection E as <-. reflexivity.
Qed.
