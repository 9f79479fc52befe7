(** * C54: from context indices to variables

    The machine works on a context by index.  Here it is related to a machine whose context is a function from the variables of the
    compiler to values; the two agree if no variable is allocated twice, every variable is allocated before it is used, and at most 256
    entries are allocated. *)
From Coq Require Import List Bool ZArith Arith Lia.
From Verif Require Import LoadStore.
Import ListNotations.

Definition env := name -> val.
Lemma name_eqb_spec x y : reflect (x = y) (name_eqb x y).
Proof. destruct x, y; cbn; try (right; congruence); try (left; reflexivity); destruct (Nat.eqb_spec leaf leaf0) || destruct (Nat.eqb_spec inode inode0); subst; constructor; congruence. Qed.
Lemma name_eqb_refl x : name_eqb x x = true.
Proof. destruct (name_eqb_spec x x); congruence. Qed.
Definition upd (e : env) (x : name) (v : val) : env := fun y => if name_eqb y x then v else e y.
Lemma upd_same e x v : upd e x v x = v.
Proof. unfold upd. rewrite name_eqb_refl. reflexivity. Qed.
Lemma upd_other e x v y : y <> x -> upd e x v y = e y.
Proof. intros H. unfold upd. destruct (name_eqb_spec y x); congruence. Qed.

Definition push (v : val) (s : state) : state := mkState ((v, false) :: stk s) (mem s) (tup s).
Definition cstep (i : call) (e : env) (s : state) : option (env * state) :=
  match i with
  | Emit o => option_map (fun s' => (e, s')) (step o s)
  | Load x | NewLoad x _ => Some (e, push (e x) s)
  | Update x => match stk s with (v, _) :: _ => Some (upd e x v, s) | [] => None end
  | Const v => Some (e, push v s)
  | New _ _ => Some (e, s)
  end.
Fixpoint cexec (p : list call) (e : env) (s : state) : option (env * state) :=
  match p with [] => Some (e, s) | i :: r => match cstep i e s with Some (e', s') => cexec r e' s' | None => None end end.
Lemma cexec_app p q e s : cexec (p ++ q) e s = match cexec p e s with Some (e', s') => cexec q e' s' | None => None end.
Proof. revert e s; induction p as [|i p IH]; intros e s; cbn; auto. destruct (cstep i e s) as [[e' s']|]; auto. Qed.

(** Allocations *)
Definition allocs (p : list call) : list (option name * val) :=
  flat_map (fun i => match i with Const v => [(None, v)] | New x v | NewLoad x v => [(Some x, v)] | _ => [] end) p.
Definition names (c : list (option name * val)) : list name := flat_map (fun a => match fst a with Some x => [x] | None => [] end) c.
Lemma allocs_app p q : allocs (p ++ q) = allocs p ++ allocs q.
Proof. apply flat_map_app. Qed.
Lemma names_app p q : names (p ++ q) = names p ++ names q.
Proof. apply flat_map_app. Qed.
Lemma assemble_allocs p : forall c, snd (assemble p c) = c ++ allocs p.
Proof.
  induction p as [|i p IH]; intros c; cbn; [rewrite app_nil_r; reflexivity|].
  destruct i; cbn; match goal with |- context [assemble p ?c'] => specialize (IH c'); destruct (assemble p c') as [l c''] eqn:E; cbn in *; rewrite IH; rewrite <- ?app_assoc; reflexivity end.
Qed.

(** Every variable is allocated before it is used. *)
Fixpoint scoped (p : list call) (l : list name) : Prop :=
  match p with
  | [] => True
  | i :: r =>
      match i with Load x | Update x => In x l | _ => True end /\
      scoped r (match i with New x _ | NewLoad x _ => l ++ [x] | _ => l end)
  end.
Lemma scoped_mono p : forall l l', incl l l' -> scoped p l -> scoped p l'.
Proof.
  induction p as [|i p IH]; intros l l' H; cbn; auto. intros [A B]. split; [destruct i; auto|].
  destruct i; eauto; eapply IH; try eassumption; apply incl_app; [apply incl_appl; assumption|apply incl_appr, incl_refl|apply incl_appl; assumption|apply incl_appr, incl_refl].
Qed.
Lemma scoped_app p : forall q l, scoped p l -> scoped q (l ++ names (allocs p)) -> scoped (p ++ q) l.
Proof.
  induction p as [|i p IH]; intros q l; cbn; [intros _; rewrite app_nil_r; auto|]. intros [A B] H. split; auto. apply IH; auto.
  destruct i; cbn in *; rewrite <- ?app_assoc; auto.
Qed.

Lemma index_of_app x l l' k : index_of x (l ++ l') k = match index_of x l' (length l + k) with Some i => Some i | None => index_of x l k end.
Proof.
  revert k; induction l as [|[y v] l IH]; intros k; cbn; [destruct (index_of x l' k); reflexivity|]. rewrite IH. replace (length l + S k)%nat with (S (length l + k)) by lia.
  destruct (index_of x l' (S (length l + k))); reflexivity.
Qed.
Lemma index_of_some x l k i : index_of x l k = Some i -> exists v, (k <= i)%nat /\ nth_error l (i - k) = Some (Some x, v).
Proof.
  revert k; induction l as [|[y v] l IH]; intros k; cbn; [discriminate|]. destruct (index_of x l (S k)) as [j|] eqn:E.
  - intros [= ->]. destruct (IH _ E) as [w [A B]]. exists w. split; [lia|]. replace (i - k)%nat with (S (i - S k)) by lia. exact B.
  - destruct y as [y|]; [|discriminate]. destruct (name_eqb_spec x y); [|discriminate]. intros [= <-]. exists v. split; [lia|]. rewrite Nat.sub_diag. subst; reflexivity.
Qed.
Lemma index_of_in x l k : In x (names l) -> exists i, index_of x l k = Some i.
Proof.
  revert k; induction l as [|[y v] l IH]; intros k; cbn; [intros []|]. rewrite in_app_iff. intros [H|H].
  - destruct (index_of x l (S k)); [eauto|]. destruct y as [y|]; cbn in H; [|destruct H]. destruct H as [->|[]]. rewrite name_eqb_refl. eauto.
  - destruct (IH (S k) H) as [i E]. rewrite E. eauto.
Qed.
Lemma in_names x l v i : nth_error l i = Some (Some x, v) -> In x (names l).
Proof. intros H. apply in_flat_map. exists (Some x, v). split; [eapply nth_error_In; eauto|left; reflexivity]. Qed.
Lemma names_unique l : NoDup (names l) -> forall x v w i j, nth_error l i = Some (Some x, v) -> nth_error l j = Some (Some x, w) -> i = j.
Proof.
  induction l as [|[y u] l IH]; intros ND x v w i j Hi Hj; [destruct i; discriminate|]. cbn in ND.
  assert (ND' : NoDup (names l)) by (destruct y; [inversion ND; assumption|assumption]).
  destruct i, j; cbn in Hi, Hj; auto.
  - injection Hi as -> ->. cbn in ND. inversion ND; subst. exfalso. apply H1. eapply in_names; eauto.
  - injection Hj as -> ->. cbn in ND. inversion ND; subst. exfalso. apply H1. eapply in_names; eauto.
  - f_equal. eauto.
Qed.

(** ** Simulation *)
Section Sim.
  Variable T : list (option name * val).      (* all entries of the context *)
  Hypothesis HN : NoDup (names T).
  Hypothesis HL : (length T <= 256)%nat.
  Definition agree (c : ctx) (e : env) : Prop :=
    length c = length T /\
    (forall i x v, nth_error T i = Some (Some x, v) -> nth_error c i = Some (e x)) /\
    (forall i v, nth_error T i = Some (None, v) -> nth_error c i = Some v).

  Lemma u8_small k : (k < 256)%nat -> u8 k = k.
  Proof. intros H. apply Nat.mod_small; assumption. Qed.
  Lemma set_ctx_length c k v : length (set_ctx c k v) = length c.
  Proof. revert k; induction c as [|x c IH]; intros [|k]; cbn; auto. Qed.
  Lemma set_ctx_same c k v : (k < length c)%nat -> nth_error (set_ctx c k v) k = Some v.
  Proof. revert k; induction c as [|x c IH]; intros [|k] H; cbn in *; try lia; auto. apply IH; lia. Qed.
  Lemma set_ctx_other c k v j : j <> k -> nth_error (set_ctx c k v) j = nth_error c j.
  Proof. revert k j; induction c as [|x c IH]; intros [|k] [|j] H; cbn in *; auto; try congruence. Qed.

  Lemma lookup_ok a q x : T = a ++ q -> In x (names a) -> exists v, nth_error T (lookup x a) = Some (Some x, v).
  Proof.
    intros E H. unfold lookup. destruct (index_of_in x a 0 H) as [i Hi]. rewrite Hi. destruct (index_of_some _ _ _ _ Hi) as [v [_ N]]. rewrite Nat.sub_0_r in N.
    assert (i < length a)%nat by (apply nth_error_Some; congruence). rewrite u8_small by (rewrite E, app_length in HL; lia). exists v. rewrite E, nth_error_app1; assumption.
  Qed.
  Lemma update_ok c e k x v w : agree c e -> nth_error T k = Some (Some x, w) -> agree (set_ctx c k v) (upd e x v).
  Proof.
    intros (L & A & B) H. split; [rewrite set_ctx_length; exact L|]. assert (k < length c)%nat by (rewrite L; apply nth_error_Some; congruence). split.
    - intros i y u Hi. destruct (Nat.eq_dec i k) as [->|Hk].
      + rewrite H in Hi. injection Hi as <- <-. rewrite set_ctx_same, upd_same by assumption. reflexivity.
      + rewrite set_ctx_other by assumption. rewrite upd_other; [eauto|]. intros ->. apply Hk. eapply names_unique; eauto.
    - intros i u Hi. destruct (Nat.eq_dec i k) as [->|Hk]; [congruence|]. rewrite set_ctx_other by assumption. eauto.
  Qed.

  Lemma sim p : forall a c e s e' s', T = a ++ allocs p -> scoped p (names a) -> agree c e -> cexec p e s = Some (e', s') ->
    exists c', iexec (fst (assemble p a)) c s = Some (c', s') /\ agree c' e'.
  Proof.
    induction p as [|i p IH]; intros a c e s e' s' ET SC AG EX.
    - cbn in EX. injection EX as <- <-. cbn. eauto.
    - cbn [cexec] in EX. destruct (cstep i e s) as [[e1 s1]|] eqn:ES; [|discriminate]. cbn [scoped] in SC. destruct SC as [SC1 SC2].
      assert (K : forall v q t, T = a ++ (t, v) :: q -> u8 (length a) = length a /\ nth_error T (length a) = Some (t, v)).
      { intros v q t E. split; [apply u8_small; rewrite E, app_length in HL; cbn in HL; lia|]. rewrite E, nth_error_app2, Nat.sub_diag by lia. reflexivity. }
      assert (R : forall a' c1, T = a' ++ allocs p -> scoped p (names a') -> agree c1 e1 -> exists c', iexec (fst (assemble p a')) c1 s1 = Some (c', s') /\ agree c' e') by (intros; eapply IH; eauto).
      clear IH. pose proof AG as (L & A & B). destruct i; cbn [cstep allocs flat_map app] in ES, ET; fold (allocs p) in ET; cbn [assemble].
      + specialize (R a). destruct (assemble p a) as [l c''] eqn:EA. cbn [fst app] in *. cbn. destruct (step o s) as [s2|]; cbn in ES |- *; [|discriminate]. injection ES as <- <-. eauto.
      + specialize (R a). destruct (assemble p a) as [l c''] eqn:EA. cbn [fst app] in *. cbn [iexec istep]. injection ES as <- <-. destruct (lookup_ok a _ x ET SC1) as [v N]. rewrite (A _ _ _ N). eauto.
      + specialize (R a). destruct (assemble p a) as [l c''] eqn:EA. cbn [fst app] in *. cbn [iexec istep]. destruct (stk s) as [|[v n] r] eqn:K'; [discriminate|]. injection ES as <- <-. destruct (lookup_ok a _ x ET SC1) as [w N].
        assert (lookup x a < length c)%nat by (rewrite L; apply nth_error_Some; congruence). replace (Nat.ltb (lookup x a) (length c)) with true by (symmetry; apply Nat.ltb_lt; assumption). apply R; [assumption|assumption|]. eapply update_ok; eauto.
      + specialize (R (a ++ [(None, v)])). destruct (assemble p (a ++ [(None, v)])) as [l c''] eqn:EA. cbn [fst app] in *. cbn [iexec istep]. injection ES as <- <-. destruct (K _ _ _ ET) as [-> N]. rewrite (B _ _ N).
        apply R; [rewrite <- app_assoc; exact ET|rewrite names_app; cbn; rewrite app_nil_r; assumption|assumption].
      + specialize (R (a ++ [(Some x, v)])). destruct (assemble p (a ++ [(Some x, v)])) as [l c''] eqn:EA. cbn [fst app] in *. injection ES as <- <-.
        apply R; [rewrite <- app_assoc; exact ET|rewrite names_app; cbn; assumption|assumption].
      + specialize (R (a ++ [(Some x, v)])). destruct (assemble p (a ++ [(Some x, v)])) as [l c''] eqn:EA. cbn [fst app] in *. cbn [iexec istep]. injection ES as <- <-. destruct (K _ _ _ ET) as [-> N]. rewrite (A _ _ _ N).
        apply R; [rewrite <- app_assoc; exact ET|rewrite names_app; cbn; assumption|assumption].
  Qed.
End Sim.

(** The initial values of the variables *)
Fixpoint initial (c : list (option name * val)) : env :=
  match c with
  | [] => fun _ => VNone
  | (Some x, v) :: r => upd (initial r) x v
  | (None, _) :: r => initial r
  end.
Lemma initial_in c : NoDup (names c) -> forall i x v, nth_error c i = Some (Some x, v) -> initial c x = v.
Proof.
  induction c as [|[[y|] u] c IH]; intros ND i x v H; [destruct i; discriminate| |].
  - cbn in ND. inversion ND; subst. destruct i; cbn in H; [injection H as -> ->; apply upd_same|]. cbn [initial]. rewrite upd_other; [eauto|]. intros ->. apply H2. eapply in_names; eauto.
  - destruct i; cbn in H; [discriminate|]. cbn in ND. cbn [initial]. eauto.
Qed.
Lemma initial_alloc p x v : NoDup (names (allocs p)) -> In (Some x, v) (allocs p) -> initial (allocs p) x = v.
Proof. intros ND H. apply In_nth_error in H. destruct H as [i H]. eapply initial_in; eauto. Qed.
Lemma initial_agree c : NoDup (names c) -> agree c (map snd c) (initial c).
Proof.
  intros ND. split; [apply map_length|]. split.
  - intros i x v H. rewrite nth_error_map, H. cbn. f_equal. symmetry. eapply initial_in; eauto.
  - intros i v H. rewrite nth_error_map, H. reflexivity.
Qed.

(** ** Sequences of executions *)
(** Memory and tuple of the successive executions, before and after; between the executions both may be changed by others. *)
Fixpoint executions (M : machine) (inputs : list (memory * list entry)) : option (list (memory * list entry)) :=
  match inputs with
  | [] => Some []
  | (m, t) :: r =>
      match execute M m t with
      | Some (M', m', t') => option_map (cons (m', t')) (executions M' r)
      | None => None
      end
  end.

Section Runs.
  Variable p : list call.
  Hypothesis HN : NoDup (names (allocs p)).
  Hypothesis HL : (length (allocs p) <= 256)%nat.
  Hypothesis HS : scoped p [].
  Variable Inv : Z -> env -> Prop.
  Variable Post : Z -> memory -> list entry -> memory -> list entry -> Prop.
  Variable Good : Z -> memory -> list entry -> Prop. (* what is required of memory and tuple *)
  Hypothesis HI : forall r e m t, Inv r e -> Good r m t ->
    exists e' s', cexec p e (mkState [] m t) = Some (e', s') /\ Inv (r + 1) e' /\ Post r m t (mem s') (tup s').

  Lemma runs inputs : forall r c e, agree (allocs p) c e -> Inv r e -> (forall j m t, nth_error inputs j = Some (m, t) -> Good (r + Z.of_nat j)%Z m t) ->
    exists outs, executions (mkMachine (fst (assemble p [])) c) inputs = Some outs /\ length outs = length inputs /\
      forall j m t m' t', nth_error inputs j = Some (m, t) -> nth_error outs j = Some (m', t') -> Post (r + Z.of_nat j)%Z m t m' t'.
  Proof.
    induction inputs as [|[m t] inputs IH]; intros r c e AG IN G.
    - exists []. split; [reflexivity|split; [reflexivity|]]. intros [|j]; discriminate.
    - destruct (HI r e m t IN) as (e' & s' & X & IN' & P); [specialize (G O m t eq_refl); rewrite Z.add_0_r in G; exact G|].
      destruct (sim (allocs p) HN HL p [] c e (mkState [] m t) e' s' eq_refl HS AG X) as (c' & X' & AG').
      destruct (IH (r + 1)%Z c' e' AG' IN') as (outs & E & LE & Q); [intros j m1 t1 H; specialize (G (S j) m1 t1 H); replace (r + 1 + Z.of_nat j)%Z with (r + Z.of_nat (S j))%Z by lia; exact G|].
      exists ((mem s', tup s') :: outs). cbn [executions]. unfold execute. cbn [code context]. rewrite X', E. split; [reflexivity|]. split; [cbn; congruence|].
      intros [|j] m1 t1 m1' t1' H H'; cbn in H, H'; [injection H as <- <-; injection H' as <- <-; rewrite Z.add_0_r; exact P|].
      replace (r + Z.of_nat (S j))%Z with (r + 1 + Z.of_nat j)%Z by lia. eauto.
  Qed.

  Theorem machine_runs r : Inv r (initial (allocs p)) -> forall inputs, (forall j m t, nth_error inputs j = Some (m, t) -> Good (r + Z.of_nat j)%Z m t) ->
    exists outs, executions (make_machine p) inputs = Some outs /\ length outs = length inputs /\
      forall j m t m' t', nth_error inputs j = Some (m, t) -> nth_error outs j = Some (m', t') -> Post (r + Z.of_nat j)%Z m t m' t'.
  Proof.
    intros IN inputs G. unfold make_machine. pose proof (assemble_allocs p []) as E. destruct (assemble p []) as [l c] eqn:EA. cbn in E. subst c.
    pose proof (runs inputs r _ _ (initial_agree (allocs p) HN) IN G) as R. rewrite EA in R. exact R.
  Qed.
End Runs.
