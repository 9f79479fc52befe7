(** * Proofs about the grid search: the odometer *)
From Coq Require Import List Arith NArith ZArith Lia Bool.
From Verif Require Import GridSearch GridSearchSpec.
Import ListNotations.
Local Open Scope nat_scope.

Lemma Forall2_length {A B} (P : A -> B -> Prop) l m : Forall2 P l m -> length l = length m.
Proof. induction 1; cbn; congruence. Qed.

(** ** The successor of a tuple of counters, head first *)
Fixpoint succ (steps c : list nat) : option (list nat) :=
  match steps, c with
  | s :: steps', x :: c' =>
      match succ steps' c' with
      | Some c'' => Some (x :: c'')
      | None => if Nat.eqb x s then None else Some (S x :: map (fun _ => 0) c')
      end
  | _, _ => None
  end.

Lemma succ_snoc : forall steps c s x, length steps = length c ->
  succ (steps ++ [s]) (c ++ [x]) =
  if Nat.eqb x s then match succ steps c with Some c' => Some (c' ++ [0]) | None => None end
  else Some (c ++ [S x]).
Proof.
  induction steps as [|s0 steps IH]; intros [|x0 c] s x Hl; try discriminate; cbn [succ app].
  - cbn. destruct (Nat.eqb x s); reflexivity.
  - rewrite IH by (cbn in Hl; lia). destruct (Nat.eqb x s) eqn:E; [|reflexivity].
    destruct (succ steps c) as [c'|]; [reflexivity|].
    destruct (Nat.eqb x0 s0); [reflexivity|]. now rewrite map_app.
Qed.

Lemma nth_mid : forall (p : list nat) x q d, nth (length p) (p ++ x :: q) d = x.
Proof. induction p as [|a p IH]; intros x q d; [reflexivity|]. apply IH. Qed.
Lemma set_nth_mid : forall p v x q, set_nth (length p) v (p ++ x :: q) = p ++ v :: q.
Proof. induction p as [|a p IH]; intros v x q; cbn; [reflexivity|]. now rewrite IH. Qed.

(** The loop over [idx] computes the successor. *)
Lemma advance_succ : forall c x steps s qs qc, length steps = length c ->
  advance (steps ++ s :: qs) (c ++ x :: qc) (length c) =
  match succ (steps ++ [s]) (c ++ [x]) with
  | Some c' => Some (c' ++ qc)
  | None => None
  end.
Proof.
  induction c as [|y c IH] using rev_ind; intros x steps s qs qc Hl.
  - destruct steps; [|discriminate]. cbn. destruct (Nat.eqb x s); reflexivity.
  - destruct steps as [|s' steps _] using rev_ind; [rewrite app_length in Hl; cbn in Hl; lia|].
    rewrite !app_length in Hl; cbn in Hl.
    rewrite succ_snoc by (rewrite !app_length; cbn; lia).
    assert (N1 : forall d, nth (length (c ++ [y])) ((c ++ [y]) ++ x :: qc) d = x) by (intro; apply nth_mid).
    assert (N2 : forall d, nth (length (c ++ [y])) ((steps ++ [s']) ++ s :: qs) d = s).
    { intro d. replace (length (c ++ [y])) with (length (steps ++ [s'])) by (rewrite !app_length; cbn; lia).
      apply nth_mid. }
    assert (Hlen : length (c ++ [y]) = S (length c)) by (rewrite app_length; cbn; lia).
    rewrite Hlen in *. cbn [advance]. rewrite N1, N2.
    destruct (Nat.eqb x s) eqn:E.
    + rewrite <- Hlen, set_nth_mid. rewrite <- !app_assoc. cbn [app].
      rewrite IH by lia. destruct (succ (steps ++ [s']) (c ++ [y])) as [c'|]; [|reflexivity].
      now rewrite <- app_assoc.
    + rewrite <- Hlen, set_nth_mid. now rewrite <- !app_assoc.
Qed.

Lemma advance_full : forall steps c, length steps = length c -> c <> [] ->
  advance steps c (length c - 1) = succ steps c.
Proof.
  intros steps c Hl Hne. destruct c as [|x c _] using rev_ind; [congruence|].
  destruct steps as [|s steps _] using rev_ind; [rewrite app_length in Hl; cbn in Hl; lia|].
  rewrite !app_length in Hl; cbn in Hl.
  replace (length (c ++ [x]) - 1) with (length c) by (rewrite app_length; cbn; lia).
  rewrite advance_succ by lia. destruct (succ (steps ++ [s]) (c ++ [x])); [|reflexivity].
  now rewrite app_nil_r.
Qed.

(** ** The tuples from a given one on *)
Definition axis (s : nat) : list nat := seq 0 (S s).
Fixpoint grid_from (steps c : list nat) : list (list nat) :=
  match steps, c with
  | s :: steps', x :: c' =>
      map (cons x) (grid_from steps' c') ++
      flat_map (fun y => map (cons y) (grid (map axis steps'))) (seq (S x) (s - x))
  | _, _ => [[]]
  end.

Lemma grid_from_zero : forall steps, grid_from steps (map (fun _ => 0) steps) = grid (map axis steps).
Proof.
  induction steps as [|s steps IH]; [reflexivity|]. cbn [grid_from map grid]. rewrite IH.
  unfold axis at 3. cbn [seq flat_map]. now rewrite Nat.sub_0_r.
Qed.

Definition bounded (steps c : list nat) := Forall2 (fun s x => x <= s) steps c.

Lemma zeros_same : forall (c steps : list nat), length steps = length c ->
  map (fun _ => 0) c = map (fun _ : nat => 0) steps.
Proof. induction c; intros [|s steps] H; try discriminate; cbn; f_equal; auto. Qed.

Lemma grid_from_succ : forall steps c, bounded steps c ->
  match succ steps c with
  | Some c' => grid_from steps c = c :: grid_from steps c' /\ bounded steps c'
  | None => grid_from steps c = [c]
  end.
Proof.
  induction steps as [|s steps IH]; intros c HB; inversion HB as [|? x ? c' Hx Hc]; subst; [reflexivity|].
  specialize (IH c' Hc). cbn [succ grid_from]. destruct (succ steps c') as [c''|].
  - destruct IH as [E B]. rewrite E. split; [reflexivity | now constructor].
  - rewrite IH. destruct (Nat.eqb_spec x s) as [->|N].
    + rewrite Nat.sub_diag. reflexivity.
    + assert (Hl : length steps = length c') by (eapply Forall2_length; eassumption).
      rewrite (zeros_same _ _ Hl). split.
      * cbn [grid_from]. rewrite grid_from_zero.
        replace (s - x) with (S (s - S x)) by lia. reflexivity.
      * constructor; [lia|]. clear. induction steps; constructor; [lia|assumption].
Qed.

(** ** The loop *)
Section loop.
  Context {V : Type}.


  Lemma search_loop_from : forall fuel (sp : list (space V)) c,
    sp <> [] -> bounded (map num_steps sp) c -> length (grid_from (map num_steps sp) c) <= fuel ->
    search_loop fuel sp (map num_steps sp) c = Some (map (make_args sp) (grid_from (map num_steps sp) c)).
  Proof.
    induction fuel as [|fuel IH]; intros sp c Hne HB Hf.
    - pose proof (grid_from_succ _ _ HB) as G. destruct (succ (map num_steps sp) c).
      + destruct G as [G _]. rewrite G in Hf. cbn in Hf. lia.
      + rewrite G in Hf. cbn in Hf. lia.
    - cbn [search_loop].
      assert (Hl : length (map num_steps sp) = length c) by (eapply Forall2_length; eassumption).
      assert (Hls : length sp = length c) by (now rewrite map_length in Hl).
      rewrite Hls, advance_full; [|assumption|].
      2:{ destruct c; [|discriminate]. destruct sp; [congruence|discriminate]. }
      pose proof (grid_from_succ _ _ HB) as G. destruct (succ (map num_steps sp) c) as [c'|].
      + destruct G as [G B]. rewrite G in *. cbn in Hf. rewrite IH; [reflexivity|assumption|assumption|lia].
      + now rewrite G.
  Qed.

  Lemma make_args_grid : forall (sp : list (space V)),
    map (make_args sp) (grid (map axis (map num_steps sp))) = grid (map (fun s => map (at_ s) (axis (num_steps s))) sp).
  Proof.
    induction sp as [|s sp IH]; [reflexivity|].
    cbn [map grid]. rewrite <- IH. clear IH.
    generalize (axis (num_steps s)) as l. induction l as [|x l IHl]; [reflexivity|].
    cbn [map flat_map]. rewrite map_app, IHl. f_equal.
    rewrite !map_map. apply map_ext. reflexivity.
  Qed.

  Lemma search_calls : forall (sp : list (space V)) fuel, sp <> [] -> length (grid (map axis (map num_steps sp))) <= fuel ->
    search fuel sp = Some (grid (map (fun s => map (at_ s) (axis (num_steps s))) sp)).
  Proof.
    intros sp fuel Hne Hf. unfold search. destruct sp as [|s0 sp0] eqn:E; [congruence|]. rewrite <- E in *.
    rewrite <- (map_map num_steps (fun _ => 0) sp) .
    rewrite search_loop_from; [|assumption| |].
    - now rewrite grid_from_zero, make_args_grid.
    - clear. induction sp; constructor; [lia|assumption].
    - now rewrite grid_from_zero.
  Qed.

  Lemma search_loop_mono : forall fuel (sp : list (space V)) st c calls, search_loop fuel sp st c = Some calls ->
    length calls <= fuel.
  Proof.
    induction fuel as [|fuel IH]; intros sp st c calls H; [discriminate|]. cbn [search_loop] in H.
    destruct (advance st c (length sp - 1)) as [c'|].
    - destruct (search_loop fuel sp st c') as [l|] eqn:E; [|discriminate]. apply IH in E.
      injection H as <-. cbn. lia.
    - injection H as <-. cbn. lia.
  Qed.

  Lemma search_loop_more : forall fuel fuel' (sp : list (space V)) st c calls, search_loop fuel sp st c = Some calls -> fuel <= fuel' ->
    search_loop fuel' sp st c = Some calls.
  Proof.
    induction fuel as [|fuel IH]; intros [|fuel'] sp st c calls H Hle; try discriminate; [lia|].
    cbn [search_loop] in *. destruct (advance st c (length sp - 1)) as [c'|]; [|assumption].
    destruct (search_loop fuel sp st c') as [l|] eqn:E; [|discriminate].
    erewrite IH; [eassumption|eassumption|lia].
  Qed.
End loop.

(** ** The grid *)
Lemma grid_length : forall {V} (axes : list (list V)), length (grid axes) = fold_right (fun a n => length a * n) 1 axes.
Proof.
  intros V. induction axes as [|a axes IH]; [reflexivity|]. cbn [grid fold_right]. rewrite <- IH. clear IH.
  induction a as [|x a IHa]; [reflexivity|]. cbn [flat_map length]. rewrite app_length, map_length, IHa. lia.
Qed.

Lemma in_grid : forall {V} (axes : list (list V)) t, In t (grid axes) <-> Forall2 (fun a x => In x a) axes t.
Proof.
  intros V. induction axes as [|a axes IH]; intros t; cbn [grid].
  - split; [intros [<-|[]]; constructor | intros H; inversion H; now left].
  - rewrite in_flat_map. split.
    + intros (x & Hx & H). apply in_map_iff in H as (t' & <- & H). constructor; [assumption|]. now apply IH.
    + intros H. inversion H as [|? x ? t' Hx Ht]; subst. exists x. split; [assumption|].
      apply in_map. now apply IH.
Qed.

Lemma axis_in : forall s x, In x (axis s) <-> x <= s.
Proof. intros s x. unfold axis. rewrite in_seq. lia. Qed.

From Coq Require Import Sorted.

Lemma StronglySorted_app : forall {A} (R : A -> A -> Prop) l m,
  StronglySorted R l -> StronglySorted R m -> (forall x y, In x l -> In y m -> R x y) -> StronglySorted R (l ++ m).
Proof.
  induction l as [|a l IH]; intros m Hl Hm H; [assumption|].
  inversion Hl as [|? ? Hl' Ha]; subst. cbn. constructor.
  - apply IH; [assumption..|]. intros; apply H; [now right|assumption].
  - rewrite Forall_app. split; [assumption|]. apply Forall_forall. intros y Hy. apply H; [now left|assumption].
Qed.

Lemma grid_sorted : forall steps, StronglySorted lex (grid (map axis steps)).
Proof.
  induction steps as [|s steps IH]; cbn [map grid]; [repeat constructor|].
  assert (H : forall n i, StronglySorted lex (flat_map (fun x => map (cons x) (grid (map axis steps))) (seq i n)));
    [|exact (H (S s) 0)].
  induction n as [|n IHn]; intros i; [constructor|].
  cbn [seq flat_map]. apply StronglySorted_app.
  - clear IHn. induction IH as [|t l Hs IH' Ht]; cbn; [constructor|]. constructor; [assumption|].
    apply Forall_map. eapply Forall_impl; [|eassumption]. intros u Hu. now constructor.
  - apply IHn.
  - intros x y Hx Hy. apply in_map_iff in Hx as (t & <- & _). apply in_flat_map in Hy as (k & Hk & Hy).
    apply in_map_iff in Hy as (t' & <- & _). apply in_seq in Hk. constructor. lia.
Qed.

Lemma lex_irrefl : forall t, ~ lex t t.
Proof. induction t as [|x t IH]; intros H; inversion H; subst; [lia|auto]. Qed.

Lemma sorted_nodup : forall l, StronglySorted lex l -> NoDup l.
Proof.
  induction 1 as [|t l Hs IH Ht]; constructor; [|assumption].
  intros Hin. rewrite Forall_forall in Ht. apply (lex_irrefl t). auto.
Qed.

(** ** num_points *)
Lemma num_points_mod : forall steps, Forall (fun s => s < 2 ^ 32)%N steps ->
  num_points steps = (fold_right (fun s n => (s + 1) * n) 1 steps mod 2 ^ 32)%N.
Proof.
  induction steps as [|s steps IH]; intros HF; [reflexivity|]. inversion HF; subst.
  cbn [num_points fold_right]. fold (num_points steps). rewrite IH by assumption.
  rewrite <- N.mul_mod by discriminate. reflexivity.
Qed.

(** ** sequence *)
Lemma sequence_loop_ok : forall V (at_ : N -> V) fuel k i, (k < 2 ^ 32 - 1)%N -> (i <= k + 1)%N ->
  (k + 2 - i <= N.of_nat fuel)%N ->
  sequence_loop fuel at_ k i = Some (map (fun j => at_ (i + N.of_nat j)%N) (seq 0 (N.to_nat (k + 1 - i)))).
Proof.
  intros V at_. induction fuel as [|fuel IH]; intros k i Hk Hi Hf; [lia|].
  cbn [sequence_loop]. destruct (N.leb_spec i k).
  - rewrite N.mod_small by lia. rewrite IH by lia.
    replace (N.to_nat (k + 1 - i)) with (S (N.to_nat (k + 1 - (i + 1)))) by lia.
    cbn [seq map]. rewrite N.add_0_r. do 2 f_equal. rewrite <- seq_shift, map_map. apply map_ext.
    intros j. f_equal. lia.
  - replace (N.to_nat (k + 1 - i)) with 0 by lia. reflexivity.
Qed.

Lemma sequence_loop_diverges : forall V (at_ : N -> V) fuel i, (i < 2 ^ 32)%N ->
  sequence_loop fuel at_ (2 ^ 32 - 1) i = None.
Proof.
  intros V at_. induction fuel as [|fuel IH]; intros i Hi; [reflexivity|].
  cbn [sequence_loop]. destruct (N.leb_spec i (2 ^ 32 - 1)); [|lia].
  rewrite IH; [reflexivity|]. apply N.mod_lt. discriminate.
Qed.
