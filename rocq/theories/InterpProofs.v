From Coq Require Import NArith ZArith QArith List Bool Arith Lia Permutation Sorted.
From Verif Require Import Word WordProofs Interp InterpSpec.
Import ListNotations.

(** ** Masks *)
Lemma elems_clear_fold (keep : N -> bool) (is : list N) : forall m j, N.testbit (fold_left (fun m i => if keep i then m else N.clearbit m i) is m) j = N.testbit m j && (negb (existsb (N.eqb j) (filter (fun i => negb (keep i)) is))).
Proof.
  induction is as [|i is IH]; intros m j; cbn [fold_left filter existsb].
  - rewrite andb_true_r. reflexivity.
  - rewrite IH. destruct (keep i); cbn [negb existsb]; [reflexivity|]. rewrite N.clearbit_eqb, N.eqb_sym. destruct (N.eqb j i); cbn; rewrite ?andb_false_r, ?andb_true_r; reflexivity.
Qed.
Lemma clear_fold_W64 (keep : N -> bool) is : forall m, W64 m -> W64 (fold_left (fun m i => if keep i then m else N.clearbit m i) is m).
Proof.
  intros m Hm. unfold W64. apply lt_pow2_testbit. intros j Hj. rewrite elems_clear_fold. apply andb_false_intro1. exact (testbit_high m 64 j Hm Hj).
Qed.
Lemma elems_clear (keep : N -> bool) m : elems (fold_left (fun m i => if keep i then m else N.clearbit m i) (elems m) m) = filter keep (elems m).
Proof.
  rewrite !elems_def. generalize (map N.of_nat (seq 0 64)). intros is.
  transitivity (filter (fun j => N.testbit m j && keep j) is).
  - apply filter_ext_in. intros j Hj. rewrite elems_clear_fold. destruct (N.testbit m j) eqn:E; cbn; [|reflexivity].
    destruct (keep j) eqn:K.
    + apply negb_true_iff. apply not_true_is_false. intros H. apply existsb_exists in H as [x [Hx Hxj]]. apply N.eqb_eq in Hxj as ->. apply filter_In in Hx as [_ Hx]. rewrite K in Hx. discriminate.
    + apply negb_false_iff. apply existsb_exists. exists j. split; [|apply N.eqb_refl]. apply filter_In. split; [apply filter_In; auto|rewrite K; reflexivity].
  - induction is as [|x is IH]; cbn; [reflexivity|]. destruct (N.testbit m x); cbn; [|exact IH]. destruct (keep x); rewrite IH; reflexivity.
Qed.
Lemma elems_nil m : W64 m -> elems m = [] -> m = 0%N.
Proof.
  intros W H. destruct (N.eq_dec m 0) as [E|E]; [exact E|]. rewrite elems_cons in H by assumption. discriminate.
Qed.

Lemma elems_low n : (n <= 64)%nat -> elems (N.ones (N.of_nat n)) = map N.of_nat (seq 0 n).
Proof.
  intros Hn. rewrite elems_def. replace 64%nat with (n + (64 - n))%nat by lia. rewrite seq_app, map_app, filter_app. cbn [Nat.add].
  assert (A : filter (N.testbit (N.ones (N.of_nat n))) (map N.of_nat (seq 0 n)) = map N.of_nat (seq 0 n)).
  { assert (G : forall l, (forall x, In x l -> N.testbit (N.ones (N.of_nat n)) x = true) -> filter (N.testbit (N.ones (N.of_nat n))) l = l).
    { induction l as [|x l IH]; intros H; cbn; [reflexivity|]. rewrite (H x) by (left; reflexivity). rewrite IH; [reflexivity|]. intros y Hy. apply H. right; exact Hy. }
    apply G. intros x Hx. apply in_map_iff in Hx as [y [<- Hy]]. apply in_seq in Hy. apply N.ones_spec_low. lia. }
  assert (B : filter (N.testbit (N.ones (N.of_nat n))) (map N.of_nat (seq n (64 - n))) = []).
  { assert (G : forall l, (forall x, In x l -> N.testbit (N.ones (N.of_nat n)) x = false) -> filter (N.testbit (N.ones (N.of_nat n))) l = []).
    { induction l as [|x l IH]; intros H; cbn; [reflexivity|]. rewrite (H x) by (left; reflexivity). apply IH. intros y Hy. apply H. right; exact Hy. }
    apply G. intros x Hx. apply in_map_iff in Hx as [y [<- Hy]]. apply in_seq in Hy. apply N.ones_spec_high. lia. }
  rewrite A, B. apply app_nil_r.
Qed.
Lemma low_ones_ones n : (n < 64)%N -> low_ones n = N.ones n.
Proof.
  intros Hn. unfold low_ones, shl64. rewrite N.shiftl_1_l. assert (H : (2 ^ n < 2 ^ 64)%N) by (apply N.pow_lt_mono_r; lia).
  rewrite wrap_small by exact H. assert (P := pow2_pos n). rewrite sub64_ge; [|exact H|lia]. rewrite N.ones_equiv, N.pred_sub. reflexivity.
Qed.
Lemma ones_W64 n : (n <= 64)%N -> W64 (N.ones n).
Proof. intros H. apply lt_pow2_testbit. intros i Hi. apply N.ones_spec_high. lia. Qed.
Lemma elems_all : elems all_ones = map N.of_nat (seq 0 64).
Proof. apply (elems_low 64). lia. Qed.

Lemma fold_left_ext {A B} (f g : A -> B -> A) l : (forall a b, f a b = g a b) -> forall a, fold_left f l a = fold_left g l a.
Proof. intros H. induction l as [|x l IH]; intros a; cbn; [reflexivity|]. rewrite H. apply IH. Qed.

Section Rows.
Context {R : Type}.
Implicit Types (b : @block R) (sts : list (@state R)) (k : @cont R).

Definition bok b : Prop := W64 (bmask b) /\ forall i, In i (elems (bmask b)) -> bdata b i <> None.
Definition opt_list {A} (o : option A) : list A := match o with Some r => [r] | None => [] end.

Lemma tuples_gen {g : R -> R} (keep : R -> bool) b m :
  m = fold_left (fun m i => match bdata b i with Some r => if keep r then m else N.clearbit m i | None => m end) (elems (bmask b)) (bmask b) ->
  tuples (mkBlock (fun i => match bdata b i with Some r => Some (g r) | None => None end) m) = map g (filter keep (tuples b)).
Proof.
  intros ->. unfold tuples. cbn [bdata bmask].
  rewrite (fold_left_ext _ (fun m i => if (match bdata b i with Some r => keep r | None => true end) then m else N.clearbit m i)) by (intros a i; destruct (bdata b i); reflexivity).
  rewrite elems_clear. induction (elems (bmask b)) as [|i is IH]; cbn [filter flat_map map]; [reflexivity|].
  destruct (bdata b i) as [r|] eqn:E; cbn [app].
  - cbn [filter]. destruct (keep r) eqn:K; cbn [flat_map]; rewrite ?E; cbn [app map]; rewrite IH; reflexivity.
  - cbn [flat_map]. rewrite E. exact IH.
Qed.
Lemma drop_unless_tuples keep b : tuples (drop_unless keep b) = filter keep (tuples b).
Proof.
  unfold drop_unless, with_mask. rewrite <- (map_id (filter keep (tuples b))). rewrite <- (tuples_gen (g := fun r => r) keep b _ eq_refl).
  unfold tuples. cbn [bdata bmask]. apply flat_map_ext. intros i. destruct (bdata b i); reflexivity.
Qed.
Lemma bok_drop keep b : bok b -> bok (drop_unless keep b).
Proof.
  intros [W H]. unfold drop_unless, with_mask, bok; cbn [bdata bmask].
  rewrite (fold_left_ext _ (fun m i => if (match bdata b i with Some r => keep r | None => true end) then m else N.clearbit m i)) by (intros a i; destruct (bdata b i); reflexivity).
  split; [apply clear_fold_W64; exact W|]. intros i Hi. rewrite elems_clear in Hi. apply filter_In in Hi as [Hi _]. apply H, Hi.
Qed.
Lemma tuples_nil b : bok b -> (bmask b = 0%N <-> tuples b = []).
Proof.
  intros [W H]. unfold tuples. split; intros E.
  - rewrite E, elems_0. reflexivity.
  - apply elems_nil; [exact W|]. destruct (elems (bmask b)) as [|i is]; [reflexivity|]. cbn in E. destruct (bdata b i) eqn:D; [discriminate|]. exfalso. apply (H i); [left; reflexivity|exact D].
Qed.
Lemma tuples_load (rows : list R) n : n = length rows -> (n <= 64)%nat -> tuples (load rows (N.ones (N.of_nat n))) = rows /\ bok (load rows (N.ones (N.of_nat n))).
Proof.
  intros -> Hn. unfold tuples, bok, load; cbn [bdata bmask]. rewrite elems_low by exact Hn. split.
  - clear Hn. rewrite flat_map_concat_map, map_map.
    assert (G : forall (l pre : list R), concat (map (fun i => match nth_error (pre ++ l) (N.to_nat (N.of_nat i)) with Some r => [r] | None => [] end) (seq (length pre) (length l))) = l).
    { induction l as [|x l IH]; intros pre; cbn [length seq map concat]; [reflexivity|]. rewrite Nat2N.id, nth_error_app2, Nat.sub_diag by lia. cbn. f_equal.
      specialize (IH (pre ++ [x])). rewrite app_length in IH. cbn [length] in IH. rewrite Nat.add_1_r in IH. rewrite <- app_assoc in IH. exact IH. }
    apply (G rows []).
  - split; [apply ones_W64; lia|]. intros i Hi. apply in_map_iff in Hi as [j [<- Hj]]. apply in_seq in Hj. rewrite Nat2N.id. apply nth_error_Some. lia.
Qed.

(** ** Feeding blocks to the parents *)
Fixpoint feed k sts (bs : list (@block R)) : option (list (@state R) * bool) :=
  match bs with
  | [] => Some (sts, false)
  | b :: bs' => match k sts b with
                | Some (sts', _, false) => feed k sts' bs'
                | Some (sts', _, true) => Some (sts', true)
                | None => None
                end
  end.
Definition sim (x y : option (list (@state R) * bool)) : Prop :=
  match y with
  | None => x = None
  | Some (sts, u) => exists u', x = Some (sts, u') /\ (u' = true -> u = true)
  end.
Lemma sim_refl x : sim x x.
Proof. destruct x as [[sts u]|]; cbn; eauto. Qed.
Definition lift s (x : option (list (@state R) * bool)) : option (list (@state R) * bool) := match x with Some (sts, u) => Some (s :: sts, u) | None => None end.
Lemma pop_lift s x : pop (lift s x) = x.
Proof. destruct x as [[sts u]|]; reflexivity. Qed.
Lemma sim_pop s x y : sim x (lift s y) -> sim (pop x) y.
Proof. destruct y as [[sts u]|]; cbn; [intros [u' [-> H]]; cbn; eauto|intros ->; reflexivity]. Qed.
Lemma feed_app k bs1 : forall sts bs2, feed k sts (bs1 ++ bs2) = match feed k sts bs1 with Some (sts', false) => feed k sts' bs2 | x => x end.
Proof.
  induction bs1 as [|b bs1 IH]; intros sts bs2; cbn [app feed]; [reflexivity|]. destruct (k sts b) as [[[sts' b'] [|]]|]; [reflexivity|apply IH|reflexivity].
Qed.
Definition nonempty b : bool := negb (N.eqb (bmask b) 0).
Definition keeps k : Prop := forall sts b sts' b' u, k sts b = Some (sts', b', u) -> b' = b.

Lemma tuples_nonempty bs : Forall bok bs -> flat_map tuples (filter nonempty bs) = flat_map tuples bs.
Proof.
  induction 1 as [|b bs H _ IH]; cbn; [reflexivity|]. unfold nonempty at 1. destruct (N.eqb_spec (bmask b) 0) as [E|E]; cbn; rewrite IH; [|reflexivity].
  rewrite (proj1 (tuples_nil b H) E). reflexivity.
Qed.
Lemma Forall_filter {A} (P : A -> Prop) f l : Forall P l -> Forall P (filter f l).
Proof. induction 1; cbn; [constructor|]. destruct (f x); auto. Qed.

Context (shuffle : forall A : Type, list A -> list A).
Context (shuffle_perm : forall A (l : list A), Permutation (shuffle A l) l).
Notation push := (push shuffle).
Notation step := (step shuffle).

(** *** Filters *)
Lemma feed_pass (f : frame) (T : block -> block) :
  (forall k s sts b, step f k s sts b = if N.eqb (bmask (T b)) 0 then Some (s, sts, T b, false) else match k sts (T b) with Some (sts', b'', u) => Some (s, sts', b'', u) | None => None end) ->
  forall fs s bs sts, feed (push (f :: fs)) (s :: sts) bs = lift s (feed (push fs) sts (filter nonempty (map T bs))).
Proof.
  intros Hf fs s bs. induction bs as [|b bs IH]; intros sts; cbn [feed map filter]; [reflexivity|].
  cbn [Interp.push hd tl]. rewrite Hf. unfold nonempty at 1. destruct (N.eqb (bmask (T b)) 0); cbn [negb].
  - apply IH.
  - cbn [feed]. destruct (push fs sts (T b)) as [[[sts' b'] [|]]|]; cbn [lift]; [reflexivity|apply IH|reflexivity].
Qed.
(** *** Projection *)
Definition project_block (f : R -> R) b := mkBlock (fun i => option_map f (bdata b i)) (bmask b).
Lemma feed_project f fs s bs : forall sts, feed (push (FProject f :: fs)) (s :: sts) bs = lift s (feed (push fs) sts (map (project_block f) bs)).
Proof.
  induction bs as [|b bs IH]; intros sts; cbn [feed map]; [reflexivity|]. cbn [Interp.push hd tl Interp.step]. fold (project_block f b).
  destruct (push fs sts (project_block f b)) as [[[sts' b'] [|]]|]; cbn [lift]; [reflexivity|apply IH|reflexivity].
Qed.
Lemma project_tuples f b : tuples (project_block f b) = map f (tuples b).
Proof.
  unfold tuples, project_block; cbn [bdata bmask]. induction (elems (bmask b)) as [|i is IH]; cbn; [reflexivity|]. rewrite map_app, IH. destruct (bdata b i); reflexivity.
Qed.
Lemma bok_project f b : bok b -> bok (project_block f b).
Proof. intros [W H]. split; [exact W|]. intros i Hi. cbn. specialize (H i Hi). destruct (bdata b i); cbn; congruence. Qed.
End Rows.
