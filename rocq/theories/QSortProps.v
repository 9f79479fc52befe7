(** * C14: quick sort and partitioning. *)
From Coq Require Import List Bool Arith Lia Permutation.
From Verif Require Import QSort.
Import ListNotations.

(** A total preorder. *)
Definition total_order {A} (le : A -> A -> bool) : Prop :=
  (forall a b, le a b = true \/ le b a = true) /\ (forall a b c, le a b = true -> le b c = true -> le a c = true).

Section Proofs.
  Context {A : Type} (le : A -> A -> bool) (lowest highest d : A).
  Hypothesis HT : total_order le.
  Notation get := (get d). Notation swap := (swap d).

  Lemma le_refl a : le a a = true. Proof. destruct HT as [H _]. destruct (H a a); assumption. Qed.
  Lemma le_trans a b c : le a b = true -> le b c = true -> le a c = true. Proof. apply HT. Qed.
  Lemma le_total a b : le a b = false -> le b a = true. Proof. destruct HT as [H _]. destruct (H a b); congruence. Qed.

  Lemma set_length (l : list A) i x : i < length l -> length (set l i x) = length l.
  Proof. intros H. unfold set. rewrite app_length, firstn_length. cbn [length]. rewrite skipn_length. lia. Qed.
  Lemma get_set (l : list A) i j x : i < length l -> get (set l i x) j = if j =? i then x else get l j.
  Proof.
    intros Hi. unfold set, QSort.get. assert (Hf : length (firstn i l) = i) by (apply firstn_length_le; lia).
    destruct (Nat.eqb_spec j i) as [->|Hne].
    - rewrite app_nth2 by lia. rewrite Hf, Nat.sub_diag. reflexivity.
    - destruct (Nat.lt_ge_cases j i).
      + rewrite app_nth1 by lia. rewrite <- (firstn_skipn i l) at 2. rewrite app_nth1 by lia. reflexivity.
      + rewrite app_nth2 by lia. rewrite Hf. replace (j - i) with (S (j - i - 1)) by lia. cbn [nth].
        rewrite <- (firstn_skipn (S i) l) at 2. rewrite app_nth2; rewrite firstn_length_le by lia; [f_equal; lia|lia].
  Qed.
  Lemma get_swap (l : list A) i j k : i < length l -> j < length l ->
    get (swap l i j) k = if k =? j then get l i else if k =? i then get l j else get l k.
  Proof. intros Hi Hj. unfold QSort.swap. rewrite get_set by (rewrite set_length; lia). rewrite get_set by lia. reflexivity. Qed.
  Lemma swap_length (l : list A) i j : i < length l -> j < length l -> length (swap l i j) = length l.
  Proof. intros Hi Hj. unfold QSort.swap. rewrite !set_length by (rewrite ?set_length; lia). reflexivity. Qed.

  Lemma swap_perm (l : list A) i j : i < length l -> j < length l -> Permutation l (swap l i j).
  Proof.
    assert (Hlt : forall i j l, i < j -> j < length l -> Permutation l (QSort.swap d l i j) /\ Permutation l (QSort.swap d l j i)).
    { clear i j l. intros i j l Hij Hj.
      assert (E : exists a x m y b, l = a ++ x :: m ++ y :: b /\ length a = i /\ length a + S (length m) = j).
      { assert (Hs : forall k (l : list A), k < length l -> exists a x b, l = a ++ x :: b /\ length a = k).
        { clear - d. intros k l Hk. destruct (nth_split l d Hk) as [a [b [E1 E2]]]. exists a, (nth k l d), b. auto. }
        destruct (Hs i l ltac:(lia)) as [a [x [t [-> Ha]]]]. rewrite app_length in Hj. cbn [length] in Hj.
        destruct (Hs (j - i - 1) t ltac:(lia)) as [m [y [b [-> Hm]]]]. exists a, x, m, y, b. split; [reflexivity|]. lia. }
      destruct E as [a [x [m [y [b [-> [Ha Hm]]]]]]].
      assert (Hset1 : forall (a : list A) x b v, set (a ++ x :: b) (length a) v = a ++ v :: b).
      { clear. intros a x b v. unfold set. rewrite firstn_app, Nat.sub_diag, firstn_all. cbn [firstn]. rewrite app_nil_r. f_equal. f_equal.
        rewrite skipn_app. replace (S (length a) - length a) with 1 by lia. rewrite skipn_all2 by lia. reflexivity. }
      assert (Hg1 : get (a ++ x :: m ++ y :: b) i = x) by (unfold QSort.get; rewrite app_nth2, Ha, Nat.sub_diag by lia; reflexivity).
      assert (Hg2 : get (a ++ x :: m ++ y :: b) j = y).
      { unfold QSort.get. rewrite app_nth2 by lia. rewrite <- Hm. replace (length a + S (length m) - length a) with (S (length m)) by lia.
        cbn [nth]. rewrite app_nth2, Nat.sub_diag by lia. reflexivity. }
      assert (Hjs : forall x v, set (a ++ x :: m ++ y :: b) j v = a ++ x :: m ++ v :: b).
      { intros x0 v. replace (a ++ x0 :: m ++ y :: b) with ((a ++ x0 :: m) ++ y :: b) by (rewrite <- app_assoc; reflexivity).
        replace j with (length (a ++ x0 :: m)) by (rewrite app_length; cbn; lia). rewrite Hset1, <- app_assoc. reflexivity. }
      assert (His : forall t v, set (a ++ x :: t) i v = a ++ v :: t) by (intros; subst i; apply Hset1).
      assert (P : Permutation (a ++ x :: m ++ y :: b) (a ++ y :: m ++ x :: b)).
      { apply Permutation_app_head. transitivity (x :: y :: m ++ b).
        - constructor. symmetry. apply Permutation_middle.
        - transitivity (y :: x :: m ++ b); [constructor|]. constructor. apply Permutation_middle. }
      split.
      - unfold QSort.swap. rewrite Hg1, Hg2, His, Hjs. exact P.
      - unfold QSort.swap. rewrite Hg1, Hg2, Hjs, His. exact P. }
    intros Hi Hj. destruct (Nat.lt_total i j) as [L|[->|L]].
    - apply (Hlt i j l L Hj).
    - assert (E : swap l j j = l); [|rewrite E; reflexivity].
      apply (nth_ext _ _ d d); [apply swap_length; assumption|]. intros k Hk. change (get (swap l j j) k = get l k). rewrite get_swap by assumption. destruct (Nat.eqb_spec k j) as [->|]; reflexivity.
    - apply (Hlt j i l L Hi).
  Qed.

  (** [l'] arises from [l] by exchanging elements at positions in [b, e). *)
  Inductive swaps (b e : nat) : list A -> list A -> Prop :=
  | sw_refl l : swaps b e l l
  | sw_step l l' i j : swaps b e l l' -> b <= i < e -> b <= j < e -> swaps b e l (swap l' i j).
  Lemma swaps_length b e l l' : e <= length l -> swaps b e l l' -> length l' = length l.
  Proof. intros He H. induction H; [reflexivity|]. rewrite swap_length; rewrite IHswaps; auto; lia. Qed.
  Lemma swaps_perm b e l l' : e <= length l -> swaps b e l l' -> Permutation l l'.
  Proof.
    intros He H. induction H; [reflexivity|]. etransitivity; [apply IHswaps; exact He|]. apply swap_perm; rewrite (swaps_length b e l l' He H); lia.
  Qed.
  Lemma swaps_outside b e l l' k : e <= length l -> swaps b e l l' -> k < b \/ e <= k -> get l' k = get l k.
  Proof.
    intros He H Hk. induction H; [reflexivity|]. pose proof (swaps_length b e l l' He H). rewrite get_swap by lia.
    destruct (Nat.eqb_spec k j); [lia|]. destruct (Nat.eqb_spec k i); [lia|]. apply IHswaps. exact He.
  Qed.
  Lemma swaps_forall b e l l' (P : A -> Prop) : e <= length l -> swaps b e l l' -> (forall k, b <= k < e -> P (get l k)) ->
    forall k, b <= k < e -> P (get l' k).
  Proof.
    intros He H Hp. induction H; [exact Hp|]. pose proof (swaps_length b e l l' He H). intros k Hk. rewrite get_swap by lia.
    destruct (Nat.eqb_spec k j); [apply IHswaps; auto|]. destruct (Nat.eqb_spec k i); apply IHswaps; auto.
  Qed.
  Lemma swaps_trans b e l l' l'' : swaps b e l l' -> swaps b e l' l'' -> swaps b e l l''.
  Proof. intros H1 H2. induction H2; [exact H1|]. apply sw_step; auto. Qed.
  Lemma swaps_mono b e b' e' l l' : b' <= b -> e <= e' -> swaps b e l l' -> swaps b' e' l l'.
  Proof. intros Hb He H. induction H; [apply sw_refl|]. apply sw_step; [assumption|lia|lia]. Qed.
  Lemma swaps_one b e l i j : b <= i < e -> b <= j < e -> swaps b e l (swap l i j).
  Proof. intros. apply sw_step; [apply sw_refl|assumption|assumption]. Qed.

  (** ** verify_partition *)
  Lemma fold_max_spec l ks : forall acc, exists r, fold_left (fun acc p => maxA le acc (get l p)) ks acc = r /\
    le acc r = true /\ (forall k, In k ks -> le (get l k) r = true) /\ (r = acc \/ exists k, In k ks /\ r = get l k).
  Proof.
    induction ks as [|k ks IH]; intros acc; cbn [fold_left].
    - exists acc. split; [reflexivity|]. split; [apply le_refl|]. split; [easy|left; reflexivity].
    - destruct (IH (maxA le acc (get l k))) as [r [E [R1 [R2 R3]]]]. exists r. split; [exact E|].
      assert (M1 : le acc (maxA le acc (get l k)) = true).
      { unfold maxA, lt. destruct (le (get l k) acc) eqn:Ek; cbn [negb]; [apply le_refl|apply le_total; exact Ek]. }
      assert (M2 : le (get l k) (maxA le acc (get l k)) = true).
      { unfold maxA, lt. destruct (le (get l k) acc) eqn:Ek; cbn [negb]; [exact Ek|apply le_refl]. }
      split; [eapply le_trans; eassumption|]. split.
      + intros k' [<-|Hk']; [eapply le_trans; eassumption|apply R2; exact Hk'].
      + destruct R3 as [->|[k' [Hk' ->]]]; [|right; exists k'; split; [right; exact Hk'|reflexivity]].
        unfold maxA. destruct (lt le acc (get l k)); [right; exists k; split; [left; reflexivity|reflexivity]|left; reflexivity].
  Qed.
  Lemma fold_min_spec l ks : forall acc, exists r, fold_left (fun acc p => minA le acc (get l p)) ks acc = r /\
    le r acc = true /\ (forall k, In k ks -> le r (get l k) = true) /\ (r = acc \/ exists k, In k ks /\ r = get l k).
  Proof.
    induction ks as [|k ks IH]; intros acc; cbn [fold_left].
    - exists acc. split; [reflexivity|]. split; [apply le_refl|]. split; [easy|left; reflexivity].
    - destruct (IH (minA le acc (get l k))) as [r [E [R1 [R2 R3]]]]. exists r. split; [exact E|].
      assert (M1 : le (minA le acc (get l k)) acc = true).
      { unfold minA, lt. destruct (le acc (get l k)) eqn:Ek; cbn [negb]; [apply le_refl|apply le_total; exact Ek]. }
      assert (M2 : le (minA le acc (get l k)) (get l k) = true).
      { unfold minA, lt. destruct (le acc (get l k)) eqn:Ek; cbn [negb]; [exact Ek|apply le_refl]. }
      split; [eapply le_trans; eassumption|]. split.
      + intros k' [<-|Hk']; [eapply le_trans; eassumption|apply R2; exact Hk'].
      + destruct R3 as [->|[k' [Hk' ->]]]; [|right; exists k'; split; [right; exact Hk'|reflexivity]].
        unfold minA. destruct (lt le (get l k) acc); [right; exists k; split; [left; reflexivity|reflexivity]|left; reflexivity].
  Qed.
  Hypothesis Hlim : lt le lowest highest = true.
  Lemma verify_spec l b m e : b <= m <= e ->
    (forall k, b <= k < e -> le lowest (get l k) = true /\ le (get l k) highest = true) ->
    exists r, verify_partition le lowest highest d l b m e = Some r /\
      (r = true <-> forall i j, b <= i < m -> m <= j < e -> le (get l i) (get l j) = true).
  Proof.
    intros Hm Hb. unfold verify_partition. rewrite Hlim. cbn [negb].
    destruct (fold_max_spec l (seq b (m - b)) lowest) as [r1 [-> [A1 [A2 A3]]]].
    destruct (fold_min_spec l (seq m (e - m)) highest) as [r2 [-> [B1 [B2 B3]]]].
    eexists. split; [reflexivity|]. split.
    - intros H i j Hi Hj. eapply le_trans; [apply A2; apply in_seq; lia|]. eapply le_trans; [exact H|]. apply B2. apply in_seq. lia.
    - intros H. assert (Hlh : le lowest highest = true) by (apply le_total; unfold lt in Hlim; destruct (le highest lowest); [discriminate|reflexivity]).
      destruct A3 as [->|[i [Hi ->]]], B3 as [->|[j [Hj ->]]].
      + exact Hlh.
      + apply in_seq in Hj. apply Hb. lia.
      + apply in_seq in Hi. apply Hb. lia.
      + apply in_seq in Hi, Hj. apply H; lia.
  Qed.

  (** ** Partitioning *)
  Definition valid_partitioner (part : A -> list A -> nat -> nat -> option (list A * nat)) : Prop :=
    forall pivot l b e, b <= e <= length l -> exists l' m, part pivot l b e = Some (l', m) /\ swaps b e l l' /\ b <= m <= e /\
      (forall i, b <= i < m -> le (get l' i) pivot = true) /\ (forall i, m <= i < e -> le pivot (get l' i) = true).

  Lemma part_loop_spec pivot l0 b0 e0 : e0 <= length l0 -> forall fuel l b e,
    swaps b0 e0 l0 l -> b0 <= b -> e <= e0 -> b <= e + 1 -> (b = e + 1 -> b <= e0) -> b <= e0 ->
    (forall i, b0 <= i < b -> le (get l i) pivot = true) -> (forall i, e <= i < e0 -> le pivot (get l i) = true) ->
    2 * (e - b) + (if (b <? e) && negb (le pivot (get l b)) && negb (le (get l (e - 1)) pivot) then 1 else 0) < fuel ->
    exists l' m, part_loop le d pivot fuel l b e = Some (l', m) /\ swaps b0 e0 l0 l' /\ b <= m <= e0 /\
      (forall i, b0 <= i < m -> le (get l' i) pivot = true) /\ (forall i, m <= i < e0 -> le pivot (get l' i) = true).
  Proof.
    intros He0. induction fuel as [|f IH]; intros l b e Hsw Hb He Hbe Hov Hbe0 Hlo Hhi Hf; [lia|]. cbn [part_loop].
    destruct (Nat.ltb_spec b e) as [Hlt|Hge].
    2:{ exists l, b. split; [reflexivity|]. split; [exact Hsw|]. split; [lia|]. split; [exact Hlo|]. intros i Hi. apply Hhi. lia. }
    cbn [andb] in Hf. pose proof (swaps_length _ _ _ _ He0 Hsw) as HL.
    change (set (set l b (get l (e - 1))) (e - 1) (get l b)) with (swap l b (e - 1)).
    assert (Hget : forall k, get (swap l b (e - 1)) k = if k =? e - 1 then get l b else if k =? b then get l (e - 1) else get l k)
      by (intros k; apply get_swap; lia).
    assert (Hsw' : swaps b0 e0 l0 (swap l b (e - 1))) by (apply sw_step; [exact Hsw|lia|lia]).
    set (b' := if le (get l (e - 1)) pivot then b + 1 else b). set (e' := if le pivot (get l b) then e - 1 else e).
    assert (Hb' : b <= b' <= b + 1) by (unfold b'; destruct (le (get l (e - 1)) pivot); clear; lia).
    assert (He' : e - 1 <= e' <= e) by (unfold e'; destruct (le pivot (get l b)); clear; lia).
    destruct (IH (swap l b (e - 1)) b' e') as [l' [m [P1 [P2 [P3 [P4 P5]]]]]]; try assumption; try lia.
    - intros i Hi. rewrite Hget. unfold b' in Hi. destruct (le (get l (e - 1)) pivot) eqn:Er.
      + destruct (Nat.eqb_spec i (e - 1)) as [->|]; [|destruct (Nat.eqb_spec i b); [exact Er|apply Hlo; lia]].
        assert (b = e - 1) by lia. subst b. exact Er.
      + destruct (Nat.eqb_spec i (e - 1)); [lia|]. destruct (Nat.eqb_spec i b); [lia|]. apply Hlo. lia.
    - intros i Hi. rewrite Hget. unfold e' in Hi. destruct (le pivot (get l b)) eqn:El.
      + destruct (Nat.eqb_spec i (e - 1)) as [->|]; [exact El|]. destruct (Nat.eqb_spec i b) as [->|]; [lia|]. apply Hhi. lia.
      + destruct (Nat.eqb_spec i (e - 1)); [lia|]. destruct (Nat.eqb_spec i b); [lia|]. apply Hhi. lia.
    - destruct (le pivot (get l b)) eqn:El, (le (get l (e - 1)) pivot) eqn:Er; cbn [negb andb] in Hf; unfold b', e' in *.
      + match goal with |- context [if ?c then 1 else 0] => destruct c end; lia.
      + match goal with |- context [if ?c then 1 else 0] => destruct c end; lia.
      + match goal with |- context [if ?c then 1 else 0] => destruct c end; lia.
      + rewrite !Hget. rewrite Nat.eqb_refl. destruct (Nat.eqb_spec b (e - 1)) as [Eb|Eb].
        * exfalso. rewrite <- Eb in Er. pose proof (le_total _ _ El). congruence.
        * rewrite Nat.eqb_refl. apply le_total in El. rewrite El. cbn [negb]. rewrite andb_false_r. lia.
    - exists l', m. split; [exact P1|]. split; [exact P2|]. split; [lia|]. split; assumption.
  Qed.
  Lemma partition_naive_valid : valid_partitioner (partition_naive le d).
  Proof.
    intros pivot l b e Hbe. unfold partition_naive.
    destruct (part_loop_spec pivot l b e ltac:(lia) (2 * (e - b) + 2) l b e) as [l' [m [P1 [P2 [P3 [P4 P5]]]]]]; try lia.
    - apply sw_refl.
    - match goal with |- context [if ?c then 1 else 0] => destruct c end; lia.
    - rewrite P1. exists l', m. destruct (Nat.eqb_spec m e) as [->|Hne]; cbn [orb].
      + split; [reflexivity|]. repeat (split; [assumption|]). assumption.
      + rewrite (P5 m) by lia. split; [reflexivity|]. repeat (split; [assumption|]). assumption.
  Qed.

  (** ** qsort *)
  Definition sorted_range (l : list A) (b e : nat) : Prop := forall i j, b <= i -> i < j -> j < e -> le (get l i) (get l j) = true.
  Lemma is_sorted_true l b e : sorted_range l b e -> is_sorted le d l b e = true.
  Proof. intros H. unfold is_sorted. apply forallb_forall. intros i Hi. apply in_seq in Hi. apply H; lia. Qed.

  Lemma median3_swaps l b e : b + 2 < e -> e <= length l -> swaps b e l (median3 le d l b e).
  Proof.
    intros Hbe He. unfold median3. assert (Hpm : b <= b + (e - b) / 2 < e).
    { split; [lia|]. assert ((e - b) / 2 < e - b) by (apply Nat.div_lt; lia). lia. }
    repeat match goal with |- context [if ?c then _ else _] => destruct c end; try apply sw_refl; apply swaps_one; lia.
  Qed.

  Lemma qsort_spec part : valid_partitioner part -> forall fuel l b e, b <= e <= length l -> e - b < fuel ->
    (forall k, b <= k < e -> le lowest (get l k) = true /\ le (get l k) highest = true) ->
    exists l', qsort le lowest highest d part fuel l b e = Some l' /\ swaps b e l l' /\ sorted_range l' b e.
  Proof.
    intros Hp. induction fuel as [|f IH]; intros l b e Hbe Hf Hlims; [lia|]. cbn [qsort].
    destruct (Nat.ltb_spec e b) as [H|_]; [lia|]. destruct (Nat.ltb_spec 2 (e - b)) as [H2|H2].
    2:{ destruct (Nat.eqb_spec (e - b) 2) as [E|E].
        - assert (E1 : e - 1 = b + 1) by lia. rewrite E1. unfold lt. destruct (le (get l b) (get l (b + 1))) eqn:El; cbn [negb].
          + exists l. split; [reflexivity|]. split; [apply sw_refl|]. intros i j Hi Hj Hk. replace i with b by lia. replace j with (b + 1) by lia. exact El.
          + exists (swap l b (b + 1)). split; [reflexivity|]. split; [apply swaps_one; lia|]. intros i j Hi Hj Hk.
            replace i with b by lia. replace j with (b + 1) by lia. rewrite !get_swap by lia. rewrite !Nat.eqb_refl.
            destruct (Nat.eqb_spec b (b + 1)); [lia|]. apply le_total. exact El.
        - exists l. split; [reflexivity|]. split; [apply sw_refl|]. intros i j Hi Hj Hk. lia. }
    set (l1 := median3 le d l b e). assert (S1 : swaps b e l l1) by (apply median3_swaps; lia).
    pose proof (swaps_length b e l l1 ltac:(lia) S1) as L1.
    destruct (Hp (get l1 b) l1 (b + 1) e ltac:(lia)) as [l2 [mid [E2 [S2 [Hmid [Plo Phi]]]]]]. rewrite E2.
    destruct (Nat.ltb_spec e mid) as [H|_]; [lia|]. destruct (Nat.ltb_spec mid (b + 1)) as [H|_]; [lia|]. cbn [orb].
    pose proof (swaps_length (b + 1) e l1 l2 ltac:(lia) S2) as L2.
    assert (S12 : swaps b e l l2) by (eapply swaps_trans; [exact S1|]; apply (swaps_mono (b + 1) e); [lia|lia|exact S2]).
    assert (Hlim2 : forall k, b <= k < e -> le lowest (get l2 k) = true /\ le (get l2 k) highest = true).
    { apply (swaps_forall b e l l2 (fun x => le lowest x = true /\ le x highest = true)); [lia|exact S12|exact Hlims]. }
    destruct (verify_spec l2 (b + 1) mid e Hmid) as [r [-> Hr]]; [intros k Hk; apply Hlim2; lia|].
    assert (r = true) as ->. { apply Hr. intros i j Hi Hj. eapply le_trans; [apply Plo; lia|apply Phi; lia]. }
    set (pivot := get l1 b) in *. assert (Hpiv : get l2 b = pivot) by (apply (swaps_outside (b + 1) e); [lia|exact S2|lia]).
    set (l3 := swap l2 b (mid - 1)). assert (S3 : swaps b mid l2 l3) by (apply swaps_one; lia).
    assert (L3 : length l3 = length l2) by (apply swap_length; lia).
    assert (G3 : forall k, get l3 k = if k =? mid - 1 then pivot else if k =? b then get l2 (mid - 1) else get l2 k).
    { intros k. unfold l3. rewrite get_swap by lia. rewrite Hpiv. reflexivity. }
    assert (Lo3 : forall k, b <= k < mid - 1 -> le (get l3 k) pivot = true).
    { intros k Hk. rewrite G3. destruct (Nat.eqb_spec k (mid - 1)); [lia|]. destruct (Nat.eqb_spec k b); apply Plo; lia. }
    assert (Hi3 : forall k, mid <= k < e -> le pivot (get l3 k) = true).
    { intros k Hk. rewrite G3. destruct (Nat.eqb_spec k (mid - 1)); [lia|]. destruct (Nat.eqb_spec k b); [lia|]. apply Phi. lia. }
    assert (Hp3 : get l3 (mid - 1) = pivot) by (rewrite G3, Nat.eqb_refl; reflexivity).
    assert (S03 : swaps b e l l3) by (eapply swaps_trans; [exact S12|]; apply (swaps_mono b mid); [lia|lia|exact S3]).
    assert (Hlim3 : forall k, b <= k < e -> le lowest (get l3 k) = true /\ le (get l3 k) highest = true).
    { apply (swaps_forall b e l l3 (fun x => le lowest x = true /\ le x highest = true)); [lia|exact S03|exact Hlims]. }
    assert (Hright : exists l4, (if 2 <=? e - mid then qsort le lowest highest d part f l3 mid e else Some l3) = Some l4 /\ swaps mid e l3 l4 /\ sorted_range l4 mid e).
    { destruct (Nat.leb_spec 2 (e - mid)) as [H|H].
      - apply IH; [lia|lia|]. intros k Hk. apply Hlim3. lia.
      - exists l3. split; [reflexivity|]. split; [apply sw_refl|]. intros i j Hi Hj Hk. lia. }
    destruct Hright as [l4 [E4 [S4 So4]]]. rewrite E4. rewrite (is_sorted_true _ _ _ So4).
    pose proof (swaps_length mid e l3 l4 ltac:(lia) S4) as L4.
    assert (Hlim4 : forall k, b <= k < mid - 1 -> le lowest (get l4 k) = true /\ le (get l4 k) highest = true).
    { intros k Hk. rewrite (swaps_outside mid e l3 l4) by (try exact S4; lia). apply Hlim3. lia. }
    destruct (IH l4 b (mid - 1) ltac:(lia) ltac:(lia) Hlim4) as [l5 [E5 [S5 So5]]].
    exists l5. split; [exact E5|]. pose proof (swaps_length b (mid - 1) l4 l5 ltac:(lia) S5) as L5. split.
    - eapply swaps_trans; [exact S03|]. eapply swaps_trans; [apply (swaps_mono mid e); [| |exact S4]; lia|]. apply (swaps_mono b (mid - 1)); [lia|lia|exact S5].
    - assert (Lo5 : forall k, b <= k < mid - 1 -> le (get l5 k) pivot = true).
      { apply (swaps_forall b (mid - 1) l4 l5 (fun x => le x pivot = true)); [lia|exact S5|]. intros k Hk.
        rewrite (swaps_outside mid e l3 l4) by (try exact S4; lia). apply Lo3. lia. }
      assert (Hp5 : get l5 (mid - 1) = pivot).
      { rewrite (swaps_outside b (mid - 1) l4 l5) by (try exact S5; lia). rewrite (swaps_outside mid e l3 l4) by (try exact S4; lia). exact Hp3. }
      assert (Hi5 : forall k, mid <= k < e -> le pivot (get l5 k) = true).
      { intros k Hk. rewrite (swaps_outside b (mid - 1) l4 l5) by (try exact S5; lia). revert k Hk.
        apply (swaps_forall mid e l3 l4 (fun x => le pivot x = true)); [lia|exact S4|exact Hi3]. }
      intros i j Hi Hij Hj. destruct (Nat.lt_ge_cases j (mid - 1)) as [H|H]; [apply So5; lia|].
      destruct (Nat.eq_dec j (mid - 1)) as [->|Hj']; [rewrite Hp5; apply Lo5; lia|].
      destruct (Nat.lt_ge_cases i (mid - 1)) as [Hi'|Hi']; [eapply le_trans; [apply Lo5; lia|apply Hi5; lia]|].
      destruct (Nat.eq_dec i (mid - 1)) as [->|Hi'']; [rewrite Hp5; apply Hi5; lia|].
      rewrite !(swaps_outside b (mid - 1) l4 l5) by (try exact S5; lia). apply So4; lia.
  Qed.
End Proofs.

(** ** C14 *)
(** Sorting a whole range yields an ordered permutation; the loop and recursion terminate ([fuel] bounds them), and no
    assertion fails, provided all elements are within the limits of the element type. *)
Theorem C14_qsort : forall (A : Type) (le : A -> A -> bool) (lowest highest d : A) (l : list A),
  total_order le -> le highest lowest = false -> (forall x, In x l -> le lowest x = true /\ le x highest = true) ->
  forall fuel, length l < fuel ->
  exists l', qsort le lowest highest d (partition_naive le d) fuel l 0 (length l) = Some l' /\ Permutation l l' /\
    forall i j, i < j -> j < length l' -> le (nth i l' d) (nth j l' d) = true.
Proof.
  intros A le lowest highest d l HT Hlim Hin fuel Hf.
  destruct (qsort_spec le lowest highest d HT ltac:(unfold lt; rewrite Hlim; reflexivity) _ (partition_naive_valid le d HT) fuel l 0 (length l)) as [l' [E [S So]]]; try lia.
  - intros k Hk. apply Hin. unfold get. apply nth_In. lia.
  - exists l'. split; [exact E|]. pose proof (swaps_perm d _ _ _ _ (le_n _) S) as P. split; [exact P|]. intros i j Hij Hj.
    apply So; [lia|lia|]. rewrite (Permutation_length P). exact Hj.
Qed.
Print Assumptions C14_qsort.

(** Sub-ranges: nothing outside is touched. *)
Theorem C14_qsort_range : forall (A : Type) (le : A -> A -> bool) (lowest highest d : A) (l : list A) b e,
  total_order le -> le highest lowest = false -> b <= e <= length l ->
  (forall k, b <= k < e -> le lowest (nth k l d) = true /\ le (nth k l d) highest = true) ->
  forall fuel, e - b < fuel ->
  exists l', qsort le lowest highest d (partition_naive le d) fuel l b e = Some l' /\ Permutation l l' /\
    (forall k, k < b \/ e <= k -> nth k l' d = nth k l d) /\
    forall i j, b <= i -> i < j -> j < e -> le (nth i l' d) (nth j l' d) = true.
Proof.
  intros A le lowest highest d l b e HT Hlim Hbe Hin fuel Hf.
  destruct (qsort_spec le lowest highest d HT ltac:(unfold lt; rewrite Hlim; reflexivity) _ (partition_naive_valid le d HT) fuel l b e Hbe Hf Hin) as [l' [E [S So]]].
  exists l'. split; [exact E|]. split; [apply (swaps_perm d b e); [lia|exact S]|]. split; [|exact So].
  intros k Hk. apply (swaps_outside d b e); [lia|exact S|exact Hk].
Qed.
Print Assumptions C14_qsort_range.

Theorem C14_partition : forall (A : Type) (le : A -> A -> bool) (d pivot : A) (l : list A) b e, total_order le -> b <= e <= length l ->
  exists l' m, partition_naive le d pivot l b e = Some (l', m) /\ b <= m <= e /\ Permutation l l' /\
    (forall k, k < b \/ e <= k -> nth k l' d = nth k l d) /\
    (forall i, b <= i < m -> le (nth i l' d) pivot = true) /\ (forall i, m <= i < e -> le pivot (nth i l' d) = true).
Proof.
  intros A le d pivot l b e HT Hbe. destruct (partition_naive_valid le d HT pivot l b e Hbe) as [l' [m [E [S [Hm [P1 P2]]]]]].
  exists l', m. split; [exact E|]. split; [exact Hm|]. split; [apply (swaps_perm d b e); [lia|exact S]|]. split; [|split; assumption].
  intros k Hk. apply (swaps_outside d b e); [lia|exact S|exact Hk].
Qed.
Print Assumptions C14_partition.

Theorem C14_verify_partition : forall (A : Type) (le : A -> A -> bool) (lowest highest d : A) (l : list A) b m e,
  total_order le -> le highest lowest = false -> b <= m <= e ->
  (forall k, b <= k < e -> le lowest (nth k l d) = true /\ le (nth k l d) highest = true) ->
  exists r, verify_partition le lowest highest d l b m e = Some r /\
    (r = true <-> forall i j, b <= i < m -> m <= j < e -> le (nth i l d) (nth j l d) = true).
Proof.
  intros A le lowest highest d l b m e HT Hlim Hm Hin. apply verify_spec; auto. unfold lt. rewrite Hlim. reflexivity.
Qed.
Print Assumptions C14_verify_partition.

(** Without any restriction on the values: the exact answer of [verify_partition]. *)
Theorem C14_verify_partition_exact : forall (A : Type) (le : A -> A -> bool) (lowest highest d : A) (l : list A) b m e,
  total_order le -> le highest lowest = false -> b <= m <= e ->
  exists r, verify_partition le lowest highest d l b m e = Some r /\
    (r = true <-> (forall i j, b <= i < m -> m <= j < e -> le (nth i l d) (nth j l d) = true) /\
                  (forall i, b <= i < m -> le (nth i l d) highest = true) /\ (forall j, m <= j < e -> le lowest (nth j l d) = true)).
Proof.
  intros A le lowest highest d l b m e HT Hlim Hm. pose proof HT as [T1 T2]. unfold verify_partition, lt. rewrite Hlim. cbn [negb].
  destruct (fold_max_spec le d HT l (seq b (m - b)) lowest) as [r1 [-> [A1 [A2 A3]]]].
  destruct (fold_min_spec le d HT l (seq m (e - m)) highest) as [r2 [-> [B1 [B2 B3]]]].
  assert (Hlh : le lowest highest = true) by (destruct (T1 lowest highest) as [X|X]; [exact X|congruence]).
  eexists. split; [reflexivity|]. split.
  - intros H. split; [|split].
    + intros i j Hi Hj. eapply T2; [apply A2; apply in_seq; lia|]. eapply T2; [exact H|]. apply B2. apply in_seq. lia.
    + intros i Hi. eapply T2; [apply A2; apply in_seq; lia|]. eapply T2; [exact H|exact B1].
    + intros j Hj. eapply T2; [exact A1|]. eapply T2; [exact H|]. apply B2. apply in_seq. lia.
  - intros [H [H1 H2]]. destruct A3 as [->|[i [Hi ->]]], B3 as [->|[j [Hj ->]]].
    + exact Hlh.
    + apply in_seq in Hj. apply H2. lia.
    + apply in_seq in Hi. apply H1. lia.
    + apply in_seq in Hi, Hj. apply H; lia.
Qed.
Print Assumptions C14_verify_partition_exact.

(** Finding: with values beyond [numeric_limits::lowest()] (a floating-point -infinity), [verify_partition] rejects a correct
    partition and hence [qsort]'s assertion fails.  Values are levels: 0 is -inf, 1 is lowest(), 10 is max(). *)
Theorem C14_infinity_refuted :
  verify_partition Nat.leb 1 10 0 [0; 0] 0 1 2 = Some false /\
  (forall fuel, qsort Nat.leb 1 10 0 (partition_naive Nat.leb 0) (S fuel) [0; 0; 0] 0 3 = None).
Proof. split; [reflexivity|]. intros fuel. reflexivity. Qed.
Print Assumptions C14_infinity_refuted.

Example C14_nonvacuous : total_order Nat.leb /\ Nat.leb 100 0 = false /\
  qsort Nat.leb 0 100 0 (partition_naive Nat.leb 0) 20 [5; 3; 9; 3; 1; 7; 5; 0; 2] 0 9 = Some [0; 1; 2; 3; 3; 5; 5; 7; 9].
Proof.
  split; [|split; vm_compute; reflexivity]. split.
  - intros a b. rewrite !Nat.leb_le. lia.
  - intros a b c. rewrite !Nat.leb_le. lia.
Qed.
