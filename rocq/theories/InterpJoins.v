From Coq Require Import NArith ZArith QArith List Bool Arith Lia Permutation Sorted.
From Verif Require Import Word WordProofs Interp InterpSpec InterpProofs.
Import ListNotations.

Section Rows.
Context {R : Type}.
Implicit Types (b : @block R) (sts : list (@state R)) (k : @cont R).

(** ** Nested loops *)
Section NL.
Context (k : @cont R) (p : option (list R -> option bool)) (cat : list R -> R) (bufs : list (list R)) (b : @block R).
Definition nl_blocks (lp : list R) (suf : list (list R)) : list (@block R) := filter nonempty (map (fun x => nl_combine p cat b (lp ++ x)) (product suf)).
Lemma nl_blocks_cons lp l suf : nl_blocks lp (l :: suf) = flat_map (fun x => nl_blocks (lp ++ [x]) suf) l.
Proof.
  unfold nl_blocks. cbn [product]. induction l as [|x l IH]; cbn [flat_map]; [reflexivity|]. rewrite map_app, filter_app, IH. f_equal. f_equal. rewrite map_map. apply map_ext. intros y. rewrite <- app_assoc. reflexivity.
Qed.
Lemma upd_nat_mid pp j z q : upd_nat (pp ++ j :: z) (length pp) q = pp ++ q :: z.
Proof. induction pp as [|x pp IH]; cbn; [reflexivity|]. rewrite IH. reflexivity. Qed.
Lemma nth_mid {A} (pp : list A) j z d : nth (length pp) (pp ++ j :: z) d = j.
Proof. induction pp as [|x pp IH]; cbn; [reflexivity|]. exact IH. Qed.
Lemma selected_snoc pre : forall pp (lp : list R) l j (x : R), selected pre pp = Some lp -> nth_error l j = Some x -> selected (pre ++ [l]) (pp ++ [S j]) = Some (lp ++ [x]).
Proof.
  induction pre as [|a pre IH]; intros [|q pp] lp l j x H Hx; cbn in *; try discriminate.
  - injection H as <-. rewrite Hx. reflexivity.
  - destruct q as [|q]; [discriminate|]. destruct (nth_error a q); [|discriminate]. destruct (selected pre pp) as [rs|] eqn:E; [|discriminate]. injection H as <-. rewrite (IH _ _ _ _ _ E Hx). reflexivity.
Qed.
Definition ret (c : nat) (f : nat) (pos : list nat) sts : option (list (@state R) * bool) := match c with O => Some (sts, false) | S c' => nl_loop k p cat bufs b f c' pos sts end.
Definition zeros (bs : list (list R)) : list nat := map (fun _ => 0%nat) bs.
Lemma nl_suffix suf : forall pre pp lp f sts, bufs = pre ++ suf -> length pp = length pre -> selected pre pp = Some lp -> (0 < length pre)%nat \/ suf <> [] ->
  nl_loop k p cat bufs b (nl_fuel suf + f) (length pre) (pp ++ zeros suf) sts
  = match feed k sts (nl_blocks lp suf) with Some (sts', false) => ret (length pre) f (pp ++ zeros suf) sts' | x => x end.
Proof.
  induction suf as [|l suf IH]; intros pre pp lp f sts HB HL HS HN.
  - cbn [nl_fuel zeros map Nat.add]. rewrite !app_nil_r in *. cbn [nl_loop]. rewrite HB, Nat.eqb_refl, HS.
    unfold nl_blocks. cbn [product map filter]. rewrite app_nil_r. unfold nonempty. destruct HN as [HN|HN]; [|congruence].
    destruct (length pre) as [|c] eqn:EL; [lia|]. destruct (N.eqb (bmask (nl_combine p cat b lp)) 0); cbn [negb feed]; [rewrite <- HB; reflexivity|].
    destruct (k sts (nl_combine p cat b lp)) as [[[sts' b'] [|]]|]; [reflexivity|rewrite <- HB; reflexivity|reflexivity].
  - cbn [zeros map nl_fuel]. fold (zeros suf). rewrite nl_blocks_cons.
    assert (G : forall todo done sts, l = done ++ todo ->
      nl_loop k p cat bufs b (length todo * S (nl_fuel suf) + 1 + f) (length pre) (pp ++ length done :: zeros suf) sts
      = match feed k sts (flat_map (fun x => nl_blocks (lp ++ [x]) suf) todo) with Some (sts', false) => ret (length pre) f (pp ++ 0%nat :: zeros suf) sts' | x => x end).
    { assert (Hlt : Nat.eqb (length pre) (length bufs) = false) by (apply Nat.eqb_neq; rewrite HB, app_length; cbn; lia).
      assert (Hnth : nth (length pre) bufs [] = l) by (rewrite HB; apply nth_mid).
      induction todo as [|x todo IHt]; intros done sts' E.
      - cbn [length Nat.mul Nat.add]. cbn [nl_loop]. rewrite Hlt. rewrite Hnth. rewrite <- HL. rewrite nth_mid, upd_nat_mid. rewrite app_nil_r in E. rewrite E.
        rewrite Nat.eqb_refl. cbn [flat_map feed]. rewrite upd_nat_mid. unfold ret. destruct (length pp); reflexivity.
      - cbn [length]. replace (S (length todo) * S (nl_fuel suf) + 1 + f)%nat with (S (nl_fuel suf + (length todo * S (nl_fuel suf) + 1 + f)))%nat by lia.
        cbn [nl_loop]. rewrite Hlt, Hnth. rewrite <- HL. rewrite nth_mid, upd_nat_mid.
        assert (L : length l = (length done + S (length todo))%nat) by (rewrite E, app_length; reflexivity).
        rewrite (proj2 (Nat.eqb_neq (S (length done)) (S (length l)))) by lia. rewrite (proj2 (Nat.ltb_lt (S (length done)) (S (length l)))) by lia.
        cbn [flat_map]. rewrite feed_app. rewrite HL.
        assert (Hx : nth_error l (length done) = Some x) by (rewrite E, nth_error_app2, Nat.sub_diag by lia; reflexivity).
        specialize (IH (pre ++ [l]) (pp ++ [S (length done)]) (lp ++ [x]) (length todo * S (nl_fuel suf) + 1 + f)%nat sts').
        rewrite !app_length in IH. cbn [length] in IH. rewrite (Nat.add_1_r (length pre)), (Nat.add_1_r (length pp)) in IH. rewrite <- !app_assoc in IH. cbn [app] in IH.
        rewrite IH; [|rewrite HB; reflexivity|lia|apply selected_snoc; assumption|left; lia].
        destruct (feed k sts' (nl_blocks (lp ++ [x]) suf)) as [[sts'' [|]]|]; [reflexivity| |reflexivity]. cbn [ret].
        specialize (IHt (done ++ [x]) sts''). rewrite app_length in IHt. cbn [length] in IHt. rewrite (Nat.add_1_r (length done)) in IHt. rewrite IHt by (rewrite E, <- app_assoc; reflexivity). reflexivity. }
    specialize (G l [] sts eq_refl). cbn [length] in G. rewrite G. reflexivity.
Qed.
Lemma nested_loops_eq sts : bufs <> [] -> nested_loops k p cat bufs b sts = feed k sts (nl_blocks [] bufs).
Proof.
  intros H. unfold nested_loops. replace (S (nl_fuel bufs)) with (nl_fuel bufs + 1)%nat by lia.
  pose proof (nl_suffix bufs [] [] [] 1 sts eq_refl eq_refl eq_refl (or_intror H)) as E. cbn [length app ret] in E. unfold zeros in E. rewrite E.
  destruct (feed k sts (nl_blocks [] bufs)) as [[sts' [|]]|]; reflexivity.
Qed.
Definition nl_keep (ls : list R) (r : R) : bool := match p with None => true | Some q => is_true (q (ls ++ [r])) end.
Lemma nl_combine_tuples ls : tuples (nl_combine p cat b ls) = map (fun r => cat (ls ++ [r])) (filter (nl_keep ls) (tuples b)).
Proof.
  unfold nl_combine. apply (tuples_gen (g := fun r => cat (ls ++ [r])) (nl_keep ls)). apply fold_left_ext. intros m i. unfold nl_keep, is_true.
  destruct (bdata b i); [|reflexivity]. destruct p; [|reflexivity]. destruct (o _) as [[|]|]; reflexivity.
Qed.
Lemma nl_combine_bok ls : bok b -> bok (nl_combine p cat b ls).
Proof.
  intros H. destruct (bok_drop (nl_keep ls) b H) as [W D]. unfold drop_unless, with_mask in *; cbn [bdata bmask] in *.
  assert (E : bmask (nl_combine p cat b ls) = fold_left (fun m i => match bdata b i with Some r => if nl_keep ls r then m else N.clearbit m i | None => m end) (elems (bmask b)) (bmask b)).
  { unfold nl_combine; cbn [bmask]. apply fold_left_ext. intros m i. unfold nl_keep, is_true. destruct (bdata b i); [|reflexivity]. destruct p; [|reflexivity]. destruct (o _) as [[|]|]; reflexivity. }
  split; [rewrite E; exact W|]. intros i Hi. rewrite E in Hi. specialize (D i Hi). cbn. destruct (bdata b i); congruence.
Qed.
End NL.

Context (shuffle : forall A : Type, list A -> list A).
Context (shuffle_perm : forall A (l : list A), Permutation (shuffle A l) l).
Notation push := (push shuffle).

Lemma feed_last p cat bufs fs s bs : bufs <> [] -> forall sts,
  feed (push (FLast p cat bufs :: fs)) (s :: sts) bs = lift s (feed (push fs) sts (flat_map (fun b => nl_blocks p cat b [] bufs) bs)).
Proof.
  intros HB. induction bs as [|b bs IH]; intros sts; cbn [feed flat_map]; [reflexivity|]. rewrite feed_app. cbn [Interp.push hd tl Interp.step].
  rewrite nested_loops_eq by exact HB. destruct (feed (push fs) sts (nl_blocks p cat b [] bufs)) as [[sts' [|]]|]; cbn [lift]; [reflexivity|apply IH|reflexivity].
Qed.
Lemma product_snoc (bufs : list (list R)) l : product (bufs ++ [l]) = flat_map (fun ls => map (fun x => ls ++ [x]) l) (product bufs).
Proof.
  induction bufs as [|a bufs IH]; cbn [app product].
  - cbn. rewrite app_nil_r. induction l as [|x l IH]; cbn; [reflexivity|]. rewrite IH. reflexivity.
  - rewrite IH. clear IH. induction a as [|x a IH]; cbn [flat_map]; [reflexivity|]. rewrite flat_map_app, IH. f_equal.
    clear IH. induction (product bufs) as [|y l' IH]; cbn; [reflexivity|]. rewrite map_app, IH, map_map. reflexivity.
Qed.
Lemma flat_map_perm_ext {A B} (f g : A -> list B) l : (forall x, In x l -> Permutation (f x) (g x)) -> Permutation (flat_map f l) (flat_map g l).
Proof.
  induction l as [|x l IH]; intros H; cbn; [constructor|]. apply Permutation_app; [apply H; left; reflexivity|apply IH; intros y Hy; apply H; right; exact Hy].
Qed.
Lemma flat_map_app_perm {A B} (f g : A -> list B) l : Permutation (flat_map (fun x => f x ++ g x) l) (flat_map f l ++ flat_map g l).
Proof.
  induction l as [|x l IH]; cbn; [constructor|]. rewrite IH. rewrite <- !app_assoc. apply Permutation_app_head. rewrite !app_assoc. apply Permutation_app_tail. apply Permutation_app_comm.
Qed.
Lemma flat_map_swap {A B C} (f : A -> B -> list C) l l' : Permutation (flat_map (fun x => flat_map (f x) l') l) (flat_map (fun y => flat_map (fun x => f x y) l) l').
Proof.
  induction l as [|x l IH]; cbn.
  - induction l' as [|y l' IH]; cbn; [constructor|exact IH].
  - rewrite IH. clear IH. symmetry. apply flat_map_app_perm.
Qed.
Lemma filter_flat_map {A B} (f : A -> list B) q l : filter q (flat_map f l) = flat_map (fun x => filter q (f x)) l.
Proof. induction l as [|x l IH]; cbn; [reflexivity|]. rewrite filter_app, IH. reflexivity. Qed.
Lemma filter_map_comm {A B} (f : A -> B) q l : filter q (map f l) = map f (filter (fun x => q (f x)) l).
Proof. induction l as [|x l IH]; cbn; [reflexivity|]. destruct (q (f x)); cbn; rewrite IH; reflexivity. Qed.
Lemma map_flat_map {A B C} (f : A -> list B) (g : B -> C) l : map g (flat_map f l) = flat_map (fun x => map g (f x)) l.
Proof. induction l as [|x l IH]; cbn; [reflexivity|]. rewrite map_app, IH. reflexivity. Qed.
Lemma flat_map_flat_map {A B C} (f : A -> list B) (g : B -> list C) l : flat_map g (flat_map f l) = flat_map (fun x => flat_map g (f x)) l.
Proof. induction l as [|x l IH]; cbn; [reflexivity|]. rewrite flat_map_app, IH. reflexivity. Qed.
Lemma flat_map_single {A B} (f : A -> B) l : flat_map (fun x => [f x]) l = map f l.
Proof. induction l as [|x l IH]; cbn; [reflexivity|]. rewrite IH. reflexivity. Qed.
Lemma flat_map_map {A B C} (f : A -> B) (g : B -> list C) l : flat_map g (map f l) = flat_map (fun x => g (f x)) l.
Proof. induction l as [|x l IH]; cbn; [reflexivity|]. rewrite IH. reflexivity. Qed.

Definition jtest (q : option (list R -> option bool)) (rs : list R) : bool := match q with None => true | Some q => is_true (q rs) end.
Lemma last_tuples p cat bufs bs : Forall bok bs ->
  Forall bok (flat_map (fun b => nl_blocks p cat b [] bufs) bs) /\
  Permutation (flat_map tuples (flat_map (fun b => nl_blocks p cat b [] bufs) bs)) (map cat (filter (jtest p) (product (bufs ++ [flat_map tuples bs])))).
Proof.
  intros Hb. assert (B : forall b, bok b -> Forall bok (map (fun x => nl_combine p cat b ([] ++ x)) (product bufs))).
  { intros b H. apply Forall_map. apply Forall_forall. intros x _. apply nl_combine_bok, H. }
  split.
  - apply Forall_flat_map. eapply Forall_impl; [|exact Hb]. intros b H. apply Forall_filter. apply B, H.
  - rewrite flat_map_flat_map.
    assert (E : flat_map (fun b => flat_map tuples (nl_blocks p cat b [] bufs)) bs = flat_map (fun b => flat_map (fun ls => map (fun r => cat (ls ++ [r])) (filter (nl_keep p ls) (tuples b))) (product bufs)) bs).
    { rewrite !flat_map_concat_map. f_equal. apply map_ext_in. intros b Hin. unfold nl_blocks. rewrite tuples_nonempty by (apply B; rewrite Forall_forall in Hb; apply Hb, Hin).
      rewrite flat_map_map. apply flat_map_ext. intros ls. cbn [app]. apply nl_combine_tuples. }
    rewrite E. rewrite flat_map_swap. rewrite product_snoc, filter_flat_map, map_flat_map. apply flat_map_perm_ext. intros ls _.
    rewrite filter_map_comm, map_map.
    change (fun x => jtest p (ls ++ [x])) with (nl_keep p ls). rewrite filter_flat_map, map_flat_map. reflexivity.
Qed.

(** ** Hash join: probing *)
Section Probe.
Context (k : @cont R) (K : keeps k).
Fixpoint pm (ms : list R) (join : R -> R) b (i : N) : list (@block R) * @block R * N :=
  match ms with
  | [] => ([], b, i)
  | m :: ms' => if N.eqb i 64 then let '(e, b', i') := pm ms' join (bupd b 0 (join m)) 1 in (b :: e, b', i')
                else pm ms' join (bupd b i (join m)) (i + 1)%N
  end.
Lemma probe_matches_eq ms join : forall b i sts e b' i', bmask b = all_ones -> (i <= 64)%N -> pm ms join b i = (e, b', i') ->
  match feed k sts e with
  | None => probe_matches k ms join sts b i = None
  | Some (sts', true) => exists b'' i'', probe_matches k ms join sts b i = Some (sts', b'', i'', true)
  | Some (sts', false) => probe_matches k ms join sts b i = Some (sts', b', i', false)
  end.
Proof.
  assert (T : forall i, (i < 64)%N -> ((i <? 64)%N && N.testbit all_ones i) = true).
  { intros i Hi. apply andb_true_intro; split; [apply N.ltb_lt; exact Hi|apply N.ones_spec_low; exact Hi]. }
  induction ms as [|m ms IH]; intros b i sts e b' i' Hm Hi Hpm.
  - cbn in Hpm. injection Hpm as <- <- <-. reflexivity.
  - cbn [pm] in Hpm. cbn [probe_matches]. destruct (N.eqb_spec i 64) as [->|Hne].
    + destruct (pm ms join (bupd b 0 (join m)) 1) as [[e0 b0] i0] eqn:E. injection Hpm as <- <- <-. cbn [feed].
      destruct (k sts b) as [[[sts' b1] [|]]|] eqn:Ek; [eauto| |reflexivity].
      apply K in Ek as ->. rewrite Hm, T by lia. apply (IH (bupd b 0 (join m)) (0 + 1)%N sts' e0 b0 i0); [exact Hm|lia|exact E].
    + rewrite Hm, T by lia. apply IH; [exact Hm|lia|exact Hpm].
Qed.
Definition pend b (i : N) : list R := flat_map (fun j => opt_list (bdata b (N.of_nat j))) (seq 0 (N.to_nat i)).
Definition full b (i : N) : Prop := forall j, (j < i)%N -> bdata b j <> None.
Lemma pend_upd b i r : pend (bupd b i r) (i + 1)%N = pend b i ++ [r].
Proof.
  unfold pend. rewrite N2Nat.inj_add. rewrite seq_app, flat_map_app. f_equal.
  - rewrite !flat_map_concat_map. f_equal. apply map_ext_in. intros j Hj. apply in_seq in Hj. cbn [bdata bupd]. destruct (N.eqb_spec (N.of_nat j) i); [lia|reflexivity].
  - change (N.to_nat 1) with 1%nat. cbn [seq flat_map bdata bupd Nat.add]. rewrite N2Nat.id, N.eqb_refl. reflexivity.
Qed.
Lemma full_upd b i r : full b i -> full (bupd b i r) (i + 1)%N.
Proof. intros H j Hj. cbn. destruct (N.eqb_spec j i); [congruence|]. apply H. lia. Qed.
Lemma pend_tuples b i m : full b i -> (i <= 64)%N -> m = N.ones i -> tuples (with_mask b m) = pend b i /\ bok (with_mask b m).
Proof.
  intros F Hi ->. unfold tuples, bok, with_mask, pend; cbn [bdata bmask]. rewrite <- (N2Nat.id i). rewrite elems_low by lia. rewrite flat_map_map, Nat2N.id. split; [reflexivity|].
  split; [apply ones_W64; lia|]. intros j Hj. apply in_map_iff in Hj as [x [<- Hx]]. apply in_seq in Hx. apply F. lia.
Qed.
Lemma with_mask_id b : with_mask b (bmask b) = b.
Proof. destruct b; reflexivity. Qed.
Lemma pm_rows ms join : forall b i e b' i', bmask b = all_ones -> (i <= 64)%N -> full b i -> pm ms join b i = (e, b', i') ->
  bmask b' = all_ones /\ (i' <= 64)%N /\ full b' i' /\ Forall bok e /\ flat_map tuples e ++ pend b' i' = pend b i ++ map join ms.
Proof.
  induction ms as [|m ms IH]; intros b i e b' i' Hm Hi F Hpm; cbn [pm] in Hpm.
  - injection Hpm as <- <- <-. cbn. rewrite app_nil_r. auto.
  - destruct (N.eqb_spec i 64) as [->|Hne].
    + destruct (pm ms join (bupd b 0 (join m)) 1) as [[e0 b0] i0] eqn:E. injection Hpm as <- <- <-.
      destruct (IH (bupd b 0 (join m)) (0 + 1)%N e0 b0 i0) as [A [B [C [D G]]]]; [exact Hm|lia|apply full_upd; intros j Hj; lia|exact E|].
      destruct (pend_tuples b 64 (bmask b) F ltac:(lia) Hm) as [Tu Bo]. rewrite with_mask_id in Tu, Bo.
      split; [exact A|]. split; [exact B|]. split; [exact C|]. split; [constructor; assumption|]. cbn [flat_map]. rewrite <- app_assoc, G, Tu, pend_upd. reflexivity.
    + destruct (IH (bupd b i (join m)) (i + 1)%N e b' i') as [A [B [C [D G]]]]; [exact Hm|lia|apply full_upd, F|exact Hpm|].
      repeat (split; [assumption|]). rewrite G, pend_upd, <- app_assoc. reflexivity.
Qed.
Context (ks : list (R -> option datum)) (cat : list R -> R) (ht : list (list (option datum) * R)).
Definition matches (t : R) : list R := map snd (filter (fun e => key_same (fst e) (map (fun e => e t) ks)) (shuffle _ ht)).
Fixpoint pa (ts : list R) b (i : N) : list (@block R) * @block R * N :=
  match ts with
  | [] => ([], b, i)
  | t :: ts' => let '(e, b', i') := pm (matches t) (fun m => cat [m; t]) (with_mask b all_ones) i in
                let '(e', b'', i'') := pa ts' b' i' in (e ++ e', b'', i'')
  end.
Lemma probe_all_eq ts : forall b i sts e b' i', (i <= 64)%N -> full b i -> pa ts b i = (e, b', i') ->
  match feed k sts e with
  | None => probe_all shuffle k ks cat ht ts sts b i = None
  | Some (sts', true) => exists b'' i'', probe_all shuffle k ks cat ht ts sts b i = Some (sts', b'', i'', true)
  | Some (sts', false) => probe_all shuffle k ks cat ht ts sts b i = Some (sts', b', i', false)
  end.
Proof.
  induction ts as [|t ts IH]; intros b i sts e b' i' Hi F Hpa; cbn [pa] in Hpa.
  - injection Hpa as <- <- <-. reflexivity.
  - cbn [probe_all]. fold (matches t). destruct (pm (matches t) (fun m => cat [m; t]) (with_mask b all_ones) i) as [[e0 b0] i0] eqn:E0.
    destruct (pa ts b0 i0) as [[e1 b1] i1] eqn:E1. injection Hpa as <- <- <-. rewrite feed_app.
    pose proof (probe_matches_eq _ _ (with_mask b all_ones) i sts _ _ _ eq_refl Hi E0) as P.
    destruct (pm_rows _ _ (with_mask b all_ones) i _ _ _ eq_refl Hi F E0) as [_ [Hi0 [F0 _]]].
    destruct (feed k sts e0) as [[sts' [|]]|].
    + destruct P as [b'' [i'' ->]]. eauto.
    + rewrite P. apply IH; assumption.
    + rewrite P. reflexivity.
Qed.
Lemma pa_rows ts : forall b i e b' i', (i <= 64)%N -> full b i -> pa ts b i = (e, b', i') ->
  (i' <= 64)%N /\ full b' i' /\ Forall bok e /\ flat_map tuples e ++ pend b' i' = pend b i ++ flat_map (fun t => map (fun m => cat [m; t]) (matches t)) ts.
Proof.
  induction ts as [|t ts IH]; intros b i e b' i' Hi F Hpa; cbn [pa] in Hpa.
  - injection Hpa as <- <- <-. cbn. rewrite app_nil_r. auto.
  - destruct (pm (matches t) (fun m => cat [m; t]) (with_mask b all_ones) i) as [[e0 b0] i0] eqn:E0.
    destruct (pa ts b0 i0) as [[e1 b1] i1] eqn:E1. injection Hpa as <- <- <-.
    destruct (pm_rows _ _ (with_mask b all_ones) i _ _ _ eq_refl Hi F E0) as [_ [Hi0 [F0 [B0 G0]]]]. destruct (IH _ _ _ _ _ Hi0 F0 E1) as [A [B [C D]]].
    split; [exact A|]. split; [exact B|]. split; [apply Forall_app; auto|]. rewrite flat_map_app, <- app_assoc, D. rewrite app_assoc, G0. cbn [flat_map]. rewrite <- app_assoc. reflexivity.
Qed.
Definition probe_blocks (ts : list R) : list (@block R) :=
  let '(e, b, i) := pa ts (load [] 0) 0 in e ++ (if N.eqb i 0 then [] else [with_mask b (if N.eqb i 64 then all_ones else low_ones i)]).
Lemma probe_eq ts sts : probe shuffle k ks cat ht ts sts = feed k sts (probe_blocks ts).
Proof.
  unfold probe, probe_blocks. destruct (pa ts (load [] 0) 0) as [[e b] i] eqn:E. rewrite feed_app.
  assert (F : full (load (@nil R) 0) 0) by (intros j Hj; lia).
  pose proof (probe_all_eq ts _ 0%N sts _ _ _ ltac:(lia) F E) as P.
  destruct (feed k sts e) as [[sts' [|]]|].
  - destruct P as [b'' [i'' ->]]. reflexivity.
  - rewrite P. destruct (N.eqb i 0); [reflexivity|]. cbn [feed]. destruct (k sts' _) as [[[sts'' b''] [|]]|]; reflexivity.
  - rewrite P. reflexivity.
Qed.
Lemma probe_rows ts : Forall bok (probe_blocks ts) /\ flat_map tuples (probe_blocks ts) = flat_map (fun t => map (fun m => cat [m; t]) (matches t)) ts.
Proof.
  unfold probe_blocks. destruct (pa ts (load [] 0) 0) as [[e b] i] eqn:E.
  assert (F0 : full (load (@nil R) 0) 0) by (intros j Hj; lia).
  destruct (pa_rows ts _ 0%N _ _ _ ltac:(lia) F0 E) as [Hi [F [B G]]].
  destruct (N.eqb_spec i 0) as [->|Hne].
  - rewrite app_nil_r. split; [exact B|]. cbn in G. rewrite app_nil_r in G. exact G.
  - assert (M : (if N.eqb i 64 then all_ones else low_ones i) = N.ones i). { destruct (N.eqb_spec i 64) as [->|H64]; [reflexivity|apply low_ones_ones; lia]. }
    destruct (pend_tuples b i _ F Hi M) as [Tu Bo]. split; [apply Forall_app; split; [exact B|constructor; [exact Bo|constructor]]|].
    rewrite flat_map_app. cbn [flat_map]. rewrite app_nil_r, Tu. exact G.
Qed.
End Probe.
Lemma feed_probe ks cat ht fs s bs : keeps (push fs) -> forall sts,
  feed (push (FProbe ks cat ht :: fs)) (s :: sts) bs = lift s (feed (push fs) sts (flat_map (fun b => probe_blocks ks cat ht (tuples b)) bs)).
Proof.
  intros K. induction bs as [|b bs IH]; intros sts; cbn [feed flat_map]; [reflexivity|]. rewrite feed_app. cbn [Interp.push hd tl Interp.step].
  rewrite probe_eq by exact K. destruct (feed (push fs) sts (probe_blocks ks cat ht (tuples b))) as [[sts' [|]]|]; cbn [lift]; [reflexivity|apply IH|reflexivity].
Qed.
Lemma probe_all_blocks ks cat ht bs : 
  Forall bok (flat_map (fun b => probe_blocks ks cat ht (tuples b)) bs) /\
  flat_map tuples (flat_map (fun b => probe_blocks ks cat ht (tuples b)) bs) = flat_map (fun t => map (fun m => cat [m; t]) (matches ks ht t)) (flat_map tuples bs).
Proof.
  split.
  - apply Forall_flat_map. apply Forall_forall. intros b _. apply probe_rows.
  - rewrite !flat_map_flat_map. apply flat_map_ext. intros b. apply probe_rows.
Qed.
End Rows.
