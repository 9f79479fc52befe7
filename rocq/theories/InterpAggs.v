From Coq Require Import NArith ZArith QArith List Bool Arith Lia Permutation Sorted Field.
From Verif Require Import Word WordProofs Interp InterpSpec InterpProofs.
Import ListNotations.

Section Rows.
Context {R : Type}.
Implicit Types (a : @agg R) (l : list R) (c : option datum).

Definition aval a c l : option datum := fst (fold_left (fun '(c, n) r => (agg_step a (n + 1)%N r c, (n + 1)%N)) l (c, 0%N)).
Lemma afold_snd a l : forall c n, snd (fold_left (fun '(c, n) r => (agg_step a (n + 1)%N r c, (n + 1)%N)) l (c, n)) = (n + N.of_nat (length l))%N.
Proof. induction l as [|r l IH]; intros c n; cbn [fold_left length]; [cbn; lia|]. rewrite IH. lia. Qed.
Lemma aval_snoc a c l r : aval a c (l ++ [r]) = agg_step a (N.of_nat (length l) + 1)%N r (aval a c l).
Proof.
  unfold aval. rewrite fold_left_app. cbn [fold_left]. pose proof (afold_snd a l c 0%N) as E. destruct (fold_left _ l (c, 0%N)) as [c' n]. cbn in E. subst n. reflexivity.
Qed.
Lemma aggs_step_map (aggs : list (@agg R)) n r (g : @agg R -> option datum) : aggs_step aggs n r (map g aggs) = map (fun a => agg_step a n r (g a)) aggs.
Proof. induction aggs as [|a aggs IH]; cbn; [reflexivity|]. rewrite IH. reflexivity. Qed.
Lemma aggregate_fold (aggs : list (@agg R)) (g : @agg R -> option datum) l :
  fold_left (fun '(cs, n) t => (aggs_step aggs (n + 1)%N t cs, (n + 1)%N)) l (map g aggs, 0%N) = (map (fun a => aval a (g a) l) aggs, N.of_nat (length l)).
Proof.
  induction l as [|r l IH] using rev_ind; [reflexivity|]. rewrite fold_left_app, IH. cbn [fold_left]. rewrite aggs_step_map, app_length. cbn [length]. f_equal; [|lia].
  apply map_ext. intros a. rewrite aval_snoc. reflexivity.
Qed.

(** ** Integers *)
Lemma wrap_i_add x y : wrap_i (wrap_i x + y) = wrap_i (x + y).
Proof.
  unfold wrap_i. f_equal. replace ((x + 2 ^ 63) mod 2 ^ 64 - 2 ^ 63 + y + 2 ^ 63)%Z with ((x + 2 ^ 63) mod 2 ^ 64 + y)%Z by lia. rewrite Zplus_mod_idemp_l. f_equal. lia.
Qed.
Lemma wrap_i_int64 n : int64_of n (Some (DInt (wrap_i n))).
Proof.
  exists (wrap_i n). split; [reflexivity|]. unfold wrap_i. pose proof (Z.mod_pos_bound (n + 2 ^ 63) (2 ^ 64) ltac:(lia)). split; [lia|].
  exists (- ((n + 2 ^ 63) / 2 ^ 64))%Z. pose proof (Z.div_mod (n + 2 ^ 63) (2 ^ 64) ltac:(lia)). lia.
Qed.
Lemma somes_snoc {A} (l : list (option A)) x : somes (l ++ [x]) = somes l ++ opt_list x.
Proof. unfold somes. rewrite flat_map_app. cbn [flat_map]. rewrite app_nil_r. destruct x; reflexivity. Qed.
Lemma sum_Z_app (l1 l2 : list Z) : sum_Z (l1 ++ l2) = (sum_Z l1 + sum_Z l2)%Z.
Proof. induction l1 as [|x l1 IH]; cbn; [reflexivity|]. unfold sum_Z in *. lia. Qed.
Lemma sum_Q_app (l1 l2 : list Q) : (sum_Q (l1 ++ l2) == sum_Q l1 + sum_Q l2)%Q.
Proof. unfold sum_Q. induction l1 as [|x l1 IH]; cbn [app fold_right]; [ring|]. rewrite IH. ring. Qed.
Lemma match_snoc {A B} (l : list A) x (u v : B) : match l ++ [x] with [] => u | _ => v end = v.
Proof. destruct l; reflexivity. Qed.
Lemma aval_count c l : as_i c = 0%Z -> aval CountAll c l = match l with [] => c | _ => Some (DInt (wrap_i (Z.of_nat (length l)))) end.
Proof.
  intros H. induction l as [|r l IH] using rev_ind; [reflexivity|]. rewrite aval_snoc, IH, match_snoc, app_length. cbn [agg_step length]. do 2 f_equal.
  replace (Z.of_nat (length l + 1)) with (Z.of_nat (length l) + 1)%Z by lia.
  destruct l as [|r' l]; [rewrite H; reflexivity|]. cbn [as_i]. apply wrap_i_add.
Qed.
Lemma aval_countf f c l : as_i c = 0%Z -> aval (Count f) c l = match l with [] => c | _ => Some (DInt (wrap_i (Z.of_nat (length (somes (map f l)))))) end.
Proof.
  intros H. induction l as [|r l IH] using rev_ind; [reflexivity|]. rewrite aval_snoc, IH, match_snoc, map_app. cbn [map]. rewrite somes_snoc, app_length. cbn [agg_step]. do 2 f_equal.
  replace (Z.of_nat (length (somes (map f l)) + length (opt_list (f r)))) with (Z.of_nat (length (somes (map f l))) + match f r with Some _ => 1 | None => 0 end)%Z by (destruct (f r); cbn [opt_list length]; lia).
  destruct l as [|r' l]; [rewrite H; reflexivity|]. cbn [as_i]. apply wrap_i_add.
Qed.
Lemma aval_sumi f c l : as_i c = 0%Z -> aval (SumI f) c l = match l with [] => c | _ => Some (DInt (wrap_i (sum_Z (somes (map f l))))) end.
Proof.
  intros H. induction l as [|r l IH] using rev_ind; [reflexivity|]. rewrite aval_snoc, IH, match_snoc, map_app. cbn [map]. rewrite somes_snoc, sum_Z_app. cbn [agg_step].
  destruct (f r) as [x|]; cbn [opt_list sum_Z fold_right].
  - do 2 f_equal. rewrite Z.add_0_r. destruct l as [|r' l]; [rewrite H; reflexivity|]. cbn [as_i]. apply wrap_i_add.
  - do 2 f_equal. rewrite Z.add_0_r. destruct l as [|r' l]; [rewrite H; reflexivity|]. reflexivity.
Qed.
Lemma aval_sumd f c l : (as_d c == 0)%Q -> match l with [] => aval (SumD f) c l = c | _ => exists q, aval (SumD f) c l = Some (DReal q) /\ (q == sum_Q (somes (map f l)))%Q end.
Proof.
  intros H. induction l as [|r l IH] using rev_ind; [reflexivity|]. rewrite match_snoc.
  assert (E : (as_d (aval (SumD f) c l) == sum_Q (somes (map f l)))%Q). { destruct l as [|r' l]; [rewrite IH; exact H|]. destruct IH as [q [-> IH]]. exact IH. }
  rewrite aval_snoc, map_app. cbn [map agg_step]. destruct (f r) as [x|] eqn:Ef.
  - eexists. split; [reflexivity|]. rewrite somes_snoc, sum_Q_app, E. unfold sum_Q; cbn [opt_list fold_right]. ring.
  - eexists. split; [reflexivity|]. rewrite somes_snoc, sum_Q_app, E. unfold sum_Q; cbn [opt_list fold_right]. ring.
Qed.
Lemma aval_avg f c l : (as_d c == 0)%Q -> Forall (fun r => f r <> None) l ->
  length (somes (map f l)) = length l /\ (as_d (aval (Avg f) c l) * inject_Z (Z.of_nat (length l)) == sum_Q (somes (map f l)))%Q /\ (l <> [] -> exists q, aval (Avg f) c l = Some (DReal q)).
Proof.
  intros H. induction l as [|r l IH] using rev_ind; intros HF.
  - split; [reflexivity|]. split; [|congruence]. change (aval (Avg f) c []) with c. change (inject_Z (Z.of_nat (length (@nil R)))) with (inject_Z 0). rewrite H. unfold sum_Q; cbn. reflexivity.
  - apply Forall_app in HF as [HF Hr]. inversion Hr as [|? ? Hx _]; subst. destruct (IH HF) as [L [E _]]. rewrite aval_snoc, map_app, app_length. cbn [map agg_step length].
    destruct (f r) as [x|] eqn:Ef; [|congruence]. rewrite somes_snoc, app_length. cbn [opt_list length]. split; [lia|]. split; [|eauto].
    rewrite sum_Q_app, <- E. unfold sum_Q; cbn [fold_right as_d]. replace (Z.of_N (N.of_nat (length l) + 1)) with (Z.of_nat (length l) + 1)%Z by lia. replace (Z.of_nat (length l + 1)) with (Z.of_nat (length l) + 1)%Z by lia.
    rewrite inject_Z_plus. set (n := inject_Z (Z.of_nat (length l))). set (v := as_d (aval (Avg f) c l)). assert (HN : ~ (n + inject_Z 1 == 0)%Q) by (unfold n, Qeq; cbn; lia). clearbody n v. field. exact HN.
Qed.
Lemma aval_mini f l : extreme DInt Z.lt (somes (map f l)) (aval (MinI f) None l).
Proof.
  induction l as [|r l IH] using rev_ind; [left; auto|]. rewrite aval_snoc, map_app. cbn [map agg_step]. rewrite somes_snoc.
  destruct (f r) as [x|]; cbn [opt_list]; [|rewrite app_nil_r; exact IH].
  right. destruct IH as [[-> ->]|[z [-> [Hin Hz]]]].
  - exists x. split; [reflexivity|]. split; [left; reflexivity|]. intros y [<-|[]]. lia.
  - exists (Z.min z x). cbn [as_i]. split; [reflexivity|]. split.
    + rewrite in_app_iff. destruct (Z.min_spec z x) as [[_ ->]|[_ ->]]; [left; exact Hin|right; left; reflexivity].
    + intros y Hy. apply in_app_iff in Hy as [Hy|[<-|[]]]; [specialize (Hz y Hy)|]; lia.
Qed.
Lemma aval_maxi f l : extreme DInt (fun x y => (y < x)%Z) (somes (map f l)) (aval (MaxI f) None l).
Proof.
  induction l as [|r l IH] using rev_ind; [left; auto|]. rewrite aval_snoc, map_app. cbn [map agg_step]. rewrite somes_snoc.
  destruct (f r) as [x|]; cbn [opt_list]; [|rewrite app_nil_r; exact IH].
  right. destruct IH as [[-> ->]|[z [-> [Hin Hz]]]].
  - exists x. split; [reflexivity|]. split; [left; reflexivity|]. intros y [<-|[]]. lia.
  - exists (Z.max z x). cbn [as_i]. split; [reflexivity|]. split.
    + rewrite in_app_iff. destruct (Z.max_spec z x) as [[_ ->]|[_ ->]]; [right; left; reflexivity|left; exact Hin].
    + intros y Hy. apply in_app_iff in Hy as [Hy|[<-|[]]]; [specialize (Hz y Hy)|]; lia.
Qed.
Lemma aval_mind f l : extreme DReal Qlt (somes (map f l)) (aval (MinD f) None l).
Proof.
  induction l as [|r l IH] using rev_ind; [left; auto|]. rewrite aval_snoc, map_app. cbn [map agg_step]. rewrite somes_snoc.
  destruct (f r) as [x|]; cbn [opt_list]; [|rewrite app_nil_r; exact IH].
  right. destruct IH as [[-> ->]|[z [-> [Hin Hz]]]].
  - exists x. split; [reflexivity|]. split; [left; reflexivity|]. intros y [<-|[]]. apply Qlt_irrefl.
  - exists (if Qle_bool z x then z else x). cbn [as_d]. split; [reflexivity|]. destruct (Qle_bool z x) eqn:E.
    + apply Qle_bool_iff in E. split; [apply in_app_iff; left; exact Hin|]. intros y Hy. apply in_app_iff in Hy as [Hy|[<-|[]]]; [apply Hz, Hy|]. apply Qle_not_lt, E.
    + assert (F : (x < z)%Q) by (apply Qnot_le_lt; intros F; apply Qle_bool_iff in F; congruence). split; [apply in_app_iff; right; left; reflexivity|].
      intros y Hy. apply in_app_iff in Hy as [Hy|[<-|[]]]; [|apply Qlt_irrefl]. intros G. apply (Hz y Hy). eapply Qlt_trans; eassumption.
Qed.
Lemma aval_maxd f l : extreme DReal (fun x y => (y < x)%Q) (somes (map f l)) (aval (MaxD f) None l).
Proof.
  induction l as [|r l IH] using rev_ind; [left; auto|]. rewrite aval_snoc, map_app. cbn [map agg_step]. rewrite somes_snoc.
  destruct (f r) as [x|]; cbn [opt_list]; [|rewrite app_nil_r; exact IH].
  right. destruct IH as [[-> ->]|[z [-> [Hin Hz]]]].
  - exists x. split; [reflexivity|]. split; [left; reflexivity|]. intros y [<-|[]]. apply Qlt_irrefl.
  - exists (if Qle_bool x z then z else x). cbn [as_d]. split; [reflexivity|]. destruct (Qle_bool x z) eqn:E.
    + apply Qle_bool_iff in E. split; [apply in_app_iff; left; exact Hin|]. intros y Hy. apply in_app_iff in Hy as [Hy|[<-|[]]]; [apply Hz, Hy|]. apply Qle_not_lt, E.
    + assert (F : (z < x)%Q) by (apply Qnot_le_lt; intros F; apply Qle_bool_iff in F; congruence). split; [apply in_app_iff; right; left; reflexivity|].
      intros y Hy. apply in_app_iff in Hy as [Hy|[<-|[]]]; [|apply Qlt_irrefl]. intros G. apply (Hz y Hy). eapply Qlt_trans; eassumption.
Qed.

(** SUM needs a value at least, AVG one in every row *)
Definition agg_fine l a : Prop :=
  match a with
  | SumI f => exists r, In r l /\ f r <> None
  | SumD f => exists r, In r l /\ f r <> None
  | Avg f => l <> [] /\ forall r, In r l -> f r <> None
  | _ => True
  end.
Lemma somes_nonempty {A} (f : R -> option A) l : (exists r, In r l /\ f r <> None) -> exists x xs, somes (map f l) = x :: xs.
Proof.
  intros [r [Hin Hr]]. destruct (somes (map f l)) as [|x xs] eqn:E; [|eauto]. exfalso. destruct (f r) as [x|] eqn:Ef; [|congruence].
  assert (H : In x (somes (map f l))) by (unfold somes; apply in_flat_map; exists (Some x); split; [apply in_map_iff; eauto|left; reflexivity]). rewrite E in H. destruct H.
Qed.
Lemma aval_ok a l c : c = agg_init a \/ (c = None /\ l <> []) -> agg_fine l a -> agg_value l a (aval a c l).
Proof.
  intros Hc HF. assert (Hi : as_i c = 0%Z) by (destruct Hc as [->|[-> _]]; [destruct a; reflexivity|reflexivity]).
  assert (Hd : (as_d c == 0)%Q) by (destruct Hc as [->|[-> _]]; [destruct a; reflexivity|reflexivity]).
  assert (HM : agg_init a = None -> c = None) by (intros H; destruct Hc as [->|[-> _]]; [exact H|reflexivity]).
  destruct a as [|f|f|f|f|f|f|f|f]; cbn [agg_value agg_fine] in *.
  - rewrite aval_count by exact Hi. destruct l; [destruct Hc as [->|[_ Hc]]; [exact (wrap_i_int64 0)|congruence]|apply wrap_i_int64].
  - rewrite aval_countf by exact Hi. destruct l; [destruct Hc as [->|[_ Hc]]; [exact (wrap_i_int64 0)|congruence]|apply wrap_i_int64].
  - destruct (somes_nonempty f l HF) as [x [xs E]]. rewrite E. cbn [unless_empty]. rewrite <- E. rewrite aval_sumi by exact Hi. destruct l; [discriminate|apply wrap_i_int64].
  - destruct (somes_nonempty f l HF) as [x [xs E]]. rewrite E. cbn [unless_empty]. rewrite <- E. pose proof (aval_sumd f c l Hd) as S. destruct l; [discriminate|]. exact S.
  - destruct HF as [Hne HF]. apply Forall_forall in HF. destruct (aval_avg f c l Hd HF) as [L [E Q]]. destruct (Q Hne) as [q Eq]. rewrite Eq in *. cbn [as_d] in E.
    destruct (somes (map f l)) as [|x xs] eqn:Es; [destruct l; [congruence|discriminate]|]. cbn [unless_empty]. rewrite <- Es in *. exists q. split; [reflexivity|].
    rewrite L, <- E. field. unfold Qeq. cbn. destruct l; [congruence|cbn [length]; lia].
  - rewrite HM by reflexivity. apply aval_mini.
  - rewrite HM by reflexivity. apply aval_maxi.
  - rewrite HM by reflexivity. apply aval_mind.
  - rewrite HM by reflexivity. apply aval_maxd.
Qed.

(** ** Groups *)
Definition plain (c : option datum) : Prop := match c with Some (DChars _) => False | _ => True end.
Lemma cell_same_eq x y : cell_same x y = true -> x = y.
Proof.
  destruct x as [[u|u|u]|], y as [[v|v|v]|]; cbn; try discriminate; auto.
  - intros E. apply Z.eqb_eq in E. congruence.
  - intros E. apply andb_prop in E as [E1 E2]. apply Z.eqb_eq in E1. apply Pos.eqb_eq in E2. destruct u, v; cbn in *; congruence.
Qed.
Lemma cell_same_refl x : plain x -> cell_same x x = true.
Proof. destruct x as [[u|u|u]|]; cbn; try tauto; intros _; [apply Z.eqb_refl|rewrite Z.eqb_refl, Pos.eqb_refl; reflexivity]. Qed.
Lemma key_same_eq x : forall y, key_same x y = true -> x = y.
Proof. induction x as [|a x IH]; intros [|b y]; cbn; try discriminate; auto. intros E. apply andb_prop in E as [E1 E2]. f_equal; [apply cell_same_eq, E1|apply IH, E2]. Qed.
Lemma key_same_refl x : Forall plain x -> key_same x x = true.
Proof. induction 1 as [|a x H _ IH]; cbn; [reflexivity|]. rewrite cell_same_refl, IH by exact H. reflexivity. Qed.

Context (keys : list (R -> option datum)) (aggs : list (@agg R)).
Definition gok l (g : group) : Prop := gaggs g = map (fun a => aval a None (members keys l (gkey g))) aggs /\ gcount g = N.of_nat (length (members keys l (gkey g))).
Lemma members_snoc l r k : members keys (l ++ [r]) k = members keys l k ++ (if list_eq_dec cell_eq_dec (key_of keys r) k then [r] else []).
Proof. unfold members. rewrite filter_app. cbn [filter]. destruct (list_eq_dec cell_eq_dec (key_of keys r) k); reflexivity. Qed.
Lemma members_none l k : ~ In k (map (key_of keys) l) -> members keys l k = [].
Proof.
  intros H. unfold members. induction l as [|x l IH]; cbn; [reflexivity|]. destruct (list_eq_dec cell_eq_dec (key_of keys x) k) as [E|_]; [exfalso; apply H; left; exact E|].
  apply IH. intros F. apply H. right. exact F.
Qed.
Lemma members_some l k : In k (map (key_of keys) l) -> members keys l k <> [].
Proof.
  intros H E. apply in_map_iff in H as [r [<- Hin]]. assert (F : In r (members keys l (key_of keys r))) by (unfold members; apply filter_In; split; [exact Hin|]; destruct (list_eq_dec cell_eq_dec (key_of keys r) (key_of keys r)); congruence).
  rewrite E in F. destruct F.
Qed.
Lemma members_length l k : (length (members keys l k) <= length l)%nat.
Proof. unfold members. induction l as [|x l IH]; cbn; [lia|]. destruct (list_eq_dec _ _ k); cbn; lia. Qed.
Lemma add_ok l r : (N.of_nat (length l) + 1 < 2 ^ 32)%N -> Forall plain (key_of keys r) -> forall gs, Forall (gok l) gs ->
  (~ In (key_of keys r) (map gkey gs) -> ~ In (key_of keys r) (map (key_of keys) l)) -> NoDup (map gkey gs) ->
  Forall (gok (l ++ [r])) (add_to_group aggs (key_of keys r) r gs) /\ NoDup (map gkey (add_to_group aggs (key_of keys r) r gs)) /\
  (forall k, In k (map gkey (add_to_group aggs (key_of keys r) r gs)) <-> In k (map gkey gs) \/ k = key_of keys r).
Proof.
  intros Hlen Hp. set (k := key_of keys r) in *.
  induction gs as [|g gs IH]; intros HF Hk ND; cbn [add_to_group].
  - split; [|split].
    + constructor; [|constructor]. unfold gok; cbn [gkey gaggs gcount]. rewrite members_snoc, members_none by (apply Hk; intros []). fold k. destruct (list_eq_dec cell_eq_dec k k) as [_|F]; [|congruence]. cbn [app length].
      split; [|reflexivity]. rewrite aggs_step_map. apply map_ext. intros a. change [r] with ([] ++ [r]). rewrite aval_snoc. reflexivity.
    + cbn. constructor; [intros []|constructor].
    + intros k'. cbn. intuition congruence.
  - inversion HF as [|? ? [Hg1 Hg2] HF']; subst. cbn [map] in ND. inversion ND as [|? ? Hni ND']; subst.
    destruct (key_same (gkey g) k) eqn:E.
    + apply key_same_eq in E. split; [|split].
      * constructor.
        -- unfold gok; cbn [gkey gaggs gcount]. rewrite members_snoc. fold k. destruct (list_eq_dec cell_eq_dec k (gkey g)) as [_|F]; [|congruence]. rewrite app_length. cbn [length].
           rewrite Hg2. rewrite N.mod_small by (pose proof (members_length l (gkey g)); lia). split; [|lia]. rewrite Hg1, aggs_step_map. apply map_ext. intros a. rewrite aval_snoc. reflexivity.
        -- eapply Forall_impl; [|apply Forall_forall; intros g' Hg'; exact (conj Hg' (proj1 (Forall_forall _ _) HF' g' Hg'))]. cbn beta. intros g' [Hin [H1 H2]]. unfold gok. rewrite members_snoc. fold k.
           destruct (list_eq_dec cell_eq_dec k (gkey g')) as [F|_]; [exfalso; apply Hni; rewrite E, F; apply in_map; exact Hin|]. rewrite app_nil_r. auto.
      * exact ND.
      * intros k'. cbn. rewrite E. intuition congruence.
    + assert (Hne : gkey g <> k) by (intros F; rewrite F, key_same_refl in E by exact Hp; discriminate).
      destruct IH as [A [B C]]; [exact HF'|intros F; apply Hk; intros [F'|F']; [exact (Hne F')|exact (F F')]|exact ND'|].
      split; [|split].
      * constructor; [|exact A]. unfold gok. rewrite members_snoc. fold k. destruct (list_eq_dec cell_eq_dec k (gkey g)) as [F|_]; [congruence|]. rewrite app_nil_r. auto.
      * cbn [map]. constructor; [|exact B]. rewrite C. intros [F|F]; [exact (Hni F)|congruence].
      * intros k'. cbn [map]. cbn. rewrite C. tauto.
Qed.
Lemma groups_ok l : (N.of_nat (length l) < 2 ^ 32)%N -> (forall r, In r l -> Forall plain (key_of keys r)) ->
  let gs := fold_left (fun gs t => add_to_group aggs (map (fun e => e t) keys) t gs) l [] in
  Forall (gok l) gs /\ NoDup (map gkey gs) /\ (forall k, In k (map gkey gs) <-> In k (map (key_of keys) l)).
Proof.
  induction l as [|r l IH] using rev_ind; intros Hl Hp; cbn zeta.
  - cbn. split; [constructor|]. split; [constructor|tauto].
  - rewrite app_length in Hl. cbn [length] in Hl. destruct IH as [A [B C]]; [lia|intros r' Hr'; apply Hp; apply in_app_iff; auto|].
    rewrite fold_left_app. cbn [fold_left]. set (gs := fold_left _ l []) in *. change (map (fun e => e r) keys) with (key_of keys r).
    destruct (add_ok l r) with (gs := gs) as [A' [B' C']]; [lia|apply Hp; apply in_app_iff; right; left; reflexivity|exact A|rewrite C; tauto|exact B|].
    split; [exact A'|]. split; [exact B'|]. intros k. rewrite C', C, map_app, in_app_iff. cbn. intuition congruence.
Qed.
End Rows.
