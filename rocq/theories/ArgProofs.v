(** * Proofs about the parser of command lines *)
From Coq Require Import Arith List Bool ZArith Lia String Ascii.
From Verif Require Import ArgParser ArgSpec.
Import ListNotations.
Local Open Scope list_scope.

Lemma streq_eq a b : streq a b = true <-> a = b.
Proof.
  revert b. induction a as [|x a IH]; intros [|y b]; cbn; try (split; congruence).
  rewrite andb_true_iff, IH, Nat.eqb_eq. split; [intros [-> ->]; reflexivity|intros E; injection E; auto].
Qed.
Lemma streq_refl a : streq a a = true.
Proof. now apply streq_eq. Qed.
Lemma streq_neq a b : streq a b = false <-> a <> b.
Proof. destruct (streq a b) eqn:E; [apply streq_eq in E; split; congruence|]. split; [|reflexivity]. intros _ X. apply streq_eq in X. congruence. Qed.

(** ** Numbers *)
Lemma is_digit_iff c : is_digit c = true <-> 48 <= c <= 57.
Proof. unfold is_digit. rewrite andb_true_iff, !Nat.leb_le. lia. Qed.
Lemma is_space_iff c : is_space c = true <-> space c.
Proof.
  unfold is_space, space. rewrite orb_true_iff, andb_true_iff, Nat.eqb_eq, !Nat.leb_le. cbn. split; [|intros [H|[H|[H|[H|[H|[H|[]]]]]]]; lia].
  intros [->|H]; [auto|]. do 9 (destruct c as [|c]; [lia|]). do 5 (destruct c as [|c]; [auto 10|]). lia.
Qed.
Lemma no_digit_head c s : no_digit_first (c :: s) -> is_digit c = false.
Proof. intros H. cbn in H. destruct (is_digit c) eqn:D; [|reflexivity]. apply is_digit_iff in D. lia. Qed.

Lemma numeral_nonneg ds z : numeral ds z -> (0 <= z)%Z.
Proof. induction 1; lia. Qed.
Lemma numeral_digits ds z : numeral ds z -> Forall (fun c => is_digit c = true) ds.
Proof. induction 1; [constructor|]. apply Forall_app. split; [exact IHnumeral|]. constructor; [|constructor]. apply is_digit_iff. lia. Qed.
Lemma digits_numeral ds z : numeral ds z -> forall t acc, digits (ds ++ t) acc = digits t (acc * 10 ^ Z.of_nat (List.length ds) + z)%Z.
Proof.
  induction 1 as [|ds z d N IH L]; intros t acc; [cbn [app List.length]; f_equal; rewrite Z.pow_0_r; lia|].
  rewrite <- app_assoc, IH. cbn [app digits]. replace (is_digit (48 + d)) with true by (symmetry; apply is_digit_iff; lia).
  rewrite app_length. cbn [List.length]. rewrite Nat2Z.inj_add, Z.pow_add_r by lia. change (10 ^ Z.of_nat 1)%Z with 10%Z.
  f_equal. replace (48 + d - 48) with d by lia. ring.
Qed.
Lemma digits_stop s acc : no_digit_first s -> digits s acc = acc.
Proof. destruct s as [|c s]; [reflexivity|]. intros H. cbn [digits]. now rewrite (no_digit_head _ _ H). Qed.
Lemma magnitude_numeral ds z rest : ds <> [] -> numeral ds z -> no_digit_first rest -> magnitude (ds ++ rest) = Some z.
Proof.
  intros E N R. pose proof (digits_numeral ds z N rest 0%Z) as D. pose proof (numeral_digits ds z N) as F. destruct ds as [|c ds]; [congruence|].
  inversion F as [|? ? Dc _]; subst. unfold magnitude. cbn [app]. rewrite Dc. f_equal. cbn [app] in D. rewrite D, digits_stop by exact R. lia.
Qed.
Lemma take_digits s : exists ds rest, s = ds ++ rest /\ Forall (fun c => is_digit c = true) ds /\ no_digit_first rest.
Proof.
  induction s as [|c s (ds & rest & -> & F & R)]; [exists [], []; cbn; auto|]. destruct (is_digit c) eqn:D.
  - exists (c :: ds), rest. auto.
  - exists [], (c :: ds ++ rest). split; [reflexivity|]. split; [constructor|]. cbn. destruct (Nat.ltb_spec c 48); [auto|].
    right. assert (~ c <= 57); [|lia]. intros L. assert (is_digit c = true) by (apply is_digit_iff; lia). congruence.
Qed.
Lemma digits_are_numerals ds : Forall (fun c => is_digit c = true) ds -> exists z, numeral ds z.
Proof.
  induction ds as [|c ds IH] using rev_ind; intros F; [exists 0%Z; constructor|]. apply Forall_app in F. destruct F as [F1 F2].
  destruct (IH F1) as (z & N). inversion F2 as [|? ? D _]; subst. apply is_digit_iff in D. exists (10 * z + Z.of_nat (c - 48))%Z.
  replace c with (48 + (c - 48)) at 1 by lia. constructor; [exact N|lia].
Qed.
Lemma magnitude_inv s m : magnitude s = Some m -> exists ds rest, s = ds ++ rest /\ ds <> [] /\ numeral ds m /\ no_digit_first rest.
Proof.
  intros H. destruct (take_digits s) as (ds & rest & -> & F & R). destruct (digits_are_numerals ds F) as (z & N).
  destruct ds as [|c ds].
  - exfalso. destruct rest as [|c rest]; [discriminate|]. unfold magnitude in H. cbn [app] in H. rewrite (no_digit_head _ _ R) in H. discriminate.
  - rewrite (magnitude_numeral (c :: ds) z rest ltac:(discriminate) N R) in H. injection H as ->. exists (c :: ds), rest. repeat split; auto. discriminate.
Qed.

Lemma skip_space_app ws t : Forall space ws -> skip_space (ws ++ t) = skip_space t.
Proof. induction 1 as [|c ws S _ IH]; [reflexivity|]. cbn. apply is_space_iff in S. now rewrite S. Qed.
Lemma skip_space_inv s : exists ws, s = ws ++ skip_space s /\ Forall space ws.
Proof.
  induction s as [|c s (ws & E & F)]; [exists []; auto|]. cbn. destruct (is_space c) eqn:S; [|exists []; auto].
  exists (c :: ws). split; [cbn; congruence|]. constructor; [now apply is_space_iff|exact F].
Qed.
Lemma digit_not_special c : is_digit c = true -> is_space c = false /\ (c =? 45) = false /\ (c =? 43) = false.
Proof.
  intros D. apply is_digit_iff in D. rewrite !Nat.eqb_neq. split; [|lia]. destruct (is_space c) eqn:S; [|reflexivity]. apply is_space_iff in S. cbn in S. lia.
Qed.

Lemma strto_says s neg m : strto s = Some (neg, m) -> says s (if neg then - m else m)%Z /\ (0 <= m)%Z.
Proof.
  unfold strto. destruct (skip_space_inv s) as (ws & E & F). destruct (skip_space s) as [|c t]; [discriminate|]. subst s.
  destruct (Nat.eqb_spec c 45) as [->|N1]; [|destruct (Nat.eqb_spec c 43) as [->|N2]].
  - destruct (magnitude t) as [m'|] eqn:M; [|discriminate]. cbn. intros H. injection H as <- <-.
    destruct (magnitude_inv _ _ M) as (ds & rest & -> & Nd & Nu & R). split; [now constructor|exact (numeral_nonneg _ _ Nu)].
  - destruct (magnitude t) as [m'|] eqn:M; [|discriminate]. cbn. intros H. injection H as <- <-.
    destruct (magnitude_inv _ _ M) as (ds & rest & -> & Nd & Nu & R). split; [now constructor|exact (numeral_nonneg _ _ Nu)].
  - destruct (magnitude (c :: t)) as [m'|] eqn:M; [|discriminate]. cbn [option_map]. intros H. injection H as <- <-.
    destruct (magnitude_inv _ _ M) as (ds & rest & -> & Nd & Nu & R). split; [now constructor|exact (numeral_nonneg _ _ Nu)].
Qed.
Lemma says_strto s z : says s z -> exists neg m, strto s = Some (neg, m) /\ z = (if neg then - m else m)%Z /\ (0 <= m)%Z.
Proof.
  intros [ws ds rest m F Nd Nu R|ws ds rest m F Nd Nu R|ws ds rest m F Nd Nu R]; unfold strto; rewrite skip_space_app by exact F; pose proof (magnitude_numeral _ _ _ Nd Nu R) as M.
  - pose proof (numeral_digits _ _ Nu) as D. destruct ds as [|c ds]; [congruence|]. inversion D as [|? ? Dc _]; subst. cbn [app] in *.
    destruct (digit_not_special c Dc) as (S & N1 & N2). cbn [skip_space]. rewrite S, N1, N2, M. exists false, m. repeat split. exact (numeral_nonneg _ _ Nu).
  - cbn [skip_space is_space Nat.eqb Nat.leb orb andb]. rewrite M. exists false, m. repeat split. exact (numeral_nonneg _ _ Nu).
  - cbn [skip_space is_space Nat.eqb Nat.leb orb andb]. rewrite M. exists true, m. repeat split. exact (numeral_nonneg _ _ Nu).
Qed.

Lemma says_unique s x y : says s x -> says s y -> x = y.
Proof.
  intros X Y. destruct (says_strto _ _ X) as (n1 & m1 & E1 & -> & _). destruct (says_strto _ _ Y) as (n2 & m2 & E2 & -> & _). rewrite E1 in E2. injection E2 as -> ->. reflexivity.
Qed.

Lemma parse_signed_iff w s z : (1 <= w <= 64)%Z -> (parse_signed w s = Some z <-> says s z /\ (- 2 ^ (w - 1) <= z < 2 ^ (w - 1))%Z).
Proof.
  intros W. unfold parse_signed. assert (P : (2 ^ (w - 1) <= 2 ^ 63)%Z) by (apply Z.pow_le_mono_r; lia). set (q := (2 ^ (w - 1))%Z) in *. set (b := (2 ^ 63)%Z) in *. clearbody q b. split.
  - destruct (strto s) as [[neg m]|] eqn:E; [|discriminate]. destruct (strto_says _ _ _ E) as [S _]. set (x := (if neg then - m else m)%Z) in *. cbv zeta.
    destruct ((- b <=? x) && (x <? b))%Z; [|discriminate]. destruct ((- q <=? x) && (x <? q))%Z eqn:C; [|discriminate].
    intros H. injection H as <-. split; [exact S|]. apply andb_true_iff in C. lia.
  - intros [S R]. destruct (says_strto _ _ S) as (neg & m & -> & -> & _). cbv zeta. set (x := (if neg then - m else m)%Z) in *.
    replace ((- b <=? x) && (x <? b))%Z with true by (symmetry; apply andb_true_iff; lia).
    replace ((- q <=? x) && (x <? q))%Z with true by (symmetry; apply andb_true_iff; lia). reflexivity.
Qed.
Lemma parse_unsigned_iff w s z : (0 <= w <= 64)%Z ->
  (parse_unsigned w s = Some z <-> exists x, says s x /\ (- 2 ^ 64 < x < 2 ^ 64)%Z /\ z = (x mod 2 ^ 64)%Z /\ (z < 2 ^ w)%Z).
Proof.
  intros W. unfold parse_unsigned. assert (B : (0 < 2 ^ 64)%Z) by lia. set (b := (2 ^ 64)%Z) in *. set (q := (2 ^ w)%Z). clearbody b q. split.
  - destruct (strto s) as [[neg m]|] eqn:E; [|discriminate]. destruct (strto_says _ _ _ E) as [S M].
    destruct (Z.ltb_spec m b) as [L|]; [|discriminate]. cbv zeta. destruct (Z.ltb_spec (q - 1) (if neg then (- m) mod b else m)) as [|L2]; [discriminate|].
    intros H. injection H as <-. exists (if neg then - m else m)%Z. destruct neg; (split; [exact S|]); (split; [lia|]); (split; [|lia]); [reflexivity|symmetry; apply Z.mod_small; lia].
  - intros (x & S & R & -> & L). destruct (says_strto _ _ S) as (neg & m & -> & -> & M).
    destruct (Z.ltb_spec m b) as [L1|L1]; [|destruct neg; lia]. cbv zeta.
    assert (E : (if neg then (- m) mod b else m)%Z = ((if neg then - m else m) mod b)%Z) by (destruct neg; [reflexivity|symmetry; apply Z.mod_small; lia]).
    rewrite E. destruct (Z.ltb_spec (q - 1) ((if neg then - m else m) mod b)%Z); [lia|reflexivity].
Qed.

(** ** Lists *)
Lemma split_part p : forall part, no_comma p -> split part p = [rev part ++ p].
Proof.
  induction p as [|c p IH]; intros part N; [cbn; now rewrite app_nil_r|]. cbn. destruct (Nat.eqb_spec c 44) as [->|Nc]; [exfalso; apply N; now left|].
  rewrite IH by (intros X; apply N; now right). cbn. now rewrite <- app_assoc.
Qed.
Lemma split_comma p : forall part t, no_comma p -> split part (p ++ 44 :: t) = (rev part ++ p) :: split [] t.
Proof.
  induction p as [|c p IH]; intros part t N; [cbn; now rewrite app_nil_r|]. cbn. destruct (Nat.eqb_spec c 44) as [->|Nc]; [exfalso; apply N; now left|].
  rewrite IH by (intros X; apply N; now right). cbn. now rewrite <- app_assoc.
Qed.
Lemma split_join l : l <> [] -> Forall no_comma l -> split [] (join l) = l.
Proof.
  induction l as [|p l IH]; intros N F; [congruence|]. inversion F as [|? ? Fp F']; subst. destruct l as [|p' l].
  - cbn [join]. rewrite split_part by exact Fp. reflexivity.
  - cbn [join]. rewrite split_comma by exact Fp. cbn [rev app]. f_equal. apply IH; [discriminate|exact F'].
Qed.
Lemma join_split s : forall part, no_comma part -> join (split part s) = rev part ++ s /\ Forall no_comma (split part s) /\ split part s <> [].
Proof.
  induction s as [|c s IH]; intros part N; cbn [split].
  - split; [cbn; now rewrite app_nil_r|]. split; [|discriminate]. constructor; [|constructor]. intros X. apply in_rev in X. exact (N X).
  - destruct (Nat.eqb_spec c 44) as [->|Nc].
    + destruct (IH [] ltac:(intros [])) as (J & F & E). split; [|split; [|discriminate]].
      * cbn [join]. destruct (split [] s); [congruence|]. now rewrite J.
      * constructor; [|exact F]. intros X. apply in_rev in X. exact (N X).
    + destruct (IH (c :: part)) as (J & F & E).
      { intros [X|X]; [congruence|exact (N X)]. }
      split; [|auto]. rewrite J. cbn. now rewrite <- app_assoc.
Qed.

Lemma parse_value_iff k s x : k <> KBool -> good_kind k -> (parse_value k s = Some x <-> value_of k s x).
Proof.
  intros B G. destruct k as [|w|w| |]; [congruence| | | |]; cbn [parse_value].
  - split.
    + destruct (parse_signed w s) as [z|] eqn:P; [|discriminate]. intros H. injection H as <-. apply parse_signed_iff in P; [|exact G]. now constructor.
    + intros V. inversion V as [w' s' z S R| | | |]; subst. replace (parse_signed w s) with (Some z); [reflexivity|]. symmetry. now apply parse_signed_iff.
  - split.
    + destruct (parse_unsigned w s) as [z|] eqn:P; [|discriminate]. intros H. injection H as <-. apply parse_unsigned_iff in P; [|exact G].
      destruct P as (y & S & R & -> & L). now constructor.
    + intros V. inversion V as [|w' s' y S R L| | |]; subst. replace (parse_unsigned w s) with (Some (y mod 2 ^ 64)%Z); [reflexivity|]. symmetry.
      apply parse_unsigned_iff; [exact G|]. exists y. auto.
  - split; [intros H; injection H as <-; constructor|intros V; inversion V; reflexivity].
  - split.
    + intros H. injection H as <-. destruct s as [|c s]; [constructor|]. cbn [parse_list].
      destruct (join_split (c :: s) [] ltac:(intros [])) as (J & F & E). cbn [rev app] in J. rewrite <- J at 1. constructor; [rewrite J; discriminate|exact F].
    + intros V. inversion V as [| | | |l J F]; subst; [reflexivity|]. f_equal. f_equal. unfold parse_list. destruct (join l) as [|c t] eqn:E; [congruence|].
      rewrite <- E. apply split_join; [|exact F]. intros ->. cbn in E. discriminate.
Qed.
