(** * C07, C08: string helpers and LIKE. *)
From Coq Require Import List Ascii Bool Arith Lia.
From Verif Require Import Strings.
Import ListNotations.
Open Scope char_scope.

Ltac achar := repeat match goal with
  | |- context [(?a =? ?b)%char] => destruct (Ascii.eqb_spec a b)
  | H : context [(?a =? ?b)%char] |- _ => destruct (Ascii.eqb_spec a b)
  end.

(** ** C07 *)
Theorem C07_unescape_escape : forall esc q s, esc <> "n" -> q <> "n" -> unescape esc q (escape esc q s) = Some s.
Proof.
  intros esc q s He Hq. induction s as [|c s IH]; [reflexivity|]. cbn [escape].
  destruct ((c =? esc) || (c =? q)) eqn:E; [cbn [app unescape]; rewrite Ascii.eqb_refl, E, IH; reflexivity|].
  destruct (Ascii.eqb_spec c NL) as [->|Hc]; cbn [app unescape].
  - rewrite Ascii.eqb_refl. destruct (Ascii.eqb_spec "n" esc), (Ascii.eqb_spec "n" q); try congruence. cbn [orb]. cbn [Ascii.eqb Bool.eqb].
    rewrite IH. reflexivity.
  - apply orb_false_iff in E. destruct E as [-> _]. rewrite IH. reflexivity.
Qed.
Print Assumptions C07_unescape_escape.

(** Escaped text has no raw newline, and every quote in it is preceded by an escape character that is itself not escaped:
    reading the text left to right, an escape character always protects the next character.  [protected b s]: [b] tells
    whether the next character is protected. *)
Fixpoint no_bare (esc : ascii) (bad : ascii -> Prop) (prot : bool) (s : str) : Prop :=
  match s with
  | [] => prot = false
  | c :: s' => if prot then no_bare esc bad false s'
               else if c =? esc then no_bare esc bad true s' else ~ bad c /\ no_bare esc bad false s'
  end.
Theorem C07_escape_no_quote : forall esc q s, no_bare esc (fun c => c = q \/ c = NL) false (escape esc q s).
Proof.
  intros esc q s. induction s as [|c s IH]; [reflexivity|]. cbn [escape].
  destruct (Ascii.eqb_spec c esc) as [->|H1]; [cbn [orb app no_bare]; rewrite Ascii.eqb_refl; exact IH|].
  destruct (Ascii.eqb_spec c q) as [->|H2]; [cbn [orb app no_bare]; rewrite Ascii.eqb_refl; exact IH|]. cbn [orb].
  destruct (Ascii.eqb_spec c NL) as [->|H3]; cbn [app no_bare]; [rewrite Ascii.eqb_refl; exact IH|].
  destruct (Ascii.eqb_spec c esc); [contradiction|]. split; [tauto|exact IH].
Qed.
Print Assumptions C07_escape_no_quote.
Theorem C07_escape_no_newline : forall esc q s, esc <> NL -> q <> NL -> ~ In NL (escape esc q s).
Proof.
  intros esc q s He Hq. induction s as [|c s IH]; [easy|]. cbn [escape]. rewrite in_app_iff. intros [H|H]; [|exact (IH H)].
  destruct (Ascii.eqb_spec c esc); [cbn in H; intuition congruence|]. destruct (Ascii.eqb_spec c q); [cbn in H; intuition congruence|].
  cbn [orb] in H. destruct (Ascii.eqb_spec c NL) as [->|]; [|cbn in H; intuition congruence].
  cbn in H. destruct H as [H|[H|[]]]; [contradiction|discriminate].
Qed.
Print Assumptions C07_escape_no_newline.

Theorem C07_unquote_quote : forall s, unquote DQ (quote s) = Some s.
Proof.
  intros s. unfold quote, unquote. cbn [app]. rewrite Ascii.eqb_refl. cbn [negb].
  destruct (Nat.ltb_spec (length (DQ :: s ++ [DQ])) 2) as [H|_]; [cbn [length] in H; rewrite app_length in H; cbn in H; lia|].
  rewrite app_comm_cons, last_last, Ascii.eqb_refl. cbn [negb app tl]. rewrite removelast_last. reflexivity.
Qed.
Print Assumptions C07_unquote_quote.

(** [unquote] in general: a text of fewer than two characters, or with an opening but no closing quote, is rejected; a text without opening
    quote is returned unchanged. *)
Theorem C07_unquote : forall q s,
  (length s < 2 -> unquote q s = None) /\
  (forall c m, c <> q -> m <> [] -> s = c :: m -> unquote q s = Some s) /\
  (forall m, s = q :: m ++ [q] -> unquote q s = Some m) /\
  (forall m c, c <> q -> s = q :: m ++ [c] -> unquote q s = None).
Proof.
  intros q s. unfold unquote. split; [|split; [|split]].
  - intros H. apply Nat.ltb_lt in H. now rewrite H.
  - intros c m Hc Hm ->. destruct (Nat.ltb_spec (length (c :: m)) 2) as [H|_]; [destruct m; [congruence|cbn in H; lia]|].
    apply Ascii.eqb_neq in Hc. now rewrite Hc.
  - intros m ->. destruct (Nat.ltb_spec (length (q :: m ++ [q])) 2) as [H|_]; [cbn [length] in H; rewrite app_length in H; cbn in H; lia|].
    rewrite Ascii.eqb_refl. cbn [negb]. rewrite app_comm_cons, last_last, Ascii.eqb_refl. cbn [negb app tl]. now rewrite removelast_last.
  - intros m c Hc ->. destruct (Nat.ltb_spec (length (q :: m ++ [c])) 2) as [H|_]; [reflexivity|].
    rewrite Ascii.eqb_refl. cbn [negb]. rewrite app_comm_cons, last_last. apply Ascii.eqb_neq in Hc. now rewrite Hc.
Qed.
Print Assumptions C07_unquote.
(** What an escaped text means: an escape character before an escape or quote character, or before n; any other escape character stands for itself. *)
Inductive means (esc q : ascii) : str -> str -> Prop :=
  | means_nil : means esc q [] []
  | means_plain c t s : c <> esc -> means esc q t s -> means esc q (c :: t) (c :: s)
  | means_escaped d t s : d = esc \/ d = q -> means esc q t s -> means esc q (esc :: d :: t) (d :: s)
  | means_newline t s : "n" <> esc -> "n" <> q -> means esc q t s -> means esc q (esc :: "n" :: t) (NL :: s)
  | means_invalid d t s : d <> esc -> d <> q -> d <> "n" -> means esc q (d :: t) s -> means esc q (esc :: d :: t) (esc :: s).
Lemma unescape_means : forall esc q n t, length t < n -> match unescape esc q t with Some s => means esc q t s | None => forall s, ~ means esc q t s end.
Proof.
  intros esc q. induction n as [|n IH]; intros t L; [lia|]. destruct t as [|c t]; [apply means_nil|]. cbn [length] in L. cbn [unescape].
  destruct (Ascii.eqb_spec c esc) as [->|Hc].
  - destruct t as [|d t]; [intros s H; inversion H; subst; congruence|]. cbn [length] in L.
    destruct (Ascii.eqb_spec d esc) as [Hd|Hd]; [|destruct (Ascii.eqb_spec d q) as [Hq|Hq]]; cbn [orb].
    + pose proof (IH t ltac:(lia)) as I. destruct (unescape esc q t) as [s|]; cbn [option_map]; [apply means_escaped; auto|].
      intros s H. inversion H; subst; try congruence; eapply I; eauto.
    + pose proof (IH t ltac:(lia)) as I. destruct (unescape esc q t) as [s|]; cbn [option_map]; [apply means_escaped; auto|].
      intros s H. inversion H; subst; try congruence; eapply I; eauto.
    + destruct (Ascii.eqb_spec d "n") as [Hn|Hn].
      * subst d. pose proof (IH t ltac:(lia)) as I. destruct (unescape esc q t) as [s|]; cbn [option_map]; [apply means_newline; auto|].
        intros s H. inversion H; subst; try congruence; try (eapply I; eauto; fail).
      * pose proof (IH (d :: t) ltac:(cbn; lia)) as I. destruct (unescape esc q (d :: t)) as [s|]; cbn [option_map]; [apply means_invalid; auto|].
        intros s H. inversion H; subst; try congruence; try (eapply I; eauto; fail). intuition congruence.
  - pose proof (IH t ltac:(lia)) as I. destruct (unescape esc q t) as [s|]; cbn [option_map]; [apply means_plain; auto|].
    intros s H. inversion H; subst; try congruence. eapply I; eauto.
Qed.
Theorem C07_unescape : forall esc q t s, unescape esc q t = Some s <-> means esc q t s.
Proof.
  intros esc q t s. pose proof (unescape_means esc q (S (length t)) t ltac:(lia)) as H. split.
  - intros E. now rewrite E in H.
  - intros M. destruct (unescape esc q t) as [s'|]; [|exfalso; exact (H s M)]. f_equal. revert s M. induction H; intros s2 M; inversion M; subst; try congruence; f_equal; auto; intuition congruence.
Qed.
Print Assumptions C07_unescape.

Theorem C07_interpret : forall s, interpret "\" DQ (quote (escape "\" DQ s)) = Some s.
Proof. intros s. unfold interpret. rewrite C07_unquote_quote. apply C07_unescape_escape; discriminate. Qed.
Print Assumptions C07_interpret.

Theorem C07_escape_char : forall s, flat_map escape_char s = escape "\" DQ s.
Proof.
  induction s as [|c s IH]; [reflexivity|]. cbn [flat_map escape]. rewrite IH. f_equal. unfold escape_char.
  destruct (Ascii.eqb_spec c "\") as [->|]; [reflexivity|]. cbn [orb]. destruct (Ascii.eqb_spec c DQ) as [->|]; reflexivity.
Qed.
Print Assumptions C07_escape_char.

(** [replaced from to s r]: [r] is [s] with the non-overlapping occurrences of [from], found from left to right, replaced. *)
Definition occurs_at (from s : str) (i : nat) : Prop := exists a b, length a = i /\ s = a ++ from ++ b.
Inductive replaced (from to : str) : str -> str -> Prop :=
| rep_none s : (forall i, ~ occurs_at from s i) -> replaced from to s s
| rep_some a b r : (forall i, i < length a -> ~ occurs_at from (a ++ from ++ b) i) -> replaced from to b r ->
    replaced from to (a ++ from ++ b) (a ++ to ++ r).

Lemma is_prefix_spec p : forall s, is_prefix p s = true <-> exists b, s = p ++ b.
Proof.
  induction p as [|a p IH]; intros s; cbn [is_prefix].
  - split; [intros _; exists s; reflexivity|reflexivity].
  - destruct s as [|b s]; [split; [discriminate|intros [x Hx]; discriminate]|]. rewrite andb_true_iff, IH, Ascii.eqb_eq. split.
    + intros [-> [x ->]]. exists x. reflexivity.
    + intros [x Hx]. injection Hx as -> ->. split; [reflexivity|exists x; reflexivity].
Qed.
Lemma occurs_skipn from s i : occurs_at from s i <-> i <= length s /\ is_prefix from (skipn i s) = true.
Proof.
  rewrite is_prefix_spec. split.
  - intros [a [b [<- ->]]]. rewrite app_length. split; [lia|]. exists b. rewrite skipn_app, skipn_all, Nat.sub_diag. reflexivity.
  - intros [Hi [b Hb]]. exists (firstn i s), b. split; [apply firstn_length_le; exact Hi|]. rewrite <- Hb. symmetry. apply firstn_skipn.
Qed.
Lemma find_spec from s : forall fuel pos, pos <= length s -> length s - pos < fuel ->
  match find_from fuel s from pos with
  | None => forall i, pos <= i -> ~ occurs_at from s i
  | Some p => pos <= p /\ occurs_at from s p /\ forall i, pos <= i < p -> ~ occurs_at from s i
  end.
Proof.
  induction fuel as [|f IH]; intros pos Hpos Hf; [lia|]. cbn [find_from].
  destruct (Nat.ltb_spec (length s) pos) as [H|_]; [lia|].
  destruct (is_prefix from (skipn pos s)) eqn:E.
  - split; [lia|]. split; [apply occurs_skipn; split; [exact Hpos|exact E]|lia].
  - assert (Hno : ~ occurs_at from s pos) by (rewrite occurs_skipn; intuition congruence).
    destruct (Nat.eq_dec pos (length s)) as [Hp|Hp].
    + assert (Hn : find_from f s from (S pos) = None).
      { destruct f; cbn [find_from]; [reflexivity|]. destruct (Nat.ltb_spec (length s) (S pos)); [reflexivity|lia]. }
      rewrite Hn. intros i Hi Ho. assert (i <= length s) by (apply occurs_skipn in Ho; tauto). assert (i = pos) by lia. subst i. contradiction.
    + specialize (IH (S pos) ltac:(lia) ltac:(lia)). destruct (find_from f s from (S pos)) as [p|].
      * destruct IH as [I1 [I2 I3]]. split; [lia|]. split; [exact I2|]. intros i Hi. destruct (Nat.eq_dec i pos) as [->|]; [exact Hno|]. apply I3. lia.
      * intros i Hi. destruct (Nat.eq_dec i pos) as [->|]; [exact Hno|]. apply IH. lia.
Qed.
Lemma find_past from s pos : length s < pos -> find s from pos = None.
Proof. intros H. unfold find. cbn [find_from]. destruct (Nat.ltb_spec (length s) pos); [reflexivity|lia]. Qed.
Lemma occurs_app from d s i : (exists j, i = length d + j /\ occurs_at from s j) -> occurs_at from (d ++ s) i.
Proof. intros [j [-> [a [b [<- ->]]]]]. exists (d ++ a), b. rewrite app_length, <- app_assoc. split; reflexivity. Qed.
Lemma occurs_app_inv from d s i : length d <= i -> occurs_at from (d ++ s) i -> occurs_at from s (i - length d).
Proof.
  intros Hi [a [b [<- H]]]. exists (skipn (length d) a), b. rewrite skipn_length. split; [reflexivity|].
  assert (E : firstn (length d) (d ++ s) = firstn (length d) (a ++ from ++ b)) by (rewrite H; reflexivity).
  assert (E2 : skipn (length d) (d ++ s) = skipn (length d) (a ++ from ++ b)) by (rewrite H; reflexivity).
  rewrite skipn_app, skipn_all, Nat.sub_diag in E2. cbn [app skipn] in E2. rewrite E2, skipn_app.
  replace (length d - length a) with 0 by lia. reflexivity.
Qed.

(** With a non-empty [from], the loop terminates with the text in which exactly the non-overlapping left-to-right
    occurrences are replaced. *)
Theorem C07_replace_all : forall from to s, from <> [] ->
  exists r, replaced from to s r /\ forall fuel, length s < fuel -> replace_all fuel s from to = Some r.
Proof.
  intros from to s Hfrom.
  assert (Hlen : 0 < length from) by (destruct from; [contradiction|cbn; lia]).
  assert (Hgen : forall n s, length s <= n -> exists r, replaced from to s r /\
    forall fuel done, length s < fuel -> replace_loop fuel (done ++ s) from to (length done) = Some (done ++ r)).
  { clear s. induction n as [|n IH]; intros s Hs.
    - destruct s; [|cbn in Hs; lia]. exists []. split.
      + apply rep_none. intros i [a [b [_ Hb]]]. symmetry in Hb. apply app_eq_nil in Hb. destruct Hb as [_ Hb]. apply app_eq_nil in Hb. tauto.
      + intros fuel done Hf. destruct fuel as [|f]; [cbn in Hf; lia|]. cbn [replace_loop].
        pose proof (find_spec from (done ++ []) (S (length (done ++ []))) (length done) ltac:(rewrite app_length; lia) ltac:(lia)) as F.
        unfold find. destruct (find_from _ (done ++ []) from (length done)) as [p|]; [|reflexivity].
        destruct F as [F1 [F2 _]]. apply occurs_app_inv in F2; [|exact F1]. destruct F2 as [a [b [_ Hb]]].
        symmetry in Hb. apply app_eq_nil in Hb. destruct Hb as [_ Hb]. apply app_eq_nil in Hb. tauto.
    - pose proof (find_spec from s (S (length s)) 0 ltac:(lia) ltac:(lia)) as F.
      destruct (find_from (S (length s)) s from 0) as [p|] eqn:Ef.
      + destruct F as [_ [[a [b [Ha Hs']]] F3]]. subst p s. rewrite !app_length in Hs.
        destruct (IH b ltac:(lia)) as [r [R1 R2]]. exists (a ++ to ++ r). split.
        * apply rep_some; [|exact R1]. intros i Hi. apply F3. lia.
        * intros fuel done Hf. destruct fuel as [|f]; [cbn in Hf; lia|]. cbn [replace_loop]. rewrite !app_length in Hf.
          pose proof (find_spec from (done ++ a ++ from ++ b) (S (length (done ++ a ++ from ++ b))) (length done) ltac:(rewrite app_length; lia) ltac:(lia)) as G.
          unfold find. destruct (find_from _ (done ++ a ++ from ++ b) from (length done)) as [p|].
          -- destruct G as [G1 [G2 G3]].
             assert (Hp : p = length done + length a).
             { destruct (Nat.lt_total p (length done + length a)) as [L|[E|L]]; [|exact E|].
               - exfalso. apply occurs_app_inv in G2; [|exact G1]. apply (F3 (p - length done)); [lia|exact G2].
               - exfalso. apply (G3 (length done + length a)); [lia|]. apply occurs_app. exists (length a). split; [reflexivity|]. exists a, b. split; reflexivity. }
             subst p. unfold replace.
             assert (E1 : firstn (length done + length a) (done ++ a ++ from ++ b) = done ++ a).
             { rewrite firstn_app_2, firstn_app, Nat.sub_diag, firstn_all. cbn [firstn]. rewrite app_nil_r. reflexivity. }
             assert (E2 : skipn (length done + length a + length from) (done ++ a ++ from ++ b) = b).
             { replace (done ++ a ++ from ++ b) with ((done ++ a ++ from) ++ b) by (rewrite <- !app_assoc; reflexivity).
               replace (length done + length a + length from) with (length (done ++ a ++ from) + 0) by (rewrite !app_length; lia).
               rewrite skipn_app, Nat.add_0_r, skipn_all, Nat.sub_diag. reflexivity. }
             rewrite E1, E2.
             replace ((done ++ a) ++ to ++ b) with ((done ++ a ++ to) ++ b) by (rewrite <- !app_assoc; reflexivity).
             replace (length done + length a + length to) with (length (done ++ a ++ to)) by (rewrite !app_length; lia).
             rewrite R2 by lia. rewrite <- !app_assoc. reflexivity.
          -- exfalso. apply (G (length done + length a)); [lia|]. apply occurs_app. exists (length a). split; [reflexivity|]. exists a, b. split; reflexivity.
      + exists s. split; [apply rep_none; intros i; apply F; lia|]. intros fuel done Hf. destruct fuel as [|f]; [lia|]. cbn [replace_loop].
        pose proof (find_spec from (done ++ s) (S (length (done ++ s))) (length done) ltac:(rewrite app_length; lia) ltac:(lia)) as G.
        unfold find. destruct (find_from _ (done ++ s) from (length done)) as [p|]; [|reflexivity].
        destruct G as [G1 [G2 _]]. exfalso. apply occurs_app_inv in G2; [|exact G1]. exact (F _ (Nat.le_0_l _) G2). }
  destruct (Hgen (length s) s (le_n _)) as [r [R1 R2]]. exists r. split; [exact R1|]. intros fuel Hf. exact (R2 fuel [] Hf).
Qed.
Print Assumptions C07_replace_all.

(** Finding: with an empty search text the loop never terminates. *)
Theorem C07_replace_all_empty_refuted : forall fuel s to, replace_all fuel s [] to = None.
Proof.
  intros fuel s to. unfold replace_all. generalize 0 (Nat.le_0_l (length s)). revert s.
  induction fuel as [|f IH]; intros s pos Hpos; [reflexivity|]. cbn [replace_loop].
  assert (E : find s [] pos = Some pos).
  { unfold find. cbn [find_from]. destruct (Nat.ltb_spec (length s) pos); [lia|]. reflexivity. }
  rewrite E. apply IH. unfold replace. rewrite Nat.add_0_r, !app_length, firstn_length, skipn_length. lia.
Qed.
Print Assumptions C07_replace_all_empty_refuted.

(** The relation is functional for single characters, where it is a map. *)
Lemma replaced_char c to : forall s r, replaced [c] to s r -> r = flat_map (fun x => if x =? c then to else [x]) s.
Proof.
  assert (Hid : forall s, ~ In c s -> flat_map (fun x => if x =? c then to else [x]) s = s).
  { induction s as [|x s IH]; intros H; [reflexivity|]. cbn [flat_map]. rewrite IH by (intros Hx; apply H; right; exact Hx).
    destruct (Ascii.eqb_spec x c) as [->|]; [exfalso; apply H; left; reflexivity|reflexivity]. }
  assert (Hocc : forall s, In c s -> exists i, occurs_at [c] s i /\ i < length s).
  { intros s Hin. apply in_split in Hin. destruct Hin as [a [b ->]]. exists (length a). split; [exists a, b; split; reflexivity|rewrite app_length; cbn; lia]. }
  intros s r H. induction H as [s Hn|a b r Hf Hr IH].
  - symmetry. apply Hid. intros Hin. destruct (Hocc s Hin) as [i [Hi _]]. exact (Hn i Hi).
  - rewrite !flat_map_app, IH. rewrite (Hid a).
    + cbn [flat_map]. rewrite Ascii.eqb_refl, app_nil_r. reflexivity.
    + intros Hin. destruct (Hocc a Hin) as [i [[x [y [Hx Hy]]] Hi]]. apply (Hf i Hi). exists x, (y ++ [c] ++ b). split; [exact Hx|].
      rewrite Hy, <- !app_assoc. reflexivity.
Qed.

Definition html_entity (c : ascii) : str :=
  if c =? "&" then ["&"; "a"; "m"; "p"; ";"] else if c =? "<" then ["&"; "l"; "t"; ";"] else if c =? ">" then ["&"; "g"; "t"; ";"] else [c].
Theorem C07_html_escape : forall s, exists fuel0, forall fuel, fuel0 <= fuel -> html_escape fuel s = Some (flat_map html_entity s).
Proof.
  intros s. unfold html_escape.
  destruct (C07_replace_all ["&"] ["&"; "a"; "m"; "p"; ";"] s ltac:(discriminate)) as [s1 [R1 F1]].
  destruct (C07_replace_all ["<"] ["&"; "l"; "t"; ";"] s1 ltac:(discriminate)) as [s2 [R2 F2]].
  destruct (C07_replace_all [">"] ["&"; "g"; "t"; ";"] s2 ltac:(discriminate)) as [s3 [R3 F3]].
  exists (S (length s + length s1 + length s2)). intros fuel Hf. rewrite F1 by lia. rewrite F2 by lia. rewrite F3 by lia.
  apply replaced_char in R1, R2, R3. f_equal. rewrite R3, R2, R1. clear. induction s as [|c s IH]; [reflexivity|].
  cbn [flat_map]. rewrite !flat_map_app, IH. f_equal. unfold html_entity.
  destruct (Ascii.eqb_spec c "&") as [->|H1]; [reflexivity|]. cbn [flat_map]. rewrite app_nil_r.
  destruct (Ascii.eqb_spec c "<") as [->|H2]; [reflexivity|]. cbn [flat_map]. rewrite app_nil_r. reflexivity.
Qed.
Print Assumptions C07_html_escape.

Example C07_nonvacuous : escape "\" DQ ["a"; DQ; NL; "\"] = ["a"; "\"; DQ; "\"; "n"; "\"; "\"] /\
  unescape "\" DQ ["\"; "x"; "\"; "n"] = Some ["\"; "x"; NL] /\
  replace_all 10 ["a"; "a"; "a"; "b"] ["a"; "a"] ["x"; "a"] = Some ["x"; "a"; "a"; "b"].
Proof. repeat split; vm_compute; reflexivity. Qed.

(** ** C08: LIKE *)
(** Patterns: [%], [_] and literal characters; parsing a pattern resolves the escapes. *)
Inductive ptok := PAny | POne | PLit (c : ascii).
Inductive parses (esc : ascii) : str -> list ptok -> Prop :=
| parse_nil : parses esc [] []
| parse_esc c p t : c = "_" \/ c = "%" \/ c = esc -> parses esc p t -> parses esc (esc :: c :: p) (PLit c :: t)
| parse_any p t : esc <> "%" -> parses esc p t -> parses esc ("%" :: p) (PAny :: t)
| parse_one p t : esc <> "_" -> parses esc p t -> parses esc ("_" :: p) (POne :: t)
| parse_lit c p t : c <> esc -> c <> "%" -> c <> "_" -> parses esc p t -> parses esc (c :: p) (PLit c :: t).
(** The language of a pattern. *)
Fixpoint matches (t : list ptok) (s : str) : Prop :=
  match t with
  | [] => s = []
  | POne :: t' => exists c s', s = c :: s' /\ matches t' s'
  | PLit c :: t' => exists s', s = c :: s' /\ matches t' s'
  | PAny :: t' => exists s1 s2, s = s1 ++ s2 /\ matches t' s2
  end.

Lemma matches_app t1 : forall t2 s, matches (t1 ++ t2) s <-> exists s1 s2, s = s1 ++ s2 /\ matches t1 s1 /\ matches t2 s2.
Proof.
  induction t1 as [|[| |c] t1 IH]; intros t2 s; cbn [app matches].
  - split; [intros H; exists [], s; auto|]. intros [s1 [s2 [-> [-> H]]]]. exact H.
  - split.
    + intros [a [b [-> H]]]. apply IH in H. destruct H as [s1 [s2 [-> [H1 H2]]]]. exists (a ++ s1), s2. rewrite app_assoc. split; [reflexivity|].
      split; [exists a, s1; auto|exact H2].
    + intros [s1 [s2 [-> [[a [b [-> H1]]] H2]]]]. exists a, (b ++ s2). rewrite app_assoc. split; [reflexivity|]. apply IH. exists b, s2. auto.
  - split.
    + intros [c [b [-> H]]]. apply IH in H. destruct H as [s1 [s2 [-> [H1 H2]]]]. exists (c :: s1), s2. split; [reflexivity|].
      split; [exists c, s1; auto|exact H2].
    + intros [s1 [s2 [-> [[c [b [-> H1]]] H2]]]]. exists c, (b ++ s2). split; [reflexivity|]. apply IH. exists b, s2. auto.
  - split.
    + intros [b [-> H]]. apply IH in H. destruct H as [s1 [s2 [-> [H1 H2]]]]. exists (c :: s1), s2. split; [reflexivity|].
      split; [exists s1; auto|exact H2].
    + intros [s1 [s2 [-> [[b [-> H1]] H2]]]]. exists (b ++ s2). split; [reflexivity|]. apply IH. exists b, s2. auto.
Qed.
Lemma matches_lit t c s x : matches (t ++ [PLit c]) (s ++ [x]) <-> x = c /\ matches t s.
Proof.
  rewrite matches_app. cbn [matches]. split.
  - intros [s1 [s2 [E [H1 [s' [-> ->]]]]]]. apply app_inj_tail in E. destruct E as [-> ->]. auto.
  - intros [-> H]. exists s, [c]. split; [reflexivity|]. split; [exact H|]. exists []. auto.
Qed.
Lemma matches_one t s x : matches (t ++ [POne]) (s ++ [x]) <-> matches t s.
Proof.
  rewrite matches_app. cbn [matches]. split.
  - intros [s1 [s2 [E [H1 [c [s' [-> ->]]]]]]]. apply app_inj_tail in E. destruct E as [-> _]. auto.
  - intros H. exists s, [x]. split; [reflexivity|]. split; [exact H|]. exists x, []. auto.
Qed.
Lemma matches_any t s x : matches (t ++ [PAny]) (s ++ [x]) <-> matches (t ++ [PAny]) s \/ matches t (s ++ [x]).
Proof.
  rewrite !matches_app. cbn [matches]. split.
  - intros [s1 [s2 [E [H1 _]]]].
    destruct s2 as [|y s2] using rev_ind.
    + right. rewrite app_nil_r in E. subst s1. exact H1.
    + left. rewrite app_assoc in E. apply app_inj_tail in E. destruct E as [-> _]. exists s1, s2. split; [reflexivity|]. split; [exact H1|].
      exists s2, []. rewrite app_nil_r. auto.
  - intros [[s1 [s2 [-> [H1 _]]]]|H].
    + exists s1, (s2 ++ [x]). rewrite app_assoc. split; [reflexivity|]. split; [exact H1|]. exists (s2 ++ [x]), []. rewrite app_nil_r. auto.
    + exists (s ++ [x]), []. rewrite app_nil_r. split; [reflexivity|]. split; [exact H|]. exists [], []. auto.
Qed.
Lemma matches_nil t k : matches (t ++ [k]) [] <-> k = PAny /\ matches t [].
Proof.
  rewrite matches_app. split.
  - intros [s1 [s2 [E [H1 H2]]]]. symmetry in E. apply app_eq_nil in E. destruct E as [-> ->]. split; [|exact H1].
    destruct k as [| |c]; cbn [matches] in H2; [reflexivity| |]; [destruct H2 as [c [s' [H _]]]|destruct H2 as [s' [H _]]]; discriminate.
  - intros [-> H]. exists [], []. split; [reflexivity|]. split; [exact H|]. exists [], []. repeat split.
Qed.

(** [row_for t done s row]: [row] lists, for the prefixes of [s] appended to [done], whether the pattern [t] matches. *)
Fixpoint row_for (t : list ptok) (done s : str) (row : list bool) {struct row} : Prop :=
  match row with
  | [] => False
  | b :: row' => (b = true <-> matches t done) /\
                 match s with [] => row' = [] | x :: s' => row_for t (done ++ [x]) s' row' end
  end.
Lemma row_for_last t : forall s done row, row_for t done s row -> (nth (length s) row false = true <-> matches t (done ++ s)).
Proof.
  induction s as [|x s IH]; intros done [|b row] H; try (destruct H; fail); cbn [row_for] in H; destruct H as [H1 H2]; cbn [length nth].
  - rewrite app_nil_r. exact H1.
  - rewrite IH by exact H2. rewrite <- app_assoc. reflexivity.
Qed.
Lemma row_for_first s : forall done, done <> [] -> row_for [] done s (false :: repeat false (length s)).
Proof.
  induction s as [|x s IH]; intros done Hd; cbn [length repeat row_for matches].
  - split; [split; [discriminate|contradiction]|reflexivity].
  - split; [split; [discriminate|contradiction]|]. apply IH. destruct done; discriminate.
Qed.

Definition tok_of (escaped : bool) (c : ascii) : ptok :=
  if escaped then PLit c else if c =? "%" then PAny else if c =? "_" then POne else PLit c.
Lemma like_row_spec escaped c t : forall s done diag up left, row_for t done s (diag :: up) ->
  (left = true <-> matches (t ++ [tok_of escaped c]) done) ->
  row_for (t ++ [tok_of escaped c]) done s (left :: like_row escaped c s diag up left).
Proof.
  induction s as [|x s IH]; intros done diag up left H Hl; cbn [row_for] in H; destruct H as [H1 H2].
  - cbn [like_row row_for]. split; [exact Hl|]. destruct up; reflexivity.
  - destruct up as [|u up]; [destruct H2|]. cbn [like_row]. cbn [row_for]. split; [exact Hl|].
    apply IH; [exact H2|]. cbn [row_for] in H2. destruct H2 as [H2 _]. unfold tok_of.
    destruct escaped; cbn [negb andb orb].
    + rewrite matches_lit. destruct (Ascii.eqb_spec x c) as [->|Hx]; [rewrite H1; tauto|]. split; [discriminate|intros [-> _]; contradiction].
    + unfold tok_of in Hl. destruct (Ascii.eqb_spec c "%") as [->|Hc1].
      * rewrite matches_any, orb_true_iff, Hl, H2. reflexivity.
      * destruct (Ascii.eqb_spec c "_") as [->|Hc2]; cbn [orb]; [rewrite matches_one; exact H1|]. rewrite matches_lit.
        destruct (Ascii.eqb_spec x c) as [->|Hx]; [rewrite H1; tauto|]. split; [discriminate|intros [-> _]; contradiction].
Qed.

(** Both loops of [like], for a pattern suffix, in the unescaped ([er <> i]) and the escaped ([er = i]) state. *)
Lemma like_main esc : esc <> "_" -> esc <> "%" -> forall n pat, length pat <= n ->
  (forall i er t0 row s prev, er < i -> row_for t0 [] s row -> (prev = true <-> matches t0 []) ->
     match like_col0 esc pat i er prev with
     | None => ~ exists t, parses esc pat t
     | Some col0 => exists t, parses esc pat t /\ row_for (t0 ++ t) [] s (like_rows esc s pat i er col0 row)
     end) /\
  (forall i t0 row s prev, row_for t0 [] s row ->
     match like_col0 esc pat i i prev with
     | None => ~ exists t, parses esc (esc :: pat) t
     | Some col0 => exists t, parses esc (esc :: pat) t /\ row_for (t0 ++ t) [] s (like_rows esc s pat i i col0 row)
     end).
Proof.
  intros He1 He2. induction n as [|n IH]; intros pat Hn.
  { destruct pat; [|cbn in Hn; lia]. split.
    - intros i er t0 row s prev Hi Hr Hp. cbn [like_col0]. destruct (Nat.eqb_spec i er); [lia|]. exists []. split; [constructor|].
      cbn [like_rows]. rewrite app_nil_r. exact Hr.
    - intros i t0 row s prev Hr. cbn [like_col0]. rewrite Nat.eqb_refl. intros [t Ht]. inversion Ht; subst; try congruence. }
  destruct pat as [|c pat].
  { apply (IH []). cbn. lia. }
  cbn [length] in Hn. destruct (IH pat ltac:(lia)) as [IH1 IH2]. split.
  - intros i er t0 row s prev Hi Hr Hp. cbn [like_col0]. destruct (Nat.eqb_spec i er) as [E|_]; [lia|]. cbn [negb andb].
    destruct (Ascii.eqb_spec c esc) as [->|Hc].
    + destruct (Ascii.eqb_spec esc "%") as [|_]; [contradiction|].
      specialize (IH2 (S i) t0 row s false Hr). destruct (like_col0 esc pat (S i) (S i) false) as [col0|] eqn:Ec; cbn [option_map]; [|exact IH2].
      cbn [like_rows]. destruct (Nat.eqb_spec i er) as [E|_]; [lia|]. rewrite Ascii.eqb_refl. cbn [negb andb]. exact IH2.
    + destruct row as [|d up]; [destruct Hr|].
      set (k := tok_of false c). set (cell := if c =? "%" then prev else false).
      assert (Hcell : cell = true <-> matches (t0 ++ [k]) []).
      { rewrite matches_nil. unfold cell, k, tok_of. destruct (Ascii.eqb_spec c "%") as [->|Hc1]; [rewrite Hp; tauto|].
        destruct (Ascii.eqb_spec c "_"); split; try discriminate; intros [H _]; discriminate. }
      specialize (IH1 (S i) er (t0 ++ [k]) (cell :: like_row false c s d up cell) s cell ltac:(lia)
        (like_row_spec false c t0 s [] d up cell Hr Hcell) Hcell).
      assert (Hk : forall t, parses esc (c :: pat) t <-> exists t', t = k :: t' /\ parses esc pat t').
      { intros t. split.
        - intros H. unfold k, tok_of. inversion H; subst; try congruence; eexists; (split; [|eassumption]); cbn.
          + reflexivity.
          + reflexivity.
          + destruct (Ascii.eqb_spec c "%"); [contradiction|]. destruct (Ascii.eqb_spec c "_"); [contradiction|]. reflexivity.
        - intros [t' [-> H]]. unfold k, tok_of. destruct (Ascii.eqb_spec c "%") as [->|]; [apply parse_any; auto|].
          destruct (Ascii.eqb_spec c "_") as [->|]; [apply parse_one; auto|apply parse_lit; auto]. }
      destruct (like_col0 esc pat (S i) er cell) as [col0|]; cbn [option_map].
      * destruct IH1 as [t [T1 T2]]. exists (k :: t). split; [apply Hk; eauto|]. cbn [like_rows].
        destruct (Nat.eqb_spec i er) as [E|_]; [lia|]. destruct (Ascii.eqb_spec c esc) as [|_]; [contradiction|]. cbn [negb andb].
        rewrite <- app_assoc in T2. exact T2.
      * intros [t Ht]. apply Hk in Ht. destruct Ht as [t' [_ Ht]]. apply IH1. eauto.
  - intros i t0 row s prev Hr. cbn [like_col0]. rewrite Nat.eqb_refl. cbn [negb andb].
    destruct (Ascii.eqb_spec c "_") as [H1|H1]; [|destruct (Ascii.eqb_spec c "%") as [H2|H2]; [|destruct (Ascii.eqb_spec c esc) as [H3|H3]]]; cbn [negb andb].
    4:{ intros [t Ht]. inversion Ht; subst; intuition congruence. }
    all: assert (Hval : c = "_" \/ c = "%" \/ c = esc) by tauto; clear IH2; destruct row as [|d up]; [destruct Hr|];
      assert (Hcell : false = true <-> matches (t0 ++ [PLit c]) []) by (rewrite matches_nil; split; [discriminate|intros [H _]; discriminate]);
      specialize (IH1 (S i) i (t0 ++ [PLit c]) (false :: like_row true c s d up false) s false ltac:(lia)
        (like_row_spec true c t0 s [] d up false Hr Hcell) Hcell);
      (destruct (like_col0 esc pat (S i) i false) as [col0|]; cbn [option_map];
       [destruct IH1 as [t [T1 T2]]; exists (PLit c :: t); split; [apply parse_esc; assumption|]; cbn [like_rows]; rewrite Nat.eqb_refl; cbn [negb andb];
        rewrite <- app_assoc in T2; exact T2
       |intros [t Ht]; apply IH1; inversion Ht; subst; try congruence; eauto]).
Qed.

Theorem C08_like : forall s pat esc, esc <> "_" -> esc <> "%" ->
  match like s pat esc with
  | LikeBool b => exists t, parses esc pat t /\ (b = true <-> matches t s)
  | LikeThrow => ~ exists t, parses esc pat t
  | LikeAssert => False
  end.
Proof.
  intros s pat esc He1 He2. unfold like.
  destruct (Ascii.eqb_spec esc "_"); [contradiction|]. destruct (Ascii.eqb_spec esc "%"); [contradiction|]. cbn [orb].
  assert (Hr : row_for [] [] s (true :: repeat false (length s))).
  { cbn [row_for matches]. split; [tauto|]. destruct s as [|x s]; [reflexivity|]. apply (row_for_first s [x]). discriminate. }
  destruct (like_main esc He1 He2 (length pat) pat (le_n _)) as [H _].
  specialize (H 1 0 [] _ s true ltac:(lia) Hr ltac:(cbn; tauto)).
  destruct (like_col0 esc pat 1 0 true) as [col0|]; [|exact H]. destruct H as [t [T1 T2]]. exists t. split; [exact T1|].
  apply (row_for_last _ _ _ _ T2).
Qed.
Print Assumptions C08_like.

(** Parsing is deterministic, so "the language of the pattern" is well defined. *)
Theorem C08_parse_unique : forall esc pat t1 t2, parses esc pat t1 -> parses esc pat t2 -> t1 = t2.
Proof.
  intros esc pat t1 t2 H. revert t2. induction H; intros t2 HP; inversion HP; subst; try congruence; f_equal; try (apply IHparses; assumption);
    intuition congruence.
Qed.
Print Assumptions C08_parse_unique.

Example C08_nonvacuous : like ["a"; "%"; "b"; "c"] ["_"; "\"; "%"; "%"; "c"] "\" = LikeBool true /\
  like ["a"; "b"] ["a"; "%"; "_"; "_"] "\" = LikeBool false /\ like ["a"] ["\"; "a"] "\" = LikeThrow /\ like [] ["%"; "\"] "\" = LikeThrow.
Proof. repeat split; vm_compute; reflexivity. Qed.
