(** * C62: command lines *)
From Coq Require Import Arith List Bool ZArith Lia String Ascii.
From Verif Require Import ArgParser ArgSpec ArgProofs.
Import ListNotations.
Local Open Scope list_scope.

(** ** Options by name *)
Lemma key_map_names opts : forall i, map fst (key_map i opts) = flat_map names opts.
Proof.
  induction opts as [|o opts IH]; intros i; [reflexivity|]. cbn [key_map flat_map]. rewrite !map_app, IH. unfold names.
  destruct (short_name o), (long_name o); reflexivity.
Qed.
Lemma key_map_in opts : forall i n j k, In (n, (j, k)) (key_map i opts) <-> i <= j /\ named opts n (j - i) k.
Proof.
  induction opts as [|o opts IH]; intros i n j k.
  - split; [intros []|]. intros (_ & o & E & _). destruct (j - i); discriminate.
  - cbn [key_map]. rewrite app_assoc, in_app_iff, IH.
    assert (H : In (n, (j, k)) (match short_name o with Some n => [(n, (i, o_kind o))] | None => [] end ++ match long_name o with Some n => [(n, (i, o_kind o))] | None => [] end) <->
                j = i /\ k = o_kind o /\ In n (names o)).
    { unfold names. destruct (short_name o) as [a|], (long_name o) as [b|]; cbn; (split; [intros H; repeat destruct H as [H|H]; try (injection H as <- <- <-); auto; try destruct H|]);
        intros (-> & -> & H); repeat destruct H as [<-|H]; auto. }
    rewrite H. clear H IH. unfold named. split.
    + intros [(-> & -> & I)|(L & o' & E & I & K)]; (split; [lia|]).
      * exists o. rewrite Nat.sub_diag. auto.
      * exists o'. replace (j - i) with (S (j - S i)) by lia. auto.
    + intros (L & o' & E & I & K). destruct (Nat.eq_dec j i) as [->|N].
      * left. rewrite Nat.sub_diag in E. cbn in E. injection E as ->. auto.
      * right. split; [lia|]. replace (j - i) with (S (j - S i)) in E by lia. exists o'. auto.
Qed.
Lemma lookup_in keys n x : NoDup (map fst keys) -> (lookup keys n = Some x <-> In (n, x) keys).
Proof.
  induction keys as [|[m y] keys IH]; intros N; [split; [discriminate|intros []]|]. cbn in N. inversion N as [|? ? Nm N']; subst. cbn.
  destruct (streq m n) eqn:E.
  - apply streq_eq in E. subst m. split; [intros H; injection H as ->; now left|]. intros [H|H]; [now injection H as ->|].
    exfalso. apply Nm. apply in_map_iff. exists (n, x). auto.
  - apply streq_neq in E. rewrite IH by exact N'. split; [auto|]. intros [H|H]; [congruence|exact H].
Qed.
Lemma lookup_named opts n i k : good_options opts -> (lookup (key_map 0 opts) n = Some (i, k) <-> named opts n i k).
Proof.
  intros [N _]. rewrite lookup_in by (rewrite key_map_names; exact N). rewrite key_map_in, Nat.sub_0_r. split; [tauto|]. split; [lia|assumption].
Qed.
Lemma lookup_not_named opts n : good_options opts -> (lookup (key_map 0 opts) n = None <-> not_named opts n).
Proof.
  intros G. split.
  - intros H i k X. apply (lookup_named opts n i k G) in X. congruence.
  - intros H. destruct (lookup (key_map 0 opts) n) as [[i k]|] eqn:E; [|reflexivity]. apply (lookup_named opts n i k G) in E. destruct (H i k E).
Qed.
Lemma named_kind opts n i k : good_options opts -> named opts n i k -> good_kind k.
Proof. intros [_ F] (o & E & _ & <-). exact (proj1 (Forall_forall _ _) F o (nth_error_In _ _ E)). Qed.

Lemma starts_with_dashes_iff a : starts_with_dashes a = true <-> exists s, a = 45 :: 45 :: s.
Proof.
  unfold starts_with_dashes. rewrite streq_eq. unfold dashes. destruct a as [|x [|y s]]; cbn; (split; [intros H|intros (t & H)]); try discriminate.
  - injection H as -> ->. eauto.
  - now injection H as -> ->.
Qed.

(** ** Reading *)
Definition give (es : list (nat * value)) (ps : list str) (r : result) : result :=
  match r with Ran es' ps' => Ran (es ++ es') (ps ++ ps') | Exit es' => Exit (es ++ es') | Crash => Crash end.
Lemma give_give e1 p1 e2 p2 r : give e1 p1 (give e2 p2 r) = give (e1 ++ e2) (p1 ++ p2) r.
Proof. destruct r; cbn; now rewrite <- ?app_assoc. Qed.
Lemma loop_item opts it rest : good_options opts -> good_item opts it ->
  parse_loop (key_map 0 opts) (render it ++ rest) = give (events_of it) (args_of it) (parse_loop (key_map 0 opts) rest).
Proof.
  intros G H. destruct it as [n i|n v i x|n|a]; cbn [render app parse_loop].
  - destruct H as [D N]. apply (lookup_named opts n i KBool G) in N. apply streq_neq in D. change [45; 45] with dashes in D. rewrite D, N. destruct (parse_loop _ rest); reflexivity.
  - destruct H as (D & k & B & N & V). apply streq_neq in D. change [45; 45] with dashes in D. rewrite D.
    apply (parse_value_iff k v x B (named_kind _ _ _ _ G N)) in V. apply (lookup_named opts n i k G) in N. rewrite N, V.
    destruct k; [congruence| | | |]; destruct (parse_loop _ rest); reflexivity.
  - destruct H as (D & N & S). apply streq_neq in D. change [45; 45] with dashes in D. rewrite D. apply (lookup_not_named opts n G) in N. rewrite N.
    apply starts_with_dashes_iff in S. rewrite S. destruct (parse_loop _ rest); reflexivity.
  - destruct H as [N S]. apply (lookup_not_named opts a G) in N. rewrite N.
    destruct (streq a dashes) eqn:D; [apply streq_eq in D; subst a; exfalso; exact (S [] eq_refl)|].
    destruct (starts_with_dashes a) eqn:X; [apply starts_with_dashes_iff in X; destruct X as (s & X); exfalso; exact (S s X)|].
    destruct (parse_loop _ rest); reflexivity.
Qed.
Lemma loop_items opts items rest : good_options opts -> Forall (good_item opts) items ->
  parse_loop (key_map 0 opts) (flat_map render items ++ rest) = give (flat_map events_of items) (flat_map args_of items) (parse_loop (key_map 0 opts) rest).
Proof.
  intros G. induction 1 as [|it items H _ IH]; [cbn; destruct (parse_loop _ rest); reflexivity|].
  cbn [flat_map]. rewrite <- app_assoc, loop_item by assumption. rewrite IH. apply give_give.
Qed.

(** The ways in which the parser ends the program: an option without its argument, or with one that is not a value of its type *)
Definition bad_end (opts : list opt) (l : list str) : Prop :=
  exists n i k more, l = n :: more /\ n <> [45; 45] /\ named opts n i k /\ k <> KBool /\
    (more = [] \/ exists v more', more = v :: more' /\ forall x, ~ value_of k v x).

Lemma loop_inv opts : good_options opts -> forall m l, List.length l <= m -> exists items last, l = flat_map render items ++ last /\ Forall (good_item opts) items /\
  ((exists args, ending last args /\ parse_loop (key_map 0 opts) last = Ran [] args) \/ (bad_end opts last /\ parse_loop (key_map 0 opts) last = Exit [])).
Proof.
  intros G. induction m as [|m IH]; intros l L.
  - destruct l; [|cbn in L; lia]. exists [], []. split; [reflexivity|]. split; [constructor|]. left. exists []. split; [constructor|reflexivity].
  - destruct l as [|a rest]; [exists [], []; split; [reflexivity|]; split; [constructor|]; left; exists []; split; [constructor|reflexivity]|].
    cbn in L. assert (Lr : List.length rest <= m) by lia.
    assert (Add : forall it r, good_item opts it -> List.length r <= m -> exists items last, render it ++ r = flat_map render items ++ last /\ Forall (good_item opts) items /\
      ((exists args, ending last args /\ parse_loop (key_map 0 opts) last = Ran [] args) \/ (bad_end opts last /\ parse_loop (key_map 0 opts) last = Exit []))).
    { intros it r Hi Lr'. destruct (IH r Lr') as (items & last & -> & F & E). exists (it :: items), last. cbn [flat_map]. rewrite app_assoc. auto. }
    destruct (streq a dashes) eqn:D.
    + apply streq_eq in D. subst a. exists [], (dashes :: rest). split; [reflexivity|]. split; [constructor|]. left. exists rest. split; [constructor|reflexivity].
    + pose proof D as D0. apply streq_neq in D. destruct (lookup (key_map 0 opts) a) as [[i k]|] eqn:Lk.
      * pose proof Lk as N. apply (lookup_named opts a i k G) in N. pose proof (named_kind _ _ _ _ G N) as Gk.
        assert (K : k = KBool \/ k <> KBool) by (destruct k; [now left|right; discriminate..]). destruct K as [->|K]; [apply (Add (Flag a i) rest); [split; assumption|exact Lr]|].
        assert (Bad : parse_loop (key_map 0 opts) (a :: rest) = Exit [] -> (rest = [] \/ exists v more', rest = v :: more' /\ forall x, ~ value_of k v x) ->
          exists items last, a :: rest = flat_map render items ++ last /\ Forall (good_item opts) items /\
          ((exists args, ending last args /\ parse_loop (key_map 0 opts) last = Ran [] args) \/ (bad_end opts last /\ parse_loop (key_map 0 opts) last = Exit []))).
        { intros P C. exists [], (a :: rest). split; [reflexivity|]. split; [constructor|]. right. split; [|exact P]. exists a, i, k, rest. auto. }
        destruct rest as [|v rest']; [apply Bad; [|now left]; cbn; rewrite D0, Lk; destruct k; congruence|].
        destruct (parse_value k v) as [x|] eqn:V.
        -- apply (parse_value_iff k v x K Gk) in V. apply (Add (Valued a v i x) rest'); [|cbn in Lr; lia]. split; [exact D|]. exists k. auto.
        -- apply Bad; [cbn; rewrite D0, Lk, V; destruct k; congruence|]. right. exists v, rest'. split; [reflexivity|]. intros x X.
           apply (parse_value_iff k v x K Gk) in X. congruence.
      * apply (lookup_not_named opts a G) in Lk. destruct (starts_with_dashes a) eqn:S.
        -- apply (Add (Unknown a) rest); [|exact Lr]. split; [exact D|]. split; [exact Lk|]. now apply starts_with_dashes_iff.
        -- apply (Add (Positional a) rest); [|exact Lr]. split; [exact Lk|]. intros s X. assert (starts_with_dashes a = true) by (apply starts_with_dashes_iff; eauto). congruence.
Qed.
Lemma bad_end_exit opts l : good_options opts -> bad_end opts l -> parse_loop (key_map 0 opts) l = Exit [].
Proof.
  intros G (n & i & k & more & -> & D & N & K & C). pose proof (named_kind _ _ _ _ G N) as Gk. apply (lookup_named opts n i k G) in N. apply streq_neq in D. change [45; 45] with dashes in D.
  cbn [parse_loop]. rewrite D, N. destruct C as [->|(v & more' & -> & C)]; [destruct k; congruence|].
  destruct (parse_value k v) as [x|] eqn:V; [apply (parse_value_iff k v x K Gk) in V; destruct (C x V)|]. destruct k; congruence.
Qed.
Lemma ending_ran opts last args : ending last args -> parse_loop (key_map 0 opts) last = Ran [] args.
Proof. intros [|a]; reflexivity. Qed.

(** ** The theorems *)
(** The parser runs to the end exactly on the command lines that consist of flags, options with a value of their type, unknown options, positional
    arguments and possibly "--" with further arguments; it invokes the callbacks of exactly these options in their order, with these values, and
    keeps exactly the positional arguments, in their order. *)
Theorem C62_parse : forall opts, good_options opts -> forall argv es ps,
  parse_args opts argv = Ran es ps <->
  exists program items last more, argv = program :: flat_map render items ++ last /\ Forall (good_item opts) items /\ ending last more /\
    es = flat_map events_of items /\ ps = flat_map args_of items ++ more.
Proof.
  intros opts G argv es ps. split.
  - intros H. destruct argv as [|p l]; [discriminate|]. cbn [parse_args] in H. destruct (loop_inv opts G (List.length l) l (le_n _)) as (items & last & -> & F & E).
    rewrite loop_items in H by assumption. destruct E as [(args & E & P)|(_ & P)]; rewrite P in H; [|discriminate]. cbn in H. injection H as <- <-.
    exists p, items, last, args. rewrite app_nil_r. auto.
  - intros (p & items & last & more & -> & F & E & -> & ->). cbn [parse_args]. rewrite loop_items by assumption. rewrite (ending_ran opts last more E). cbn. now rewrite app_nil_r.
Qed.
(** It ends the program exactly when an option lacks its argument or has one that is no value of its type; the callbacks of the options before it
    have been invoked. *)
Theorem C62_exit : forall opts, good_options opts -> forall argv es,
  parse_args opts argv = Exit es <->
  exists program items last, argv = program :: flat_map render items ++ last /\ Forall (good_item opts) items /\ bad_end opts last /\ es = flat_map events_of items.
Proof.
  intros opts G argv es. split.
  - intros H. destruct argv as [|p l]; [discriminate|]. cbn [parse_args] in H. destruct (loop_inv opts G (List.length l) l (le_n _)) as (items & last & -> & F & E).
    rewrite loop_items in H by assumption. destruct E as [(args & E & P)|(B & P)]; rewrite P in H; [discriminate|]. cbn in H. injection H as <-.
    exists p, items, last. rewrite app_nil_r. auto.
  - intros (p & items & last & -> & F & B & ->). cbn [parse_args]. rewrite loop_items by assumption. rewrite (bad_end_exit opts last G B). cbn. now rewrite app_nil_r.
Qed.
(** With at least the name of the program, nothing else can happen. *)
Theorem C62_total : forall opts program args, good_options opts -> parse_args opts (program :: args) <> Crash.
Proof.
  intros opts p l G H. cbn [parse_args] in H. destruct (loop_inv opts G (List.length l) l (le_n _)) as (items & last & -> & F & E).
  rewrite loop_items in H by assumption. destruct E as [(args & E & P)|(B & P)]; rewrite P in H; discriminate.
Qed.
(** Everything behind "--" is kept as it is. *)
Theorem C62_dashes : forall opts program args, parse_args opts (program :: [45; 45] :: args) = Ran [] args.
Proof. reflexivity. Qed.

(** Decimal numerals of numbers in range are read as these numbers, with or without sign. *)
Theorem C62_signed : forall w ds z, (1 <= w <= 64)%Z -> ds <> [] -> numeral ds z ->
  ((z < 2 ^ (w - 1))%Z -> parse_value (KSigned w) ds = Some (VInt z) /\ parse_value (KSigned w) (43 :: ds) = Some (VInt z)) /\
  ((z <= 2 ^ (w - 1))%Z -> parse_value (KSigned w) (45 :: ds) = Some (VInt (- z))) /\
  ((2 ^ (w - 1) <= z)%Z -> parse_value (KSigned w) ds = None) /\ ((2 ^ (w - 1) < z)%Z -> parse_value (KSigned w) (45 :: ds) = None).
Proof.
  intros w ds z W E N. pose proof (numeral_nonneg _ _ N) as P. assert (Q : (0 < 2 ^ (w - 1))%Z) by (apply Z.pow_pos_nonneg; lia).
  assert (S1 : says ds z) by (rewrite <- (app_nil_r ds); apply (S_plain [] ds [] z); [constructor|exact E|exact N|exact Logic.I]).
  assert (S2 : says (43 :: ds) z) by (rewrite <- (app_nil_r ds); apply (S_plus [] ds [] z); [constructor|exact E|exact N|exact Logic.I]).
  assert (S3 : says (45 :: ds) (- z)) by (rewrite <- (app_nil_r ds); apply (S_minus [] ds [] z); [constructor|exact E|exact N|exact Logic.I]).
  cbn [parse_value]. repeat split; intros.
  - replace (parse_signed w ds) with (Some z); [reflexivity|]. symmetry. apply parse_signed_iff; [exact W|]. split; [exact S1|lia].
  - replace (parse_signed w (43 :: ds)) with (Some z); [reflexivity|]. symmetry. apply parse_signed_iff; [exact W|]. split; [exact S2|lia].
  - replace (parse_signed w (45 :: ds)) with (Some (- z)%Z); [reflexivity|]. symmetry. apply parse_signed_iff; [exact W|]. split; [exact S3|lia].
  - destruct (parse_signed w ds) as [x|] eqn:X; [|reflexivity]. apply parse_signed_iff in X; [|exact W]. destruct X as [X R]. pose proof (says_unique _ _ _ X S1). lia.
  - destruct (parse_signed w (45 :: ds)) as [x|] eqn:X; [|reflexivity]. apply parse_signed_iff in X; [|exact W]. destruct X as [X R]. pose proof (says_unique _ _ _ X S3). lia.
Qed.
Theorem C62_unsigned : forall w ds z, (0 <= w <= 64)%Z -> ds <> [] -> numeral ds z ->
  ((z < 2 ^ w)%Z -> parse_value (KUnsigned w) ds = Some (VInt z)) /\ ((2 ^ w <= z)%Z -> parse_value (KUnsigned w) ds = None).
Proof.
  intros w ds z W E N. pose proof (numeral_nonneg _ _ N) as P. assert (Q : (2 ^ w <= 2 ^ 64)%Z) by (apply Z.pow_le_mono_r; lia).
  assert (S1 : says ds z) by (rewrite <- (app_nil_r ds); apply (S_plain [] ds [] z); [constructor|exact E|exact N|exact Logic.I]).
  cbn [parse_value]. split; intros R.
  - replace (parse_unsigned w ds) with (Some z); [reflexivity|]. symmetry. apply parse_unsigned_iff; [exact W|]. exists z.
    split; [exact S1|]. split; [lia|]. split; [symmetry; apply Z.mod_small; lia|exact R].
  - destruct (parse_unsigned w ds) as [x|] eqn:X; [|reflexivity]. apply parse_unsigned_iff in X; [|exact W]. destruct X as (y & Y & R1 & -> & R2).
    pose proof (says_unique _ _ _ Y S1). subst y. rewrite Z.mod_small in R2 by lia. lia.
Qed.
(** Lists of strings without commas are read back. *)
Theorem C62_list : forall l, Forall no_comma l -> l <> [[]] -> parse_value KList (join l) = Some (VList l).
Proof.
  intros l F N. apply parse_value_iff; [discriminate|exact Logic.I|]. destruct l as [|p l]; [constructor|]. constructor; [|exact F].
  destruct l as [|q l]; cbn; [intros ->; now apply N|]. destruct p; discriminate.
Qed.

(** ** Findings *)
(** The program may be started without arguments, not even its name ([argc] 0): the parser reads behind the end of the array. *)
Theorem C62_refuted_empty : forall opts, parse_args opts [] = Crash.
Proof. reflexivity. Qed.
(** What follows a number is ignored: "1e6" is 1, "10k" is 10. *)
Theorem C62_refuted_trailing : parse_value (KSigned 32) (lit "1e6") = Some (VInt 1) /\ parse_value (KUnsigned 64) (lit "10k") = Some (VInt 10).
Proof. split; reflexivity. Qed.
(** Negative numbers are accepted for unsigned options. *)
Theorem C62_refuted_negative : parse_value (KUnsigned 64) (lit "-1") = Some (VInt (2 ^ 64 - 1)) /\
  parse_value (KUnsigned 32) (lit "-18446744073709551615") = Some (VInt 1).
Proof. split; reflexivity. Qed.
(** A list of one empty string cannot be given. *)
Theorem C62_refuted_list : parse_value KList (join [[]]) = Some (VList []).
Proof. reflexivity. Qed.
(** A short option that does not exist is a positional argument. *)
Theorem C62_refuted_unknown : parse_args [] [lit "shell"; lit "-q"] = Ran [] [lit "-q"].
Proof. reflexivity. Qed.
(** An option whose argument has been forgotten takes the next option for it. *)
Theorem C62_refuted_forgotten : parse_args [mkopt None (Some (lit "--plan")) KString; mkopt (Some (lit "-q")) None KBool] [lit "shell"; lit "--plan"; lit "-q"] =
  Ran [(0, VStr (lit "-q"))] [].
Proof. reflexivity. Qed.

(** ** Examples *)
Definition opts_ex : list opt :=
  [mkopt (Some (lit "-h")) (Some (lit "--help")) KBool; mkopt None (Some (lit "--threads")) (KSigned 32); mkopt None (Some (lit "--files")) KList].
Example C62_ex_options : good_options opts_ex.
Proof.
  split; [|repeat constructor; cbn; lia]. repeat constructor; cbn; intros H; repeat destruct H as [H|H]; try discriminate; exact H.
Qed.
Example C62_ex_parse : parse_args opts_ex [lit "shell"; lit "a.sql"; lit "--threads"; lit " +08"; lit "--files"; lit "x,,y"; lit "-h"; lit "--nope"; lit "--"; lit "--help"] =
  Ran [(1, VInt 8); (2, VList [lit "x"; []; lit "y"]); (0, VBool)] [lit "a.sql"; lit "--help"].
Proof. reflexivity. Qed.
Example C62_ex_exit : parse_args opts_ex [lit "shell"; lit "-h"; lit "--threads"] = Exit [(0, VBool)] /\ parse_args opts_ex [lit "shell"; lit "--threads"; lit "x8"; lit "-h"] = Exit [] /\
  parse_args opts_ex [lit "shell"; lit "--threads"; lit "2147483648"] = Exit [] /\ parse_args opts_ex [lit "shell"; lit "--threads"; lit "-2147483648"] = Ran [(1, VInt (- 2147483648))] [].
Proof. repeat split. Qed.
Example C62_ex_numeral : numeral (lit "807") 807 /\ lit "807" <> [] /\ no_comma (lit "a b").
Proof.
  split; [|split; [discriminate|]].
  - change (lit "807") with ((([] ++ [48 + 8]) ++ [48 + 0]) ++ [48 + 7]). change 807%Z with (10 * (10 * (10 * 0 + Z.of_nat 8) + Z.of_nat 0) + Z.of_nat 7)%Z.
    repeat constructor; lia.
  - intros H. repeat destruct H as [H|H]; try discriminate. exact H.
Qed.
