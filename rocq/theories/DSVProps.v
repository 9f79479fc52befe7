(** * Properties of the DSV reader (C38) *)
From Coq Require Import Arith NArith ZArith Lia String Ascii List Bool.
From Verif Require Import Lexer LexerProps DSV.
Import ListNotations.
Local Open Scope N_scope.

Section Spec.
Variable float : Type.
Variable to_float : list N -> option float.
Local Notation val := (DSV.val float).
Local Notation tuple := (list (option val)).

(** ** Specification: the format *)
(** Characters that need no quotes: not the delimiter, the quote, a line feed, NUL or the byte 255. *)
Definition plain (cfg : config) (s : list N) : Prop := ~ In (delimiter cfg) s /\ ~ In (quote cfg) s /\ ~ In 10 s /\ ~ In 0 s /\ ~ In 255 s.
(** The inside of a quoted string. *)
Inductive escaped (cfg : config) : list N -> list N -> Prop :=
  | escaped_nil : escaped cfg [] []
  | escaped_char c s t : c <> quote cfg -> c <> escape cfg -> c <> 255 -> escaped cfg s t -> escaped cfg (c :: s) (c :: t)
  | escaped_quote s t : escape cfg = quote cfg -> escaped cfg s t -> escaped cfg (quote cfg :: s) (quote cfg :: quote cfg :: t)
  | escaped_escape c s t : escape cfg <> quote cfg -> c <> 255 -> escaped cfg s t -> escaped cfg (c :: s) (escape cfg :: c :: t).
(** The number denoted by decimal digits. *)
Definition value (ds : list N) : Z := fold_left (fun v c => 10 * v + (Z.of_N c - 48))%Z ds 0%Z.
Definition signed (sg : list N) (z : Z) (r : Z) : Prop := ((sg = [] \/ sg = chars "+") /\ r = z) \/ (sg = chars "-" /\ r = (- z)%Z).

(** The text of a value in a cell of a column. *)
Inductive cell (cfg : config) : ty -> val -> list N -> Prop :=
  | cell_bool (b : bool) : plain cfg (chars (if b then "TRUE" else "FALSE")) -> cell cfg TBool (VBool _ b) (chars (if b then "TRUE" else "FALSE"))
  | cell_plain s : s <> [] -> plain cfg s -> cell cfg TString (VString _ s) s
  | cell_quoted s t : ~ In 0 s -> escaped cfg s t -> cell cfg TString (VString _ s) (quote cfg :: t ++ [quote cfg])
  | cell_int sg ds z : ds <> [] -> Forall decdigit ds -> signed sg (value ds) z -> (value ds < 2 ^ 63)%Z -> plain cfg (sg ++ ds) ->
      cell cfg TInt (VInt _ z) (sg ++ ds)
  | cell_decimal sc sg ds fs z : ds <> [] -> Forall decdigit ds -> Forall decdigit fs -> (length fs <= sc)%nat ->
      signed sg (value ds * 10 ^ Z.of_nat sc + value fs * 10 ^ Z.of_nat (sc - length fs)) z ->
      (value ds * 10 ^ Z.of_nat sc + value fs * 10 ^ Z.of_nat (sc - length fs) < 2 ^ 63)%Z -> (10 ^ Z.of_nat sc < 2 ^ 63)%Z ->
      plain cfg (sg ++ ds ++ chars "." ++ fs) -> cell cfg (TDecimal sc) (VInt _ z) (sg ++ ds ++ chars "." ++ fs)
  | cell_decimal_int sc sg ds z : ds <> [] -> Forall decdigit ds -> signed sg (value ds * 10 ^ Z.of_nat sc) z ->
      (value ds * 10 ^ Z.of_nat sc < 2 ^ 63)%Z -> (10 ^ Z.of_nat sc < 2 ^ 63)%Z -> (value ds < 2 ^ 63)%Z -> plain cfg (sg ++ ds) ->
      cell cfg (TDecimal sc) (VInt _ z) (sg ++ ds)
  | cell_date s : date s -> plain cfg s -> cell cfg TDate (VDate _ (chars "d'" ++ s ++ chars "'")) s
  | cell_date_quoted s : date s -> plain cfg s -> cell cfg TDate (VDate _ (chars "d'" ++ s ++ chars "'")) (quote cfg :: s ++ [quote cfg])
  | cell_datetime d t : date d -> time t -> plain cfg (d ++ chars " " ++ t) ->
      cell cfg TDateTime (VDate _ (chars "d'" ++ (d ++ chars " " ++ t) ++ chars "'")) (d ++ chars " " ++ t)
  | cell_datetime_quoted d t : date d -> time t -> plain cfg (d ++ chars " " ++ t) ->
      cell cfg TDateTime (VDate _ (chars "d'" ++ (d ++ chars " " ++ t) ++ chars "'")) (quote cfg :: (d ++ chars " " ++ t) ++ [quote cfg])
  | cell_float s d : s <> [] -> plain cfg s -> to_float s = Some d -> cell cfg TFloat (VFloat _ d) s.
(** A cell of a column that the table does not have is ignored. *)
Inductive ignored (cfg : config) : list N -> Prop :=
  | ignored_plain s : plain cfg s -> ignored cfg s
  | ignored_quoted s : ~ In (quote cfg) s -> ~ In 10 s -> ~ In 255 s -> ignored cfg (quote cfg :: s ++ [quote cfg]).
(** A NULL is an empty cell. *)
Inductive field (cfg : config) : column -> option val -> list N -> Prop :=
  | field_null id t : field cfg (Some (id, t)) None []
  | field_value id t v s : cell cfg t v s -> field cfg (Some (id, t)) (Some v) s
  | field_ignored s : ignored cfg s -> field cfg None None s.
(** The fields of a record, separated by delimiters. *)
Inductive record (cfg : config) : list column -> list (option val) -> list N -> Prop :=
  | record_one c v s : field cfg c v s -> record cfg [c] [v] s
  | record_cons c v s cs vs t : field cfg c v s -> record cfg cs vs t -> record cfg (c :: cs) (v :: vs) (s ++ delimiter cfg :: t).
(** A file: records end with a line feed, the last one need not unless its last field is NULL; records with too few fields count for nothing. *)
Inductive file (cfg : config) (cols : list column) : list (list (option val)) -> list N -> Prop :=
  | file_nil : file cfg cols [] []
  | file_record vs s rs t : record cfg cols vs s -> file cfg cols rs t -> file cfg cols (vs :: rs) (s ++ 10 :: t)
  | file_last vs s : record cfg cols vs s -> s <> [] -> last vs None <> None -> file cfg cols [vs] s
  | file_short vs s more rs t k : cols = k ++ more -> more <> [] -> record cfg k vs s -> file cfg cols rs t -> file cfg cols rs (s ++ 10 :: t).
(** The row of a record: every attribute of the table has the value of the (last) field of its column; the attributes without a column are NULL;
    the attributes [b] and [e] of the time stamps have the start time and -1. *)
Definition row_at (cols : list column) (vs : list (option val)) (i : nat) (v : option val) : Prop :=
  (exists k t, nth_error cols k = Some (Some (i, t)) /\ nth_error vs k = Some v /\ forall k' t', (k < k')%nat -> nth_error cols k' <> Some (Some (i, t')))
  \/ ((forall k t, nth_error cols k <> Some (Some (i, t))) /\ v = None).
Definition is_row (n : nat) (cols : list column) (ts : option (nat * nat * Z)) (vs : list (option val)) (row : tuple) : Prop :=
  length row = n /\ forall i v, nth_error row i = Some v ->
    match ts with
    | Some (b, e, start) => if (i =? e)%nat then v = Some (VInt _ (-1)) else if (i =? b)%nat then v = Some (VInt _ start) else row_at cols vs i v
    | None => row_at cols vs i v
    end.
(** The columns of a file without header: the visible attributes, in order, with their positions. *)
Definition visible_columns (attrs : list attr) : list column :=
  map (fun p => Some (fst p, aty (snd p))) (filter (fun p => negb (ahidden (snd p))) (combine (seq 0 (length attrs)) attrs)).
(** The column of a name in the header: the first attribute of that name, if any. *)
Definition column_named (attrs : list attr) (name : list N) (c : column) : Prop :=
  (exists i a, nth_error attrs i = Some a /\ aname a = name /\ c = Some (i, aty a) /\ forall i' a', (i' < i)%nat -> nth_error attrs i' = Some a' -> aname a' <> name)
  \/ ((forall a, In a attrs -> aname a <> name) /\ c = None).

Definition ok_config (cfg : config) : Prop :=
  delimiter cfg <> quote cfg /\ delimiter cfg <> 10 /\ delimiter cfg <> 255 /\ quote cfg <> 10 /\ quote cfg <> 255 /\ escape cfg <> 255
  /\ ~ decdigit (delimiter cfg) /\ delimiter cfg <> chr ".".

(** ** Cells *)
Local Notation ends_ cfg := (fun c => ends cfg c = true).
Lemma ends_spec : forall cfg c, ends cfg c = true <-> c = 255 \/ c = 10 \/ c = delimiter cfg.
Proof. intros cfg c. unfold ends, eol, EOF. rewrite !orb_true_iff, !N.eqb_eq. tauto. Qed.
Lemma eol_spec : forall c, eol c = true <-> c = 255 \/ c = 10.
Proof. intros c. unfold eol, EOF. rewrite !orb_true_iff, !N.eqb_eq. tauto. Qed.
(** [r] is empty or begins with a character that ends a cell. *)
Definition stops (cfg : config) (r : list N) : Prop := r = [] \/ starts (fun c => c = 10 \/ c = delimiter cfg) r.
Lemma stops_cur : forall cfg r, stops cfg r -> ends cfg (cur r) = true.
Proof.
  intros cfg r [->|(c & q & -> & H)]; apply ends_spec; cbn; tauto.
Qed.
Lemma until_run : forall f s r, Forall (fun c => f c = false) s -> r = [] \/ starts (fun c => f c = true) r -> until f (s ++ r) = (s, r).
Proof.
  intros f s r H R. induction H as [|c s Hc H IH]; cbn [app].
  - destruct R as [->|(c & q & -> & E)]; [reflexivity|]. cbn. now rewrite E.
  - cbn [until]. rewrite Hc, IH. reflexivity.
Qed.
Lemma until_any : forall f s, exists a r, until f s = (a, r) /\ s = a ++ r /\ Forall (fun c => f c = false) a /\ (r = [] \/ starts (fun c => f c = true) r).
Proof.
  intros f s. induction s as [|c s (a & r & A & B & C & D)].
  - exists [], []. repeat split; auto.
  - cbn [until]. destruct (f c) eqn:E.
    + exists [], (c :: s). repeat split; auto. right. exists c, s. auto.
    + rewrite A. exists (c :: a), r. rewrite B. repeat split; auto.
Qed.
Lemma stops_starts : forall cfg r, stops cfg r -> r = [] \/ starts (fun c => ends cfg c = true) r.
Proof. intros cfg r [->|(c & q & -> & H)]; [left; reflexivity|right]. exists c, q. split; [reflexivity|]. apply ends_spec. tauto. Qed.
Lemma plain_forall : forall cfg s, plain cfg s -> Forall (fun c => ends cfg c = false) s.
Proof.
  intros cfg s (A & B & C & D & E). apply Forall_forall. intros c I. destruct (ends cfg c) eqn:X; [|reflexivity].
  apply ends_spec in X. destruct X as [->|[->| ->]]; contradiction.
Qed.
Lemma until_plain : forall cfg s r, plain cfg s -> stops cfg r -> until (ends cfg) (s ++ r) = (s, r).
Proof. intros. apply until_run; [now apply plain_forall|now apply stops_starts]. Qed.
Lemma discard_stops : forall cfg r, ok_config cfg -> stops cfg r -> discard_cell cfg r = r.
Proof.
  intros cfg r (O1 & O2 & O3 & O4 & O5 & O6 & O7 & O8) H. unfold discard_cell.
  destruct (cur r =? quote cfg) eqn:E.
  - apply N.eqb_eq in E. destruct H as [->|(c & q & -> & H)]; cbn in E; [congruence|]. destruct H; congruence.
  - unfold skip_until. pose proof (until_run (ends cfg) [] r (Forall_nil _) (stops_starts _ _ H)) as X. cbn [app] in X. now rewrite X.
Qed.
Lemma cur_app : forall c s r, cur ((c :: s) ++ r) = c.
Proof. reflexivity. Qed.

Definition reads_as (t : ty) (cfg : config) (s : list N) (v : val) : Prop :=
  forall r, stops cfg r -> read_value float to_float t cfg (s ++ r) = (Set_ _ v, r).

Lemma read_bool_cell : forall cfg (b : bool), plain cfg (chars (if b then "TRUE" else "FALSE")) -> reads_as TBool cfg (chars (if b then "TRUE" else "FALSE")) (VBool _ b).
Proof.
  intros cfg b P r R. cbn [read_value]. unfold read_bool. rewrite (until_plain _ _ _ P R). destruct b; reflexivity.
Qed.
Lemma existsb_not : forall x s, ~ In x s -> existsb (N.eqb x) s = false.
Proof.
  intros x s H. destruct (existsb (N.eqb x) s) eqn:E; [|reflexivity]. apply existsb_exists in E. destruct E as (y & A & B). apply N.eqb_eq in B. subst. contradiction.
Qed.
Lemma read_plain_cell : forall cfg s, s <> [] -> plain cfg s -> reads_as TString cfg s (VString _ s).
Proof.
  intros cfg s Ne P r R. cbn [read_value]. unfold read_string. destruct P as (A & B & C & D & E) eqn:X. clear X.
  destruct s as [|c s]; [congruence|]. unfold accept_. rewrite cur_app.
  destruct (c =? quote cfg) eqn:F; [apply N.eqb_eq in F; subst; exfalso; apply B; left; reflexivity|].
  rewrite (until_plain _ _ _ P R). rewrite existsb_not by exact B. now rewrite cstr_no_nul.
Qed.
Lemma rfc_run : forall cfg s t, escaped cfg s t -> escape cfg = quote cfg -> quote cfg <> 255 -> forall r, cur r <> quote cfg ->
  quoted_rfc (quote cfg) (t ++ quote cfg :: r) = (s, r).
Proof.
  intros cfg s t H E Q r R. induction H as [|c s t A B C H IH|s t A H IH|c s t A B H IH]; cbn [app quoted_rfc]; unfold EOF.
  - destruct (quote cfg =? 255) eqn:X; [apply N.eqb_eq in X; contradiction|]. rewrite N.eqb_refl. cbn [negb].
    destruct r as [|c2 r2]; [reflexivity|]. cbn in R. apply N.eqb_neq in R. now rewrite R.
  - apply N.eqb_neq in A, C. rewrite C, A. cbn [negb]. now rewrite IH.
  - destruct (quote cfg =? 255) eqn:X; [apply N.eqb_eq in X; contradiction|]. rewrite N.eqb_refl. cbn [negb]. now rewrite IH.
  - contradiction.
Qed.
Lemma esc_run : forall cfg s t, escaped cfg s t -> escape cfg <> quote cfg -> quote cfg <> 255 -> escape cfg <> 255 -> forall r,
  quoted_esc (quote cfg) (escape cfg) (t ++ quote cfg :: r) = (s, r).
Proof.
  intros cfg s t H E Q E2 r. induction H as [|c s t A B C H IH|s t A H IH|c s t A B H IH]; cbn [app quoted_esc]; unfold EOF.
  - destruct (quote cfg =? 255) eqn:X; [apply N.eqb_eq in X; contradiction|]. now rewrite N.eqb_refl.
  - apply N.eqb_neq in A, B, C. rewrite C, A, B. now rewrite IH.
  - contradiction.
  - destruct (escape cfg =? 255) eqn:X; [apply N.eqb_eq in X; contradiction|]. destruct (escape cfg =? quote cfg) eqn:Y; [apply N.eqb_eq in Y; contradiction|].
    rewrite N.eqb_refl. now rewrite IH.
Qed.
Lemma stops_not_quote : forall cfg r, ok_config cfg -> stops cfg r -> cur r <> quote cfg.
Proof. intros cfg r (O1 & O2 & O3 & O4 & O5 & O6 & O7 & O8) [->|(c & q & -> & H)]; cbn; [congruence|]. destruct H; congruence. Qed.
Lemma read_quoted_cell : forall cfg s t, ok_config cfg -> ~ In 0 s -> escaped cfg s t -> reads_as TString cfg (quote cfg :: t ++ [quote cfg]) (VString _ s).
Proof.
  intros cfg s t O N0 E r R. pose proof (stops_not_quote _ _ O R) as Q. destruct O as (O1 & O2 & O3 & O4 & O5 & O6 & O7 & O8).
  cbn [read_value]. unfold read_string, accept_. cbn [app cur tl]. rewrite N.eqb_refl. rewrite <- app_assoc. cbn [app].
  destruct (escape cfg =? quote cfg) eqn:X.
  - apply N.eqb_eq in X. rewrite (rfc_run cfg s t E X O5 r Q). now rewrite cstr_no_nul.
  - apply N.eqb_neq in X. rewrite (esc_run cfg s t E X O5 O6 r). now rewrite cstr_no_nul.
Qed.

(** Numbers. *)
Lemma wrap_id : forall z, (- 2 ^ 63 <= z < 2 ^ 63)%Z -> wrap z = z.
Proof. intros z H. unfold wrap. change (2 ^ 64)%Z with (2 * 2 ^ 63)%Z. rewrite Z.mod_small; lia. Qed.
Definition value_from (v : Z) (ds : list N) : Z := fold_left (fun v c => 10 * v + (Z.of_N c - 48))%Z ds v.
Lemma decdigit_range : forall c, decdigit c -> (0 <= Z.of_N c - 48 <= 9)%Z.
Proof. intros c H. apply is_dec_spec in H. unfold is_dec, chr in H. cbn in H. rewrite andb_true_iff, !N.leb_le in H. lia. Qed.
Lemma value_from_ge : forall ds v, Forall decdigit ds -> (0 <= v)%Z -> (v <= value_from v ds)%Z.
Proof.
  induction ds as [|c ds IH]; intros v H V; cbn [value_from fold_left]; [lia|]. inversion H as [|? ? Hc Hs]; subst.
  pose proof (decdigit_range c Hc). specialize (IH (10 * v + (Z.of_N c - 48))%Z Hs ltac:(lia)). unfold value_from in IH. lia.
Qed.
Lemma value_nonneg : forall ds, Forall decdigit ds -> (0 <= value ds)%Z.
Proof. intros ds H. apply (value_from_ge ds 0 H). lia. Qed.
Lemma read_digits_run : forall ds v r, Forall decdigit ds -> (0 <= v)%Z -> (value_from v ds < 2 ^ 63)%Z -> ~ starts decdigit r ->
  read_digits v (ds ++ r) = (value_from v ds, r).
Proof.
  induction ds as [|c ds IH]; intros v r H V B R.
  - cbn [app value_from fold_left]. destruct r as [|c r]; [reflexivity|]. cbn [read_digits].
    destruct (is_dec c) eqn:E; [|reflexivity]. exfalso. apply R. exists c, r. split; [reflexivity|]. now apply is_dec_spec.
  - inversion H as [|? ? Hc Hs]; subst. cbn [app read_digits]. pose proof (decdigit_range c Hc) as G. apply is_dec_spec in Hc. rewrite Hc.
    assert (X : (10 * v + Z.of_N c - 48 = 10 * v + (Z.of_N c - 48))%Z) by lia. rewrite X. clear X.
    change (value_from v (c :: ds)) with (value_from (10 * v + (Z.of_N c - 48)) ds) in *.
    assert (L : (10 * v + (Z.of_N c - 48) <= value_from (10 * v + (Z.of_N c - 48)) ds)%Z) by (apply value_from_ge; auto; lia).
    rewrite wrap_id by lia. apply IH; auto; lia.
Qed.
Lemma sign_run_ : forall sg r, (sg = [] \/ sg = chars "+" \/ sg = chars "-") -> cur r <> chr "-" -> cur r <> chr "+" ->
  sign_ (sg ++ r) = (if list_eq_dec N.eq_dec sg (chars "-") then true else false, r).
Proof.
  intros sg r H A B. unfold sign_, accept_. apply N.eqb_neq in A, B. destruct H as [->|[->| ->]]; cbn [app].
  - rewrite A, B. reflexivity.
  - reflexivity.
  - reflexivity.
Qed.
Lemma digit_cur : forall ds r, Forall decdigit ds -> ds <> [] -> cur (ds ++ r) <> chr "-" /\ cur (ds ++ r) <> chr "+".
Proof.
  intros ds r H N0. destruct ds as [|c ds]; [congruence|]. inversion H as [|? ? Hc _]; subst. cbn. apply is_dec_spec in Hc.
  split; intros ->; discriminate Hc.
Qed.
Lemma signed_cases : forall sg z r, signed sg z r -> (sg = [] \/ sg = chars "+" \/ sg = chars "-") /\ (if list_eq_dec N.eq_dec sg (chars "-") then - z else z)%Z = r.
Proof.
  intros sg z r [[[->| ->] ->]|[-> ->]]; (split; [auto|reflexivity]).
Qed.
Lemma stops_not_digit : forall cfg r, ok_config cfg -> stops cfg r -> ~ starts decdigit r /\ cur r <> chr ".".
Proof.
  intros cfg r (O1 & O2 & O3 & O4 & O5 & O6 & O7 & O8) [->|(c & q & -> & [->| ->])].
  - split; [intros (x & y & X & _); discriminate|discriminate].
  - split; [intros (x & y & X & Y); injection X as <- _; apply is_dec_spec in Y; discriminate|discriminate].
  - split; [intros (x & y & X & Y); injection X as <- _; contradiction|exact O8].
Qed.
Lemma finish_run : forall cfg sg z v r, stops cfg r -> signed sg z v -> (0 <= z < 2 ^ 63)%Z ->
  finish float cfg (if list_eq_dec N.eq_dec sg (chars "-") then true else false) z r = (Set_ _ (VInt _ v), r).
Proof.
  intros cfg sg z v r R S B. unfold finish. rewrite (stops_cur _ _ R). cbn [negb]. destruct (signed_cases _ _ _ S) as [_ <-].
  destruct (list_eq_dec N.eq_dec sg (chars "-")); [rewrite wrap_id by lia|]; reflexivity.
Qed.
Lemma read_int_cell : forall cfg sg ds z, ok_config cfg -> ds <> [] -> Forall decdigit ds -> signed sg (value ds) z -> (value ds < 2 ^ 63)%Z ->
  reads_as TInt cfg (sg ++ ds) (VInt _ z).
Proof.
  intros cfg sg ds z O N0 F S B r R. cbn [read_value]. unfold read_int. rewrite <- app_assoc.
  destruct (signed_cases _ _ _ S) as [C _]. destruct (digit_cur ds r F N0) as [D1 D2]. rewrite (sign_run_ sg _ C D1 D2).
  destruct (stops_not_digit _ _ O R) as [Nd _]. rewrite (read_digits_run ds 0 r F ltac:(lia) B Nd).
  apply finish_run; auto. split; [now apply value_nonneg|exact B].
Qed.
Lemma read_post_run : forall fs n p r, Forall decdigit fs -> (length fs <= n)%nat -> (0 <= p)%Z -> (value_from p fs < 2 ^ 63)%Z -> ~ starts decdigit r ->
  read_post n p (fs ++ r) = ((n - length fs)%nat, value_from p fs, r).
Proof.
  induction fs as [|c fs IH]; intros n p r H L V B R.
  - cbn [app length value_from fold_left]. rewrite Nat.sub_0_r. destruct n as [|n]; [reflexivity|]. cbn [read_post].
    destruct r as [|c r]; [reflexivity|]. destruct (is_dec c) eqn:E; [|reflexivity]. exfalso. apply R. exists c, r. split; [reflexivity|]. now apply is_dec_spec.
  - destruct n as [|n]; [cbn in L; lia|]. inversion H as [|? ? Hc Hs]; subst. cbn [app read_post length]. pose proof (decdigit_range c Hc) as G.
    apply is_dec_spec in Hc. rewrite Hc. assert (X : (10 * p + Z.of_N c - 48 = 10 * p + (Z.of_N c - 48))%Z) by lia. rewrite X. clear X.
    change (value_from p (c :: fs)) with (value_from (10 * p + (Z.of_N c - 48)) fs) in *.
    assert (Y : (10 * p + (Z.of_N c - 48) <= value_from (10 * p + (Z.of_N c - 48)) fs)%Z) by (apply value_from_ge; auto; lia).
    rewrite wrap_id by lia. cbn in L. rewrite IH; [now rewrite Nat.sub_succ|exact Hs|lia|lia|exact B|exact R].
Qed.
Lemma pow10_pos : forall n, (1 <= 10 ^ Z.of_nat n)%Z.
Proof. intros n. assert (0 < 10 ^ Z.of_nat n)%Z by (apply Z.pow_pos_nonneg; lia). lia. Qed.
Lemma pow10_le : forall a b, (a <= b)%nat -> (10 ^ Z.of_nat a <= 10 ^ Z.of_nat b)%Z.
Proof. intros a b H. apply Z.pow_le_mono_r; lia. Qed.
Lemma le_mul : forall a b, (0 <= a)%Z -> (1 <= b)%Z -> (a <= a * b)%Z.
Proof. intros a b A B. nia. Qed.
Lemma powi_id : forall n, (10 ^ Z.of_nat n < 2 ^ 63)%Z -> powi n = (10 ^ Z.of_nat n)%Z.
Proof. intros n H. unfold powi. pose proof (pow10_pos n). apply wrap_id. lia. Qed.
Lemma read_decimal_int_cell : forall cfg sc sg ds z, ok_config cfg -> ds <> [] -> Forall decdigit ds -> signed sg (value ds * 10 ^ Z.of_nat sc) z ->
  (value ds * 10 ^ Z.of_nat sc < 2 ^ 63)%Z -> (10 ^ Z.of_nat sc < 2 ^ 63)%Z -> reads_as (TDecimal sc) cfg (sg ++ ds) (VInt _ z).
Proof.
  intros cfg sc sg ds z O N0 F S B B2 r R. cbn [read_value]. unfold read_decimal. rewrite <- app_assoc.
  destruct (signed_cases _ _ _ S) as [C _]. destruct (digit_cur ds r F N0) as [D1 D2]. rewrite (sign_run_ sg _ C D1 D2).
  pose proof (value_nonneg ds F) as V. pose proof (pow10_pos sc) as P. pose proof (le_mul _ _ V P) as LM.
  destruct (stops_not_digit _ _ O R) as [Nd Ndot]. rewrite (read_digits_run ds 0 r F ltac:(lia)); [|change (value_from 0 ds) with (value ds); lia|exact Nd].
  change (value_from 0 ds) with (value ds). rewrite (powi_id sc B2). rewrite wrap_id by lia.
  unfold accept_. apply N.eqb_neq in Ndot. rewrite Ndot. apply finish_run; auto. lia.
Qed.
Lemma skip_digits : forall r, ~ starts decdigit r -> skip_until (fun c => negb (is_dec c)) r = r.
Proof.
  intros r H. unfold skip_until. destruct r as [|c r]; [reflexivity|]. cbn [until]. destruct (is_dec c) eqn:E; [|reflexivity].
  exfalso. apply H. exists c, r. split; [reflexivity|]. now apply is_dec_spec.
Qed.
Lemma read_decimal_cell : forall cfg sc sg ds fs z, ok_config cfg -> ds <> [] -> Forall decdigit ds -> Forall decdigit fs -> (length fs <= sc)%nat ->
  signed sg (value ds * 10 ^ Z.of_nat sc + value fs * 10 ^ Z.of_nat (sc - length fs)) z ->
  (value ds * 10 ^ Z.of_nat sc + value fs * 10 ^ Z.of_nat (sc - length fs) < 2 ^ 63)%Z -> (10 ^ Z.of_nat sc < 2 ^ 63)%Z ->
  reads_as (TDecimal sc) cfg (sg ++ ds ++ chars "." ++ fs) (VInt _ z).
Proof.
  intros cfg sc sg ds fs z O N0 F Ff L S B B2 r R. cbn [read_value]. unfold read_decimal.
  replace ((sg ++ ds ++ chars "." ++ fs) ++ r) with (sg ++ ds ++ chr "." :: (fs ++ r)) by (rewrite <- !app_assoc; reflexivity).
  destruct (signed_cases _ _ _ S) as [C _]. destruct (digit_cur ds (chr "." :: (fs ++ r)) F N0) as [D1 D2]. rewrite (sign_run_ sg _ C D1 D2).
  pose proof (value_nonneg ds F) as V. pose proof (value_nonneg fs Ff) as Vf. pose proof (pow10_pos sc) as P. pose proof (pow10_pos (sc - length fs)) as P'.
  pose proof (le_mul _ _ V P) as LM. pose proof (le_mul _ _ Vf P') as LM'. pose proof (pow10_le (sc - length fs) sc ltac:(lia)) as PL.
  destruct (stops_not_digit _ _ O R) as [Nd Ndot].
  set (a := (value ds * 10 ^ Z.of_nat sc)%Z) in *. set (b := (value fs * 10 ^ Z.of_nat (sc - length fs))%Z) in *.
  assert (A0 : (0 <= a)%Z) by lia. assert (B0 : (0 <= b)%Z) by lia.
  rewrite (read_digits_run ds 0 (chr "." :: (fs ++ r)) F ltac:(lia)).
  2:{ change (value_from 0 ds) with (value ds). lia. }
  2:{ intros (x & y & X & Y). injection X as <- _. apply is_dec_spec in Y. discriminate. }
  change (value_from 0 ds) with (value ds). rewrite (powi_id sc B2). fold a. rewrite (wrap_id a) by lia.
  unfold accept_. cbn [cur tl]. rewrite N.eqb_refl.
  rewrite (read_post_run fs sc 0 r Ff L ltac:(lia)); [|change (value_from 0 fs) with (value fs); lia|exact Nd].
  change (value_from 0 fs) with (value fs). rewrite (powi_id (sc - length fs)) by lia. fold b. rewrite (wrap_id b) by lia.
  rewrite (skip_digits r Nd). destruct (0 <=? a)%Z eqn:E; [|apply Z.leb_gt in E; lia]. rewrite (wrap_id (a + b)) by lia. apply finish_run; auto. lia.
Qed.
Lemma read_float_cell : forall cfg s d, plain cfg s -> to_float s = Some d -> reads_as TFloat cfg s (VFloat _ d).
Proof.
  intros cfg s d P E r R. cbn [read_value]. unfold read_float. rewrite (until_plain _ _ _ P R). destruct P as (_ & _ & _ & N0 & _).
  rewrite cstr_no_nul by exact N0. now rewrite E.
Qed.

(** Dates. *)
Lemma read_items_app : forall is js s, read_items (is ++ js) s =
  let '(ok, a, s1) := read_items is s in
  if ok then let '(ok2, b, s2) := read_items js s1 in (ok2, a ++ b, s2) else (false, a, s1).
Proof.
  induction is as [|i is IH]; intros js s; cbn [app read_items].
  - now destruct (read_items js s) as [[? ?] ?].
  - destruct (matches i (cur s)); [|reflexivity]. rewrite IH. destruct (read_items is (tl s)) as [[ok a] s1]. destruct ok; [|reflexivity].
    now destruct (read_items js s1) as [[? ?] ?].
Qed.
Lemma read_digit_items : forall n ds r, digits_n n ds -> read_items (repeat D n) (ds ++ r) = (true, ds, r).
Proof.
  induction n as [|n IH]; intros ds r [F L]; destruct ds as [|c ds]; try discriminate; [reflexivity|]. inversion F as [|? ? Hc Hs]; subst. injection L as L.
  cbn [repeat read_items app cur tl matches]. apply is_dec_spec in Hc. rewrite Hc. rewrite IH; [reflexivity|]. split; auto.
Qed.
Lemma read_lit : forall c r, read_items [L c] ([c] ++ r) = (true, [c], r).
Proof. intros c r. cbn. now rewrite N.eqb_refl. Qed.
Lemma read_date_items : forall y m d r, digits_n 4 y -> digits_n 2 m -> digits_n 2 d ->
  read_items date_items (y ++ chars "-" ++ m ++ chars "-" ++ d ++ r) = (true, y ++ chars "-" ++ m ++ chars "-" ++ d, r).
Proof.
  intros y m d r Y M D0. change date_items with (repeat D 4 ++ [L (chr "-")] ++ repeat D 2 ++ [L (chr "-")] ++ repeat D 2).
  change (chars "-") with [chr "-"].
  rewrite read_items_app, (read_digit_items 4 y _ Y), read_items_app, read_lit, read_items_app, (read_digit_items 2 m _ M), read_items_app, read_lit.
  rewrite (read_digit_items 2 d _ D0). reflexivity.
Qed.
Lemma read_time_items : forall h m s r, digits_n 2 h -> digits_n 2 m -> digits_n 2 s ->
  read_items time_items (chars " " ++ h ++ chars ":" ++ m ++ chars ":" ++ s ++ r) = (true, chars " " ++ h ++ chars ":" ++ m ++ chars ":" ++ s, r).
Proof.
  intros h m s r H M S. change time_items with ([L (chr " ")] ++ repeat D 2 ++ [L (chr ":")] ++ repeat D 2 ++ [L (chr ":")] ++ repeat D 2).
  change (chars ":") with [chr ":"]. change (chars " ") with [chr " "].
  rewrite read_items_app, read_lit, read_items_app, (read_digit_items 2 h _ H), read_items_app, read_lit, read_items_app, (read_digit_items 2 m _ M), read_items_app, read_lit.
  rewrite (read_digit_items 2 s _ S). reflexivity.
Qed.
(** [s] is a sign and the items. *)
Definition item_text (is : list item) (s : list N) : Prop :=
  exists sg a, s = sg ++ a /\ sign sg /\ (forall r, read_items is (a ++ r) = (true, a, r)) /\ starts decdigit a.
Lemma date_item_text : forall s, date s -> item_text date_items s.
Proof.
  intros s [sg y m d Sg Y M D0]. exists sg, (y ++ chars "-" ++ m ++ chars "-" ++ d). split; [reflexivity|]. split; [exact Sg|]. split.
  - intros r. rewrite <- !app_assoc. now apply read_date_items.
  - destruct Y as [F L]. destruct y as [|c y]; [discriminate|]. inversion F; subst. eexists; eexists; split; [reflexivity|assumption].
Qed.
Lemma datetime_item_text : forall d t, date d -> time t -> item_text (date_items ++ time_items) (d ++ chars " " ++ t).
Proof.
  intros d t [sg y m d0 Sg Y M D0] [h mi s H Mi S]. exists sg, ((y ++ chars "-" ++ m ++ chars "-" ++ d0) ++ chars " " ++ h ++ chars ":" ++ mi ++ chars ":" ++ s).
  split; [now rewrite <- !app_assoc|]. split; [exact Sg|]. split.
  - intros r. rewrite read_items_app. rewrite <- !app_assoc. rewrite (read_date_items y m d0 _ Y M D0). rewrite (read_time_items h mi s r H Mi S). now rewrite <- !app_assoc.
  - destruct Y as [F L]. destruct y as [|c y]; [discriminate|]. inversion F; subst. eexists; eexists; split; [reflexivity|assumption].
Qed.
Lemma read_date_cell : forall is cfg s r, ok_config cfg -> item_text is s -> plain cfg s -> stops cfg r ->
  read_date float is cfg (s ++ r) = (Set_ _ (VDate _ (chars "d'" ++ s ++ chars "'")), r) /\
  read_date float is cfg ((quote cfg :: s ++ [quote cfg]) ++ r) = (Set_ _ (VDate _ (chars "d'" ++ s ++ chars "'")), r).
Proof.
  intros is cfg s r O (sg & a & -> & Sg & Ra & Sa) P R. destruct P as (P1 & P2 & P3 & P4 & P5).
  assert (Z : ~ In 0 (chars "d'" ++ (sg ++ a) ++ chars "'")).
  { intros X. rewrite !in_app_iff in X. destruct X as [X|[X|X]]; [cbn in X; intuition discriminate|apply P4; rewrite in_app_iff; exact X|cbn in X; intuition discriminate]. }
  destruct Sa as (c & q & -> & Hc). assert (Cn : (c =? chr "-") = false) by (apply N.eqb_neq; intros ->; apply is_dec_spec in Hc; discriminate).
  split.
  - unfold read_date, accept_.
    assert (Q : cur ((sg ++ c :: q) ++ r) =? quote cfg = false).
    { apply N.eqb_neq. intros X. apply P2. destruct Sg as [->| ->]; cbn in X; [left; exact X|left; exact X]. }
    rewrite Q. rewrite <- app_assoc. destruct Sg as [->| ->].
    + cbn [app cur]. rewrite Cn. change (c :: q ++ r) with ((c :: q) ++ r). rewrite (Ra r). rewrite cstr_no_nul by exact Z. reflexivity.
    + change (chars "-" ++ (c :: q) ++ r) with (chr "-" :: (c :: q) ++ r). cbn [cur tl]. rewrite N.eqb_refl. rewrite (Ra r).
      rewrite cstr_no_nul by exact Z. reflexivity.
  - unfold read_date, accept_. cbn [app cur tl]. rewrite N.eqb_refl. rewrite <- !app_assoc. cbn [app]. destruct Sg as [->| ->].
    + cbn [app cur]. rewrite Cn. change (c :: q ++ quote cfg :: r) with ((c :: q) ++ quote cfg :: r). rewrite (Ra (quote cfg :: r)). cbn [cur tl]. rewrite N.eqb_refl.
      rewrite cstr_no_nul by exact Z. reflexivity.
    + change (chars "-" ++ c :: q ++ quote cfg :: r) with (chr "-" :: (c :: q) ++ quote cfg :: r). cbn [cur tl]. rewrite N.eqb_refl. rewrite (Ra (quote cfg :: r)).
      cbn [cur tl]. rewrite N.eqb_refl. rewrite cstr_no_nul by exact Z. reflexivity.
Qed.
Lemma read_cell_ok : forall cfg t v s, ok_config cfg -> cell cfg t v s -> reads_as t cfg s v.
Proof.
  intros cfg t v s O C. destruct C.
  - now apply read_bool_cell.
  - now apply read_plain_cell.
  - now apply read_quoted_cell.
  - now apply read_int_cell.
  - now apply read_decimal_cell.
  - now apply read_decimal_int_cell.
  - intros r R. apply (read_date_cell date_items cfg s r O (date_item_text s H) H0 R).
  - intros r R. apply (read_date_cell date_items cfg s r O (date_item_text s H) H0 R).
  - intros r R. apply (read_date_cell _ cfg _ r O (datetime_item_text d t H H0) H1 R).
  - intros r R. apply (read_date_cell _ cfg _ r O (datetime_item_text d t H H0) H1 R).
  - now apply read_float_cell.
Qed.

(** ** Records *)
Lemma plain_start : forall cfg s, s <> [] -> plain cfg s -> exists c q, s = c :: q /\ c <> 10 /\ c <> delimiter cfg.
Proof.
  intros cfg s N0 (A & B & C & D & E). destruct s as [|c q]; [congruence|]. exists c, q. split; [reflexivity|].
  split; intros ->; [apply C|apply A]; left; reflexivity.
Qed.
Lemma item_text_nonempty : forall is s, item_text is s -> s <> [].
Proof. intros is s (sg & a & -> & _ & _ & (c & q & -> & _)). destruct sg; discriminate. Qed.
Lemma cell_start : forall cfg t v s, ok_config cfg -> cell cfg t v s -> exists c q, s = c :: q /\ c <> 10 /\ c <> delimiter cfg.
Proof.
  intros cfg t v s (O1 & O2 & O3 & O4 & O5 & O6 & O7 & O8) C.
  assert (Q : forall x, exists c q, quote cfg :: x = c :: q /\ c <> 10 /\ c <> delimiter cfg).
  { intros x. exists (quote cfg), x. auto. }
  destruct C; auto; apply plain_start; auto.
  - destruct b; discriminate.
  - destruct sg; [exact H|discriminate].
  - destruct sg; [|discriminate]. destruct ds; [congruence|discriminate].
  - destruct sg; [exact H|discriminate].
  - apply (item_text_nonempty date_items). now apply date_item_text.
  - apply (item_text_nonempty (date_items ++ time_items)). now apply datetime_item_text.
Qed.
Lemma discard_ignored : forall cfg s r, ok_config cfg -> ignored cfg s -> stops cfg r -> discard_cell cfg (s ++ r) = r.
Proof.
  intros cfg s r O H R. destruct H as [s P|s A B C].
  - destruct s as [|c q]; [now apply discard_stops|]. unfold discard_cell. rewrite cur_app.
    destruct (c =? quote cfg) eqn:E; [apply N.eqb_eq in E; destruct P as (_ & P & _); exfalso; apply P; left; exact E|].
    unfold skip_until. now rewrite (until_plain _ _ _ P R).
  - unfold discard_cell. cbn [app cur tl]. rewrite N.eqb_refl. rewrite <- app_assoc. cbn [app]. unfold skip_until.
    rewrite (until_run (fun c => eol c || (c =? quote cfg)) s (quote cfg :: r)).
    + cbn [snd]. unfold accept_. cbn [cur tl]. now rewrite N.eqb_refl.
    + apply Forall_forall. intros c I. apply orb_false_iff. split.
      * destruct (eol c) eqn:E; [|reflexivity]. apply eol_spec in E. destruct E as [->| ->]; contradiction.
      * apply N.eqb_neq. intros ->. contradiction.
    + right. exists (quote cfg), r. split; [reflexivity|]. now rewrite N.eqb_refl, orb_true_r.
Qed.
Definition assign (p : column * option val) (t : tuple) : tuple := match fst p with Some (id, _) => update id (snd p) t | None => t end.
Definition line_end (vs : list (option val)) (r : list N) : Prop := starts (eq 10) r \/ (r = [] /\ last vs None <> None).
Lemma line_end_stops : forall cfg vs r, line_end vs r -> stops cfg r.
Proof. intros cfg vs r [(c & q & -> & <-)|[-> _]]; [right; exists 10, q; auto|left; reflexivity]. Qed.
Definition place (cols : list column) (vs : list (option val)) (t : tuple) : tuple := fold_left (fun t p => assign p t) (combine cols vs) t.

Lemma read_cells_record : forall cfg cols vs s, ok_config cfg -> record cfg cols vs s -> forall (first : bool) r t, line_end vs r ->
  read_cells float to_float cfg cols first ((if first then [] else [delimiter cfg]) ++ s ++ r) t = (true, r, place cols vs t).
Proof.
  intros cfg cols vs s O H. induction H as [c v s F|c v s cs vs s2 F H IH]; intros first r t E.
  - pose proof (line_end_stops cfg _ _ E) as R. cbn [read_cells].
    assert (A : (if first then (true, (if first then [] else [delimiter cfg]) ++ s ++ r) else accept_ (delimiter cfg) ((if first then [] else [delimiter cfg]) ++ s ++ r))
       = (true, s ++ r)).
    { destruct first; [reflexivity|]. unfold accept_. cbn [app cur tl]. now rewrite N.eqb_refl. }
    rewrite A. destruct F as [id ct|id ct v s C|s I].
    + cbn [app]. destruct E as [(x & q & -> & <-)|[-> E]]; [|exfalso; apply E; reflexivity]. reflexivity.
    + destruct (cell_start _ _ _ _ O C) as (x & q & -> & N1 & N2). rewrite cur_app. apply N.eqb_neq in N1. rewrite N1.
      rewrite (read_cell_ok _ _ _ _ O C r R). rewrite (discard_stops _ _ O R). reflexivity.
    + rewrite (discard_ignored _ _ _ O I R). reflexivity.
  - assert (E' : line_end vs r).
    { destruct E as [E|[-> E]]; [left; exact E|right; split; [reflexivity|]]. inversion H; subst; exact E. }
    assert (R : stops cfg (delimiter cfg :: s2 ++ r)) by (right; eexists; eexists; split; [reflexivity|right; reflexivity]).
    assert (Ne : exists c1 cs1, cs = c1 :: cs1) by (inversion H; subst; eauto).
    destruct Ne as (c1 & cs1 & Ecs). cbn [read_cells].
    assert (A : (if first then (true, (if first then [] else [delimiter cfg]) ++ (s ++ delimiter cfg :: s2) ++ r)
         else accept_ (delimiter cfg) ((if first then [] else [delimiter cfg]) ++ (s ++ delimiter cfg :: s2) ++ r)) = (true, s ++ delimiter cfg :: s2 ++ r)).
    { rewrite <- app_assoc. destruct first; [reflexivity|]. unfold accept_. cbn [app cur tl]. now rewrite N.eqb_refl. }
    rewrite A. pose proof (fun t => IH false r t E') as IH'. cbn [app] in IH'.
    destruct F as [id ct|id ct v s C|s I].
    + cbn [app cur]. rewrite Ecs at 1. rewrite N.eqb_refl. rewrite IH'. reflexivity.
    + destruct (cell_start _ _ _ _ O C) as (x & q & -> & N1 & N2). rewrite cur_app. apply N.eqb_neq in N2. rewrite Ecs at 1. rewrite N2.
      rewrite (read_cell_ok _ _ _ _ O C _ R). rewrite (discard_stops _ _ O R). rewrite IH'. reflexivity.
    + rewrite (discard_ignored _ _ _ O I R). rewrite IH'. reflexivity.
Qed.

Lemma until_newline : forall (f : N -> bool) r, f 10 = true -> until f (10 :: r) = ([], 10 :: r).
Proof. intros f r H. cbn. now rewrite H. Qed.
Lemma ends_newline : forall cfg, ends cfg 10 = true.
Proof. intros cfg. apply ends_spec. auto. Qed.
Lemma read_value_newline : forall ct cfg r, ok_config cfg -> exists e, read_value float to_float ct cfg (10 :: r) = (e, 10 :: r).
Proof.
  intros ct cfg r (O1 & O2 & O3 & O4 & O5 & O6 & O7 & O8). pose proof (until_newline (ends cfg) r (ends_newline cfg)) as U.
  assert (Q : (10 =? quote cfg) = false) by (apply N.eqb_neq; congruence).
  destruct ct; cbn [read_value].
  - unfold read_bool. rewrite U. cbn. eauto.
  - unfold read_string, accept_. cbn [cur]. rewrite Q, U. cbn. eauto.
  - unfold read_date, accept_. cbn [cur]. rewrite Q. cbn. eauto.
  - unfold read_date, accept_. cbn [cur]. rewrite Q. cbn. eauto.
  - unfold read_int. change (sign_ (10 :: r)) with (false, 10 :: r). cbn iota. change (read_digits 0 (10 :: r)) with (0%Z, 10 :: r). cbn iota.
    unfold finish. change (cur (10 :: r)) with 10. rewrite ends_newline. cbn [negb]. eauto.
  - unfold read_decimal. change (sign_ (10 :: r)) with (false, 10 :: r). cbn iota. change (read_digits 0 (10 :: r)) with (0%Z, 10 :: r). cbn iota zeta.
    change (accept_ (chr ".") (10 :: r)) with (false, 10 :: r). cbn iota.
    unfold finish. change (cur (10 :: r)) with 10. rewrite ends_newline. cbn [negb]. eauto.
  - unfold read_float. rewrite U. destruct (to_float (cstr [])); eauto.
Qed.
Lemma missing_delimiter : forall cfg more r t, ok_config cfg -> more <> [] -> read_cells float to_float cfg more false (10 :: r) t = (false, 10 :: r, t).
Proof.
  intros cfg more r t O N0. destruct more as [|c more]; [congruence|]. cbn [read_cells]. unfold accept_. cbn [cur].
  destruct (10 =? delimiter cfg) eqn:E; [apply N.eqb_eq in E; destruct O as (_ & O & _); congruence|]. reflexivity.
Qed.
Lemma read_cells_short : forall cfg k vs s more, ok_config cfg -> record cfg k vs s -> more <> [] -> forall (first : bool) r t,
  exists t', read_cells float to_float cfg (k ++ more) first ((if first then [] else [delimiter cfg]) ++ s ++ 10 :: r) t = (false, 10 :: r, t').
Proof.
  intros cfg k vs s more O H Nm. induction H as [c v s F|c v s cs vs s2 F H IH]; intros first r t.
  - cbn [app read_cells].
    assert (A : (if first then (true, (if first then [] else [delimiter cfg]) ++ s ++ 10 :: r) else accept_ (delimiter cfg) ((if first then [] else [delimiter cfg]) ++ s ++ 10 :: r))
       = (true, s ++ 10 :: r)).
    { destruct first; [reflexivity|]. unfold accept_. cbn [app cur tl]. now rewrite N.eqb_refl. }
    rewrite A. clear A. assert (R : stops cfg (10 :: r)) by (right; exists 10, r; auto).
    destruct more as [|m more]; [congruence|].
    destruct F as [id ct|id ct v s C|s I].
    + cbn [app cur]. destruct (10 =? delimiter cfg) eqn:E; [apply N.eqb_eq in E; destruct O as (_ & O & _); congruence|].
      destruct (read_value_newline ct cfg r O) as (e & ->). rewrite (discard_stops _ _ O R). eexists. apply missing_delimiter; auto.
    + destruct (cell_start _ _ _ _ O C) as (x & q & -> & N1 & N2). rewrite cur_app. apply N.eqb_neq in N2. rewrite N2.
      rewrite (read_cell_ok _ _ _ _ O C _ R). rewrite (discard_stops _ _ O R). eexists. apply missing_delimiter; auto.
    + rewrite (discard_ignored _ _ _ O I R). eexists. apply missing_delimiter; auto.
  - assert (R : stops cfg (delimiter cfg :: s2 ++ 10 :: r)) by (right; eexists; eexists; split; [reflexivity|right; reflexivity]).
    assert (Ne : exists c1 cs1, cs ++ more = c1 :: cs1) by (inversion H; subst; cbn; eauto).
    destruct Ne as (c1 & cs1 & Ecs). change ((c :: cs) ++ more) with (c :: (cs ++ more)). remember (cs ++ more) as cm.
    assert (M : forall (a b : bool), match cm with [] => a | _ :: _ => b end = b) by (intros; rewrite Ecs; reflexivity). cbn [read_cells].
    assert (A : (if first then (true, (if first then [] else [delimiter cfg]) ++ (s ++ delimiter cfg :: s2) ++ 10 :: r)
         else accept_ (delimiter cfg) ((if first then [] else [delimiter cfg]) ++ (s ++ delimiter cfg :: s2) ++ 10 :: r)) = (true, s ++ delimiter cfg :: s2 ++ 10 :: r)).
    { rewrite <- app_assoc. destruct first; [reflexivity|]. unfold accept_. cbn [app cur tl]. now rewrite N.eqb_refl. }
    rewrite A. pose proof (IH false r) as IH'. cbn [app] in IH'.
    destruct F as [id ct|id ct v s C|s I].
    + cbn [app cur]. rewrite M. rewrite N.eqb_refl. apply IH'.
    + destruct (cell_start _ _ _ _ O C) as (x & q & -> & N1 & N2). rewrite cur_app. apply N.eqb_neq in N2. rewrite M. rewrite N2.
      rewrite (read_cell_ok _ _ _ _ O C _ R). rewrite (discard_stops _ _ O R). apply IH'.
    + rewrite (discard_ignored _ _ _ O I R). apply IH'.
Qed.

(** ** Tuples *)
Lemma update_length : forall (A : Type) (x : A) l n, length (update n x l) = length l.
Proof. intros A x. induction l as [|y l IH]; intros [|n]; cbn; auto. Qed.
Lemma update_nth : forall (A : Type) (x : A) l n i, nth_error (update n x l) i = if (i =? n)%nat then (if (n <? length l)%nat then Some x else None) else nth_error l i.
Proof.
  intros A x. induction l as [|y l IH]; intros [|n] [|i]; cbn [update nth_error length]; try reflexivity.
  - destruct (_ =? _)%nat; reflexivity.
  - rewrite IH. reflexivity.
Qed.
Definition agree (P : nat -> Prop) (t t' : tuple) : Prop := length t = length t' /\ forall i, ~ P i -> nth_error t i = nth_error t' i.
Lemma agree_all : forall t t', agree (fun _ => False) t t' -> t = t'.
Proof.
  induction t as [|x t IH]; intros [|y t'] [L H]; try discriminate; [reflexivity|]. f_equal.
  - specialize (H 0%nat (fun x => x)). now injection H.
  - apply IH. split; [now injection L|]. intros i N0. exact (H (S i) N0).
Qed.
Lemma agree_weaken : forall (P Q : nat -> Prop) t t', agree P t t' -> (forall i, P i -> Q i) -> agree Q t t'.
Proof. intros P Q t t' [L H] W. split; auto. Qed.
Lemma agree_update : forall P t t' n v, agree P t t' -> agree (fun i => P i /\ i <> n) (update n v t) (update n v t').
Proof.
  intros P t t' n v [L H]. split; [now rewrite !update_length|]. intros i N0. rewrite !update_nth, L.
  destruct (i =? n)%nat eqn:E; [reflexivity|]. apply H. intros X. apply N0. split; [exact X|]. now apply Nat.eqb_neq in E.
Qed.
Lemma update_agree : forall (P : nat -> Prop) t t' n v, agree P t t' -> P n -> agree P (update n v t) t'.
Proof.
  intros P t t' n v [L H] Pn. split; [now rewrite update_length|]. intros i N0. rewrite update_nth.
  destruct (i =? n)%nat eqn:E; [apply Nat.eqb_eq in E; subst; contradiction|]. auto.
Qed.
(** Slots that a row writes. *)
Definition covered (cols : list column) (i : nat) : Prop := exists t, In (Some (i, t)) cols.
Definition stamped (ts : option (nat * nat * Z)) (i : nat) : Prop := match ts with Some (b, e, _) => i = b \/ i = e | None => False end.
Lemma place_agree : forall cols vs t t' (P : nat -> Prop), agree P t t' -> length cols = length vs -> agree (fun i => P i /\ ~ covered cols i) (place cols vs t) (place cols vs t').
Proof.
  induction cols as [|c cols IH]; intros vs t t' P A L.
  - destruct vs; [|discriminate]. cbn. eapply agree_weaken; [exact A|]. intros i Pi. split; [exact Pi|]. intros (? & []).
  - destruct vs as [|v vs]; [discriminate|]. injection L as L. unfold place. cbn [combine fold_left]. fold (place cols vs).
    destruct c as [[id ct]|]; unfold assign; cbn [fst snd].
    + eapply agree_weaken; [apply (IH vs _ _ _ (agree_update P t t' id v A) L)|]. intros i [[Pi Ni] Nc]. split; [exact Pi|].
      intros (x & [X|X]); [injection X as <- _; congruence|apply Nc; exists x; exact X].
    + eapply agree_weaken; [apply (IH vs _ _ _ A L)|]. intros i [Pi Nc]. split; [exact Pi|]. intros (x & [X|X]); [discriminate|apply Nc; exists x; exact X].
Qed.
Lemma stamp_agree : forall ts t t' (P : nat -> Prop), agree P t t' -> agree (fun i => P i /\ ~ stamped ts i) (stamp float ts t) (stamp float ts t').
Proof.
  intros [[[b e] st]|] t t' P A; cbn [stamp stamped].
  - eapply agree_weaken; [apply agree_update, agree_update, A|]. intros i [[X Y] Z]. split; [exact X|tauto].
  - eapply agree_weaken; [exact A|]. tauto.
Qed.
Lemma apply_agree : forall (P : nat -> Prop) e id t t', agree P t t' -> P id -> agree P (apply float e id t) t'.
Proof. intros P e id t t' A Pi. destruct e; cbn; auto; now apply update_agree. Qed.
Lemma read_cells_agree : forall cfg cols (P : nat -> Prop) t', (forall i, covered cols i -> P i) -> forall first s t b s' t1,
  agree P t t' -> read_cells float to_float cfg cols first s t = (b, s', t1) -> agree P t1 t'.
Proof.
  intros cfg. induction cols as [|c cols IH]; intros P t' C first s t b s' t1 A E; cbn [read_cells] in E.
  - injection E as _ _ <-. exact A.
  - assert (C' : forall i, covered cols i -> P i) by (intros i (x & X); apply C; exists x; right; exact X).
    destruct (if first then (true, s) else accept_ (delimiter cfg) s) as [ok s0]. destruct ok; [|injection E as _ _ <-; exact A].
    destruct c as [[id ct]|].
    + assert (Pi : P id) by (apply C; exists ct; left; reflexivity).
      destruct (match cols with [] => cur s0 =? 10 | _ :: _ => cur s0 =? delimiter cfg end).
      * eapply IH; [exact C'| |exact E]. now apply update_agree.
      * destruct (read_value float to_float ct cfg s0) as [e s1]. eapply IH; [exact C'| |exact E]. now apply apply_agree.
    + eapply IH; [exact C'|exact A|exact E].
Qed.
Lemma stamp_agree_r : forall (P : nat -> Prop) ts t t', agree P t t' -> (forall i, stamped ts i -> P i) -> agree P (stamp float ts t) t'.
Proof.
  intros P [[[b e] st]|] t t' A H; cbn [stamp stamped] in *; auto. apply update_agree; [apply update_agree; [exact A|]|]; apply H; auto.
Qed.
Lemma record_length : forall cfg cols vs s, record cfg cols vs s -> length cols = length vs.
Proof. intros cfg cols vs s H. induction H; cbn; auto. Qed.
Definition slots (cols : list column) (ts : option (nat * nat * Z)) (i : nat) : Prop := covered cols i \/ stamped ts i.
Definition row_of (n : nat) (cols : list column) (ts : option (nat * nat * Z)) (vs : list (option val)) : tuple :=
  stamp float ts (fold_left (fun t p => assign p t) (combine cols vs) (repeat None n)).
Lemma row_eq : forall cols vs ts t n, length cols = length vs -> agree (slots cols ts) t (repeat None n) -> stamp float ts (place cols vs t) = row_of n cols ts vs.
Proof.
  intros cols vs ts t n L A. apply agree_all. unfold row_of. fold (place cols vs).
  eapply agree_weaken; [apply stamp_agree, place_agree; [exact A|exact L]|]. intros i [[[X|X] Y] Z]; contradiction.
Qed.
Lemma place_agree_r : forall (P : nat -> Prop) cols vs t t', agree P t t' -> (forall i, covered cols i -> P i) -> agree P (place cols vs t) t'.
Proof.
  intros P. induction cols as [|c cols IH]; intros vs t t' A H; [exact A|]. destruct vs as [|v vs]; [exact A|]. unfold place. cbn [combine fold_left]. fold (place cols vs).
  apply IH; [|intros i (x & X); apply H; exists x; right; exact X]. unfold assign; cbn [fst snd]. destruct c as [[id ct]|]; [|exact A].
  apply update_agree; [exact A|]. apply H. exists ct. left. reflexivity.
Qed.

(** ** Files *)
Lemma update_last : forall (A : Type) (l : list A) x y, update (length l) y (l ++ [x]) = l ++ [y].
Proof. intros A l x y. induction l as [|z l IH]; cbn; [reflexivity|now rewrite IH]. Qed.
Definition in_step (st : store float) : Prop := next_row _ st = None \/ next_row _ st = Some (length (rows _ st)).
Lemma write_append : forall t st, in_step st -> rows _ (write float t (append float st)) = rows _ st ++ [Some t] /\ in_step (write float t (append float st)).
Proof.
  intros t st H. unfold write, append. cbn [rows next_row]. rewrite app_length. cbn [length].
  assert (E : match next_row _ st with Some n => n | None => (length (rows _ st) + 1 - 1)%nat end = length (rows _ st)) by (destruct H as [->| ->]; lia).
  rewrite E, update_last. split; [reflexivity|]. right. cbn [rows next_row]. rewrite app_length. cbn. f_equal. lia.
Qed.
Lemma drop_append : forall st : store float, drop float (append float st) = st.
Proof. intros [r n]. unfold drop, append. cbn. now rewrite removelast_last. Qed.
Lemma read_rows_file : forall cfg cols ts n recs text, ok_config cfg -> file cfg cols recs text -> forall f idx t st,
  (length text < f)%nat -> (idx <= limit cfg)%nat -> in_step st -> agree (slots cols ts) t (repeat None n) ->
  option_map (rows _) (read_rows float to_float f cfg cols ts idx text t st) =
    Some (rows _ st ++ map (fun vs => Some (row_of n cols ts vs)) (firstn (limit cfg - idx) recs)).
Proof.
  intros cfg cols ts n recs text O H. induction H as [|vs s rs text R H IH|vs s R N0 Nl|vs s more rs text k Ec Nm R H IH]; intros f idx t st Lf Li Is Ag.
  - destruct f as [|f]; [lia|]. cbn [read_rows]. rewrite firstn_nil. cbn. now rewrite app_nil_r.
  - destruct f as [|f]; [lia|]. cbn [read_rows]. destruct (s ++ 10 :: text) as [|x y] eqn:E; [destruct s; discriminate|]. rewrite <- E in *. clear E x y.
    rewrite app_length in Lf. cbn [length] in Lf.
    destruct (idx <? limit cfg)%nat eqn:El.
    + apply Nat.ltb_lt in El. pose proof (read_cells_record cfg cols vs s O R true (10 :: text) t ltac:(left; exists 10, text; auto)) as X. cbn [app] in X. rewrite X.
      cbn [cur eol tl]. change (negb (eol 10)) with false. cbn iota.
      set (t1 := stamp float ts (place cols vs t)). destruct (write_append t1 st Is) as [W1 W2].
      rewrite IH; [| lia | lia | exact W2 |].
      * rewrite W1. replace (limit cfg - idx)%nat with (S (limit cfg - S idx)) by lia. cbn [firstn map]. rewrite <- app_assoc. cbn [app]. repeat f_equal.
        apply row_eq; auto. eapply record_length; eauto.
      * apply stamp_agree_r; [apply place_agree_r; [exact Ag|]|]; intros i Hi; [left|right]; exact Hi.
    + apply Nat.ltb_ge in El. replace (limit cfg - idx)%nat with 0%nat by lia. cbn. now rewrite app_nil_r.
  - destruct f as [|f]; [lia|]. cbn [read_rows]. destruct s as [|x y] eqn:E; [congruence|]. rewrite <- E in *. clear E x y.
    destruct (idx <? limit cfg)%nat eqn:El.
    + apply Nat.ltb_lt in El. pose proof (read_cells_record cfg cols vs s O R true [] t ltac:(right; auto)) as X. cbn [app] in X. rewrite app_nil_r in X. rewrite X.
      cbn [cur tl]. change (negb (eol 255)) with false. cbn iota.
      set (t1 := stamp float ts (place cols vs t)). destruct (write_append t1 st Is) as [W1 W2].
      destruct f as [|f]; [destruct s; cbn in Lf; [congruence|lia]|]. cbn [read_rows option_map]. rewrite W1.
      replace (limit cfg - idx)%nat with (S (limit cfg - S idx)) by lia. cbn [firstn map]. rewrite firstn_nil. cbn [map]. repeat f_equal.
      apply row_eq; auto. eapply record_length; eauto.
    + apply Nat.ltb_ge in El. replace (limit cfg - idx)%nat with 0%nat by lia. cbn. now rewrite app_nil_r.
  - destruct f as [|f]; [lia|]. cbn [read_rows]. destruct (s ++ 10 :: text) as [|x y] eqn:E; [destruct s; discriminate|]. rewrite <- E in *. clear E x y.
    rewrite app_length in Lf. cbn [length] in Lf.
    destruct (idx <? limit cfg)%nat eqn:El.
    + destruct (read_cells_short cfg k vs s more O R Nm true text t) as (t' & X). cbn [app] in X. rewrite <- Ec in X. rewrite X. rewrite drop_append. cbn [tl].
      apply IH; auto; [lia|]. eapply read_cells_agree; [|exact Ag|exact X]. intros i Hi. left. exact Hi.
    + apply Nat.ltb_ge in El. replace (limit cfg - idx)%nat with 0%nat by lia. cbn. now rewrite app_nil_r.
Qed.

(** ** Headers *)
Inductive names_line (cfg : config) : list (list N) -> list N -> Prop :=
  | names_one s : s <> [] -> plain cfg s -> names_line cfg [s] s
  | names_cons s ns t : s <> [] -> plain cfg s -> names_line cfg ns t -> names_line cfg (s :: ns) (s ++ delimiter cfg :: t).
(** A file with its header: none, one that names the columns, or one that is skipped. *)
Inductive with_header (cfg : config) (attrs : list attr) : list column -> list N -> list N -> Prop :=
  | no_header body : has_header cfg = false -> skip_header cfg = false -> with_header cfg attrs (visible_columns attrs) body body
  | named_columns ns cols s body : has_header cfg = true -> skip_header cfg = false -> names_line cfg ns s -> Forall2 (column_named attrs) ns cols ->
      with_header cfg attrs cols body (s ++ 10 :: body)
  | skipped s body : skip_header cfg = true -> s <> [] -> ~ In 10 s -> with_header cfg attrs (visible_columns attrs) body (s ++ 10 :: body).
Lemma visible_from_spec : forall attrs k, visible_from k attrs =
  map (fun p => Some (fst p, aty (snd p))) (filter (fun p => negb (ahidden (snd p))) (combine (seq k (length attrs)) attrs)).
Proof. induction attrs as [|a attrs IH]; intros k; cbn [visible_from length seq combine filter]; [reflexivity|]. cbn [snd]. rewrite IH. destruct (ahidden a); reflexivity. Qed.
Lemma find_from_spec : forall attrs k name c, column_named attrs name c -> find_from k name attrs = match c with Some (i, t) => Some ((k + i)%nat, t) | None => None end.
Proof.
  induction attrs as [|a attrs IH]; intros k name c [(i & x & A & B & -> & C)|[A ->]]; cbn [find_from].
  - destruct i; discriminate.
  - reflexivity.
  - destruct i as [|i].
    + injection A as ->. destruct (list_eq_dec N.eq_dec (aname x) name); [|contradiction]. now rewrite Nat.add_0_r.
    + destruct (list_eq_dec N.eq_dec (aname a) name) as [E|E]; [exfalso; apply (C 0%nat a); [lia|reflexivity|exact E]|].
      rewrite (IH (S k) name (Some (i, aty x))); [now rewrite Nat.add_succ_r|]. left. exists i, x. split; [exact A|]. split; [exact B|]. split; [reflexivity|].
      intros i' a' L N0. apply (C (S i')); [lia|exact N0].
  - destruct (list_eq_dec N.eq_dec (aname a) name) as [E|E]; [exfalso; apply (A a); [left; reflexivity|exact E]|].
    rewrite (IH (S k) name None); [reflexivity|]. right. split; [|reflexivity]. intros x I. apply A. right. exact I.
Qed.
Lemma find_columns : forall attrs ns cols, Forall2 (column_named attrs) ns cols -> map (fun n => find_from 0 n attrs) ns = cols.
Proof. intros attrs ns cols H. induction H as [|n c ns cols A H IH]; [reflexivity|]. cbn [map]. rewrite IH, (find_from_spec _ _ _ _ A). destruct c as [[i t]|]; reflexivity. Qed.
Lemma read_header_run : forall cfg attrs ns s, names_line cfg ns s -> ok_config cfg -> forall f r, (length s < f)%nat ->
  read_header f cfg attrs (s ++ 10 :: r) = (map (fun n => find_from 0 n attrs) ns, 10 :: r).
Proof.
  intros cfg attrs ns s H O. pose proof O as (O1 & O2 & O3 & O4 & O5 & O6 & O7 & O8).
  assert (Nd : (10 =? delimiter cfg) = false) by (apply N.eqb_neq; congruence).
  assert (E0 : forall s r, s <> [] -> plain cfg s -> eol (cur (s ++ r)) = false).
  { intros s0 r N0 (A & B & C & D & E). destruct s0 as [|c q]; [congruence|]. rewrite cur_app. destruct (eol c) eqn:X; [|reflexivity]. apply eol_spec in X.
    destruct X as [->| ->]; [exfalso; apply E|exfalso; apply C]; left; reflexivity. }
  induction H as [s N0 P|s ns t N0 P H IH]; intros f r Lf.
  - destruct f as [|f]; [lia|]. cbn [read_header]. rewrite E0 by auto. rewrite (until_plain cfg s (10 :: r) P) by (right; exists 10, r; auto).
    cbn [cur]. rewrite Nd. destruct P as (_ & _ & _ & Z & _). rewrite (cstr_no_nul s Z). destruct f; reflexivity.
  - destruct f as [|f]; [lia|]. cbn [read_header]. rewrite <- app_assoc. cbn [app]. rewrite E0 by auto.
    rewrite (until_plain cfg s (delimiter cfg :: t ++ 10 :: r) P) by (right; eexists; eexists; split; [reflexivity|right; reflexivity]).
    cbn [cur tl]. rewrite N.eqb_refl. rewrite app_length in Lf. cbn [length] in Lf. rewrite IH by lia.
    destruct P as (_ & _ & _ & Z & _). rewrite (cstr_no_nul s Z). reflexivity.
Qed.
Lemma header_run : forall cfg attrs cols body text, ok_config cfg -> with_header cfg attrs cols body text -> header cfg attrs text = (cols, body).
Proof.
  intros cfg attrs cols body text O H. unfold header. destruct H as [body H1 H2|ns cols s body H1 H2 H3 H4|s body H1 H2 H3]; unfold visible_columns; rewrite <- ?(visible_from_spec attrs 0).
  - now rewrite H1, H2.
  - rewrite H1, H2. cbn [andb negb]. rewrite (read_header_run cfg attrs ns s H3 O) by (rewrite app_length; lia). rewrite (find_columns _ _ _ H4). reflexivity.
  - rewrite H1, andb_false_r. destruct s as [|c s]; [congruence|]. cbn [app tl]. unfold skip_until.
    rewrite (until_run (N.eqb 10) s (10 :: body)); [reflexivity| |right; exists 10, body; auto].
    apply Forall_forall. intros x I. apply N.eqb_neq. intros <-. apply H3. right. exact I.
Qed.

Lemma import_file : forall cfg attrs ts cols body text recs old, ok_config cfg -> with_header cfg attrs cols body text -> file cfg cols recs body ->
  import float to_float cfg attrs ts text old = Some (old ++ map (fun vs => Some (row_of (length attrs) cols ts vs)) (firstn (limit cfg) recs)).
Proof.
  intros cfg attrs ts cols body text recs old O H F. unfold import. rewrite (header_run _ _ _ _ _ O H).
  rewrite (read_rows_file cfg cols ts (length attrs) recs body O F); cbn [rows]; auto; [now rewrite Nat.sub_0_r|lia|left; reflexivity|].
  split; reflexivity || (intros; reflexivity).
Qed.
Lemma place_length : forall cols vs t, length (place cols vs t) = length t.
Proof.
  induction cols as [|c cols IH]; intros [|v vs] t; try reflexivity. change (length (place cols vs (assign (c, v) t)) = length t). rewrite IH. unfold assign. cbn [fst snd].
  destruct c as [[id ct]|]; [apply update_length|reflexivity].
Qed.
Lemma place_at : forall cols vs t i v, length cols = length vs -> nth_error (place cols vs t) i = Some v ->
  (exists k ct, nth_error cols k = Some (Some (i, ct)) /\ nth_error vs k = Some v /\ forall k' t', (k < k')%nat -> nth_error cols k' <> Some (Some (i, t')))
  \/ ((forall k ct, nth_error cols k <> Some (Some (i, ct))) /\ nth_error t i = Some v).
Proof.
  induction cols as [|c cols IH]; intros vs t i v L H.
  - right. split; [intros [|k] ct; discriminate|destruct vs; exact H].
  - destruct vs as [|w vs]; [discriminate|]. injection L as L. change (nth_error (place cols vs (assign (c, w) t)) i = Some v) in H.
    destruct (IH vs _ i v L H) as [(k & ct & A & B & C)|[A B]].
    + left. exists (S k), ct. split; [exact A|]. split; [exact B|]. intros [|k'] t' Lk; [lia|]. apply C. lia.
    + unfold assign in B. cbn [fst snd] in B. destruct c as [[id ct]|].
      * rewrite update_nth in B. destruct (i =? id)%nat eqn:E.
        -- apply Nat.eqb_eq in E. subst id. destruct (_ <? _)%nat; [|discriminate]. injection B as ->. left. exists 0%nat, ct. split; [reflexivity|]. split; [reflexivity|].
           intros [|k'] t' Lk; [lia|]. apply A.
        -- right. split; [|exact B]. intros [|k] t'; [|apply A]. cbn. intros X. injection X as <- _. apply Nat.eqb_neq in E. congruence.
      * right. split; [|exact B]. intros [|k] t'; [discriminate|apply A].
Qed.
Lemma row_of_is_row : forall n cols ts vs, length cols = length vs -> is_row n cols ts vs (row_of n cols ts vs).
Proof.
  intros n cols ts vs L. unfold row_of. fold (place cols vs). set (p := place cols vs (repeat None n)).
  assert (Lp : length p = n) by (unfold p; now rewrite place_length, repeat_length).
  assert (At : forall i v, nth_error p i = Some v -> row_at cols vs i v).
  { intros i v H. destruct (place_at _ _ _ _ _ L H) as [A|[A B]]; [left; exact A|right; split; [exact A|]]. apply nth_error_In, repeat_spec in B. exact B. }
  split.
  - unfold stamp. destruct ts as [[[b e] st]|]; rewrite ?update_length; exact Lp.
  - intros i v. unfold stamp. destruct ts as [[[b e] st]|]; [|apply At]. rewrite !update_nth, update_length.
    destruct (i =? e)%nat; [destruct (_ <? _)%nat; [|discriminate]; intros X; injection X as <-; reflexivity|].
    destruct (i =? b)%nat; [destruct (_ <? _)%nat; [|discriminate]; intros X; injection X as <-; reflexivity|]. apply At.
Qed.
Lemma file_lengths : forall cfg cols recs body, file cfg cols recs body -> Forall (fun vs => length cols = length vs) recs.
Proof. intros cfg cols recs body H. induction H as [|vs s rs text R H IH|vs s R|vs s more rs text k Ec Nm R H IH]; auto; constructor; auto; eapply record_length; eauto. Qed.

(** C38: importing a file in the documented format appends exactly the rows of its records (at most [limit]), in order. *)
Theorem C38_faithful : forall cfg attrs ts cols body text recs old, ok_config cfg -> with_header cfg attrs cols body text -> file cfg cols recs body ->
  exists new, import float to_float cfg attrs ts text old = Some (old ++ map Some new) /\ Forall2 (is_row (length attrs) cols ts) (firstn (limit cfg) recs) new.
Proof.
  intros cfg attrs ts cols body text recs old O H F. exists (map (row_of (length attrs) cols ts) (firstn (limit cfg) recs)). split.
  - rewrite (import_file _ _ ts _ _ _ recs old O H F). now rewrite map_map.
  - pose proof (file_lengths _ _ _ _ F) as L. generalize dependent (limit cfg). clear -L. induction L as [|vs recs A L IH]; intros [|m]; cbn [firstn map]; constructor.
    + now apply row_of_is_row.
    + apply IH.
Qed.

(** C38: whatever the input is, importing terminates, keeps the table's rows and appends at most [limit] rows. *)
Lemma until_shorter : forall f s, (length (snd (until f s)) <= length s)%nat.
Proof. intros f s. destruct (until_any f s) as (a & r & -> & -> & _). cbn [snd]. rewrite app_length. lia. Qed.
Lemma accept_shorter : forall c s, (length (snd (accept_ c s)) <= length s)%nat.
Proof. intros c s. unfold accept_. destruct (cur s =? c); cbn; [destruct s; cbn; lia|lia]. Qed.
Lemma tl_shorter : forall s : list N, (length (tl s) <= length s)%nat.
Proof. destruct s; cbn; lia. Qed.
Lemma rfc_shorter : forall q s, (length (snd (quoted_rfc q s)) <= length s)%nat.
Proof.
  intros q s. remember (length s) as n. revert s Heqn. induction n as [n IH] using lt_wf_ind. intros s ->. destruct s as [|c r]; [cbn; lia|]. cbn [quoted_rfc].
  destruct (c =? EOF); [cbn; lia|]. destruct (negb (c =? q)).
  - specialize (IH (length r) ltac:(cbn; lia) r eq_refl). destruct (quoted_rfc q r). cbn in *. lia.
  - destruct r as [|c2 r2]; [cbn; lia|]. destruct (c2 =? q); [|cbn; lia]. specialize (IH (length r2) ltac:(cbn; lia) r2 eq_refl). destruct (quoted_rfc q r2). cbn in *. lia.
Qed.
Lemma esc_shorter : forall q e s, (length (snd (quoted_esc q e s)) <= length s)%nat.
Proof.
  intros q e s. remember (length s) as n. revert s Heqn. induction n as [n IH] using lt_wf_ind. intros s ->. destruct s as [|c r]; [cbn; lia|]. cbn [quoted_esc].
  destruct (c =? EOF); [cbn; lia|]. destruct (c =? q); [cbn; lia|]. destruct (c =? e).
  - destruct r as [|c2 r2]; [cbn; lia|]. specialize (IH (length r2) ltac:(cbn; lia) r2 eq_refl). destruct (quoted_esc q e r2). cbn in *. lia.
  - specialize (IH (length r) ltac:(cbn; lia) r eq_refl). destruct (quoted_esc q e r). cbn in *. lia.
Qed.
Lemma items_shorter : forall is s, (length (snd (read_items is s)) <= length s)%nat.
Proof.
  induction is as [|i is IH]; intros s; cbn [read_items]; [cbn; lia|]. destruct (matches i (cur s)); [|cbn; lia].
  specialize (IH (tl s)). destruct (read_items is (tl s)) as [[? ?] ?]. cbn in *. pose proof (tl_shorter s). lia.
Qed.
Lemma digits_shorter : forall s i, (length (snd (read_digits i s)) <= length s)%nat.
Proof. induction s as [|c s IH]; intros i; cbn [read_digits]; [cbn; lia|]. destruct (is_dec c); [|cbn; lia]. eapply Nat.le_trans; [apply IH|cbn; lia]. Qed.
Lemma post_shorter : forall n s p, (length (snd (read_post n p s)) <= length s)%nat.
Proof. induction n as [|n IH]; intros s p; cbn [read_post]; [cbn; lia|]. destruct s as [|c s]; [cbn; lia|]. destruct (is_dec c); [|cbn; lia]. eapply Nat.le_trans; [apply IH|cbn; lia]. Qed.
Lemma finish_shorter : forall cfg neg i s, (length (snd (finish float cfg neg i s)) <= length s)%nat.
Proof. intros. unfold finish. destruct (negb _); [apply until_shorter|cbn; lia]. Qed.
Lemma sign_shorter : forall s, (length (snd (sign_ s)) <= length s)%nat.
Proof.
  intros s. unfold sign_. pose proof (accept_shorter (chr "-") s) as A. destruct (accept_ (chr "-") s) as [b s1]. cbn [snd] in A. destruct b; cbn [snd]; [exact A|].
  eapply Nat.le_trans; [apply accept_shorter|exact A].
Qed.
Lemma read_value_shorter : forall t cfg s, (length (snd (read_value float to_float t cfg s)) <= length s)%nat.
Proof.
  intros t cfg s. assert (Dt : forall is, (length (snd (read_date float is cfg s)) <= length s)%nat).
  { intros is. unfold read_date. pose proof (accept_shorter (quote cfg) s) as A. destruct (accept_ (quote cfg) s) as [b s1]. cbn [snd] in A.
    assert (B : exists sg s2, (if cur s1 =? chr "-" then ([cur s1], tl s1) else ([], s1)) = (sg, s2) /\ (length s2 <= length s1)%nat).
    { destruct (cur s1 =? chr "-"); [exists [cur s1], (tl s1); split; [reflexivity|apply tl_shorter]|exists [], s1; split; [reflexivity|lia]]. }
    destruct B as (sg & s2 & -> & B). pose proof (items_shorter is s2) as C. destruct (read_items is s2) as [[ok a] s3]. cbn [snd] in C.
    destruct ok; [|cbn; lia]. assert (E : exists c s4, (if b then accept_ (quote cfg) s3 else (true, s3)) = (c, s4) /\ (length s4 <= length s3)%nat).
    { destruct b; [|exists true, s3; auto]. pose proof (accept_shorter (quote cfg) s3) as E. destruct (accept_ (quote cfg) s3) as [c s4]. exists c, s4. auto. }
    destruct E as (c & s4 & -> & E). destruct c; cbn [snd]; lia. }
  destruct t; cbn [read_value]; try apply Dt.
  - unfold read_bool. pose proof (until_shorter (ends cfg) s) as A. destruct (until (ends cfg) s) as [b s1]. cbn [snd] in A.
    destruct (list_eq_dec _ _ _); [exact A|]. destruct (list_eq_dec _ _ _); exact A.
  - unfold read_string. pose proof (accept_shorter (quote cfg) s) as A. destruct (accept_ (quote cfg) s) as [b s1]. cbn [snd] in A. destruct b.
    + destruct (escape cfg =? quote cfg).
      * pose proof (rfc_shorter (quote cfg) s1) as B. destruct (quoted_rfc _ _). cbn [snd] in *. lia.
      * pose proof (esc_shorter (quote cfg) (escape cfg) s1) as B. destruct (quoted_esc _ _ _). cbn [snd] in *. lia.
    + pose proof (until_shorter (ends cfg) s1) as B. destruct (until (ends cfg) s1). cbn [snd] in B. destruct (existsb _ _); cbn [snd]; lia.
  - unfold read_int. pose proof (sign_shorter s) as A. destruct (sign_ s) as [b s1]. cbn [snd] in A. pose proof (digits_shorter s1 0) as B. destruct (read_digits 0 s1) as [i s2]. cbn [snd] in B.
    pose proof (finish_shorter cfg b i s2). lia.
  - unfold read_decimal. pose proof (sign_shorter s) as A. destruct (sign_ s) as [b s1]. cbn [snd] in A. pose proof (digits_shorter s1 0) as B. destruct (read_digits 0 s1) as [i s2]. cbn [snd] in B.
    cbv zeta. pose proof (accept_shorter (chr ".") s2) as C. destruct (accept_ (chr ".") s2) as [dot s3]. cbn [snd] in C. destruct dot.
    + pose proof (post_shorter scale s3 0) as E. destruct (read_post scale 0 s3) as [[n p] s4]. cbn [snd] in E. eapply Nat.le_trans; [apply finish_shorter|].
      pose proof (until_shorter (fun c => negb (is_dec c)) s4) as F. unfold skip_until. lia.
    + eapply Nat.le_trans; [apply finish_shorter|lia].
  - unfold read_float. pose proof (until_shorter (ends cfg) s) as A. destruct (until (ends cfg) s) as [b s1]. cbn [snd] in A. destruct (to_float _); exact A.
Qed.
Lemma discard_shorter : forall cfg s, (length (discard_cell cfg s) <= length s)%nat.
Proof.
  intros cfg s. unfold discard_cell. destruct (cur s =? quote cfg); [|apply until_shorter]. eapply Nat.le_trans; [apply accept_shorter|].
  eapply Nat.le_trans; [apply until_shorter|apply tl_shorter].
Qed.
Lemma read_cells_shorter : forall cfg cols first s t b s' t', read_cells float to_float cfg cols first s t = (b, s', t') -> (length s' <= length s)%nat.
Proof.
  intros cfg. induction cols as [|c cols IH]; intros first s t b s' t' E; cbn [read_cells] in E; [injection E as _ <- _; lia|].
  assert (A : exists ok s0, (if first then (true, s) else accept_ (delimiter cfg) s) = (ok, s0) /\ (length s0 <= length s)%nat).
  { destruct first; [exists true, s; auto|]. pose proof (accept_shorter (delimiter cfg) s) as A. destruct (accept_ (delimiter cfg) s) as [ok s0]. exists ok, s0. auto. }
  destruct A as (ok & s0 & A & B). rewrite A in E. destruct ok; [|injection E as _ <- _; pose proof (until_shorter eol s0); unfold discard_row, skip_until; lia].
  destruct c as [[id ct]|].
  - destruct (match cols with [] => cur s0 =? 10 | _ :: _ => cur s0 =? delimiter cfg end).
    + apply IH in E. lia.
    + pose proof (read_value_shorter ct cfg s0) as C. destruct (read_value float to_float ct cfg s0) as [e s1]. cbn [snd] in C. apply IH in E. pose proof (discard_shorter cfg s1). lia.
  - apply IH in E. pose proof (discard_shorter cfg s0). lia.
Qed.
Lemma read_rows_total : forall cfg cols ts old f idx s t st, (length s < f)%nat -> (idx <= limit cfg)%nat ->
  (exists new, rows _ st = old ++ new /\ length new = idx) -> (forall n, next_row _ st = Some n -> (length old <= n)%nat) ->
  exists new, option_map (rows _) (read_rows float to_float f cfg cols ts idx s t st) = Some (old ++ new) /\ (length new <= limit cfg)%nat.
Proof.
  intros cfg cols ts old. induction f as [|f IH]; intros idx s t st Lf Li (new & R & Ln) Nx; [lia|]. cbn [read_rows].
  destruct s as [|c0 s0] eqn:Es; [cbn; rewrite R; exists new; split; [reflexivity|lia]|]. rewrite <- Es in *.
  assert (Ls : (1 <= length s)%nat) by (rewrite Es; cbn; lia). clear Es c0 s0.
  destruct (idx <? limit cfg)%nat eqn:El; [|cbn; rewrite R; exists new; split; [reflexivity|lia]]. apply Nat.ltb_lt in El.
  destruct (read_cells float to_float cfg cols true s t) as [[b s1] t1] eqn:E. apply read_cells_shorter in E.
  assert (T : forall x : list N, (length x <= length s)%nat -> (length (tl x) < f)%nat) by (intros [|? x]; cbn; lia).
  destruct b.
  - destruct (negb (eol (cur s1))).
    + apply IH; [apply T; pose proof (until_shorter eol s1); unfold discard_row, skip_until; lia|lia| |exact Nx].
      exists (new ++ [None]). cbn [append rows]. rewrite R, <- app_assoc. split; [reflexivity|]. rewrite app_length. cbn. lia.
    + assert (Ge : (length old <= match next_row _ st with Some n => n | None => length (rows _ (append float st)) - 1 end)%nat).
      { destruct (next_row _ st) as [n|] eqn:En; [now apply Nx|]. cbn [append rows]. rewrite R, !app_length. cbn. lia. }
      apply IH; [now apply T|lia| |].
      * unfold write. cbn [rows]. change (next_row _ (append float st)) with (next_row _ st).
        set (n := match next_row _ st with Some n => n | None => (length (rows _ (append float st)) - 1)%nat end) in *. clearbody n.
        exists (update (n - length old) (Some (stamp float ts t1)) (new ++ [None])). cbn [append rows]. rewrite R, <- app_assoc.
        split; [|rewrite update_length, app_length; cbn; lia].
        replace n with (length old + (n - length old))%nat at 1 by lia. generalize (n - length old)%nat. intros k. clear. induction old as [|x old IH]; cbn; [reflexivity|now rewrite IH].
      * intros n. unfold write. cbn [next_row]. change (next_row _ (append float st)) with (next_row _ st). intros X. injection X as <-. apply Nat.le_le_succ_r. exact Ge.
  - rewrite drop_append. apply IH; [now apply T|lia|exists new; auto|exact Nx].
Qed.
Theorem C38_total : forall cfg attrs ts text old, exists new, import float to_float cfg attrs ts text old = Some (old ++ new) /\ (length new <= limit cfg)%nat.
Proof.
  intros cfg attrs ts text old. unfold import. destruct (header cfg attrs text) as [cols s]. apply read_rows_total; [lia|lia| |discriminate].
  exists []. cbn. now rewrite app_nil_r.
Qed.
End Spec.

(** ** Example: a file that meets the hypotheses, and its rows *)
Definition csv (hdr skip : bool) (lim : nat) : config := mkConfig (chr ",") 34 34 hdr skip lim.
Definition nl : list N := [10].
Definition qt : list N := [34].
Definition example_attrs : list attr := [mkAttr (chars "id") TInt false; mkAttr (chars "name") TString false; mkAttr (chars "ok") TBool false; mkAttr (chars "price") (TDecimal 2) false].
Definition example_cols : list column := [Some (1%nat, TString); Some (0%nat, TInt); None; Some (3%nat, TDecimal 2)].
Definition example_recs : list (list (option (val unit))) :=
  [[Some (VString _ (chars "a," ++ qt ++ chars "b")); Some (VInt _ (-7)); None; Some (VInt _ 1250)];
   [None; Some (VInt _ 12); None; None]].
Definition example_line1 : list N :=
  (34 :: (chars "a," ++ qt ++ qt ++ chars "b") ++ [34]) ++ chr "," :: ((chars "-" ++ chars "7") ++ chr "," :: (chars "junk" ++ chr "," :: ([] ++ chars "12" ++ chars "." ++ chars "5"))).
Definition example_line2 : list N := chars "short" ++ chr "," :: ([] ++ chars "1").
Definition example_line3 : list N := [] ++ chr "," :: (([] ++ chars "12") ++ chr "," :: ([] ++ chr "," :: [])).
Definition example_body : list N := example_line1 ++ 10 :: (example_line2 ++ 10 :: (example_line3 ++ 10 :: [])).
Definition example_text : list N := ((chars "name" ++ chr "," :: (chars "id" ++ chr "," :: (chars "extra" ++ chr "," :: chars "price"))) ++ 10 :: example_body)%list.
Lemma plain_dec : forall cfg s, forallb (fun c => negb (existsb (N.eqb c) [delimiter cfg; quote cfg; 10; 0; 255])) s = true -> plain cfg s.
Proof.
  intros cfg s H. rewrite forallb_forall in H.
  assert (X : forall c, In c [delimiter cfg; quote cfg; 10; 0; 255] -> ~ In c s).
  { intros c I J. specialize (H c J). apply negb_true_iff in H. assert (existsb (N.eqb c) [delimiter cfg; quote cfg; 10; 0; 255] = true) as Y.
    { apply existsb_exists. exists c. split; [exact I|apply N.eqb_refl]. } congruence. }
  unfold plain. split; [|split; [|split; [|split]]]; apply X; cbn; tauto.
Qed.
Lemma decdigits : forall s, forallb is_dec s = true -> Forall decdigit s.
Proof. intros s H. apply Forall_forall. intros c I. rewrite forallb_forall in H. apply is_dec_spec. auto. Qed.
Example C38_nonvacuous : ok_config (csv true false 10) /\ with_header (csv true false 10) example_attrs example_cols example_body example_text
  /\ file unit (fun _ => None) (csv true false 10) example_cols example_recs example_body.
Proof.
  split; [|split].
  - unfold ok_config, csv, decdigit. cbn. repeat split; try discriminate. lia.
  - unfold example_text. apply named_columns with (ns := [chars "name"; chars "id"; chars "extra"; chars "price"]); [reflexivity|reflexivity| |].
    2:{ assert (F : forall i a name, nth_error example_attrs i = Some a -> aname a = name -> NoDup (map aname example_attrs) -> column_named example_attrs name (Some (i, aty a))).
        { intros i a name A B C. left. exists i, a. split; [exact A|]. split; [exact B|]. split; [reflexivity|]. intros i' a' Li A' B'.
          rewrite (NoDup_nth_error (map aname example_attrs)) in C. specialize (C i' i). rewrite !nth_error_map, A, A' in C. cbn in C. rewrite B, B' in C.
          enough (i' = i) by lia. apply C; [|reflexivity]. change 4%nat with (length example_attrs). apply nth_error_Some. congruence. }
        assert (Nd : NoDup (map aname example_attrs)) by (repeat constructor; cbn; intuition discriminate).
        apply Forall2_cons; [now apply (F 1%nat (mkAttr (chars "name") TString false))|]. apply Forall2_cons; [now apply (F 0%nat (mkAttr (chars "id") TInt false))|].
        apply Forall2_cons; [right; split; [|reflexivity]; cbn; intuition (subst; discriminate)|].
        apply Forall2_cons; [now apply (F 3%nat (mkAttr (chars "price") (TDecimal 2) false))|]. apply Forall2_nil. } apply names_cons; [discriminate|apply plain_dec; reflexivity|]. apply names_cons; [discriminate|apply plain_dec; reflexivity|].
    apply names_cons; [discriminate|apply plain_dec; reflexivity|]. apply names_one; [discriminate|apply plain_dec; reflexivity].
  - unfold example_body, example_recs. apply file_record; [|apply file_short with (vs := [Some (VString _ (chars "short")); Some (VInt _ 1)]) (more := [None; Some (3%nat, TDecimal 2)]) (k := [Some (1%nat, TString); Some (0%nat, TInt)]);
      [reflexivity|discriminate| |apply file_record; [|apply file_nil]]].
    + unfold example_line1. apply (record_cons unit _ (csv true false 10)); [apply field_value, (cell_quoted unit _ (csv true false 10))|apply record_cons; [apply field_value, cell_int|apply record_cons; [apply field_ignored, ignored_plain|apply record_one, field_value, cell_decimal]]].
      * cbn. intuition discriminate.
      * apply escaped_char; try discriminate. apply escaped_char; try discriminate. apply escaped_quote; [reflexivity|]. apply escaped_char; try discriminate. apply escaped_nil.
      * discriminate.
      * now apply decdigits.
      * right. split; reflexivity.
      * reflexivity.
      * now apply plain_dec.
      * now apply plain_dec.
      * discriminate.
      * now apply decdigits.
      * now apply decdigits.
      * cbn. lia.
      * left. split; [left; reflexivity|reflexivity].
      * reflexivity.
      * reflexivity.
      * now apply plain_dec.
    + apply record_cons; [apply field_value, cell_plain; [discriminate|now apply plain_dec]|apply record_one, field_value, cell_int].
      * discriminate.
      * now apply decdigits.
      * left. split; [left|]; reflexivity.
      * reflexivity.
      * now apply plain_dec.
    + apply record_cons; [apply field_null|apply record_cons; [apply field_value, cell_int|apply record_cons; [apply field_ignored, ignored_plain; now apply plain_dec|apply record_one, field_null]]].
      * discriminate.
      * now apply decdigits.
      * left. split; [left|]; reflexivity.
      * reflexivity.
      * now apply plain_dec.
Qed.
Example C38_example : import unit (fun _ => None) (csv true false 10) example_attrs None example_text [] =
  Some [Some [Some (VInt _ (-7)); Some (VString _ (chars "a," ++ qt ++ chars "b")); None; Some (VInt _ 1250)]; Some [Some (VInt _ 12); None; None; None]].
Proof. vm_compute. reflexivity. Qed.

(** ** Refutations: what the reader does outside of the format *)
Section Refutations.
Let imp (cfg : config) (attrs : list attr) (text : list N) := import unit (fun _ => None) cfg attrs None text [].
Let int_column : list attr := [mkAttr (chars "x") TInt false].
Let bool_column : list attr := [mkAttr (chars "x") TBool false].
(** A row with too many cells is not skipped: its slot receives the next row, and a row that nobody wrote remains at the end. *)
Theorem C38_refuted_long_row : imp (csv false false 10) int_column (chars "1" ++ nl ++ chars "2,3" ++ nl ++ chars "4" ++ nl)%list =
  Some [Some [Some (VInt _ 1)]; Some [Some (VInt _ 4)]; None].
Proof. vm_compute. reflexivity. Qed.
(** A NULL in the last cell of a file without a final line feed is read as 0. *)
Theorem C38_refuted_null_at_end : imp (csv false false 10) (int_column ++ [mkAttr (chars "y") TInt false])%list (chars "1,") = Some [Some [Some (VInt _ 1); Some (VInt _ 0)]].
Proof. vm_compute. reflexivity. Qed.
(** A malformed Boolean is not NULL: the row repeats the value of the row before. *)
Theorem C38_refuted_invalid_bool : imp (csv false false 10) bool_column (chars "TRUE" ++ nl ++ chars "foo" ++ nl)%list = Some [Some [Some (VBool _ true)]; Some [Some (VBool _ true)]].
Proof. vm_compute. reflexivity. Qed.
(** An empty header line that is to be skipped takes the first record with it. *)
Theorem C38_refuted_skip_empty_header : imp (csv true true 10) int_column (nl ++ chars "1" ++ nl ++ chars "2" ++ nl)%list = Some [Some [Some (VInt _ 2)]].
Proof. vm_compute. reflexivity. Qed.
(** A quoted cell with a quote inside, in a column that the table does not have, drops the record. *)
Theorem C38_refuted_ignored_quote : imp (csv true false 10) int_column
  (chars "z,x" ++ nl ++ qt ++ chars "a" ++ qt ++ qt ++ chars "b" ++ qt ++ chars ",1" ++ nl)%list = Some [].
Proof. vm_compute. reflexivity. Qed.
(** A number beyond 64 bits is neither an error nor NULL (the overflow is undefined behaviour). *)
Theorem C38_refuted_large_number : imp (csv false false 10) int_column (chars "9223372036854775808" ++ nl)%list = Some [Some [Some (VInt _ (-9223372036854775808))]].
Proof. vm_compute. reflexivity. Qed.
End Refutations.
