(** * C27, C28, C29: data layouts and stores *)
From Coq Require Import List Arith Lia Bool NArith ZArith Permutation Sorted.
From Verif Require Import Layout.
From Verif Require Arith ArithProps Types.
Import ListNotations.
Local Open Scope N_scope.

(** ** Specification *)

(** The types a table can have. *)
Inductive valid_type : type -> Prop :=
  | v_bool : valid_type BOOL
  | v_char n : 0 < n -> valid_type (CHAR n)
  | v_varchar n : valid_type (VARCHAR n)
  | v_date : valid_type DATE
  | v_datetime : valid_type DATETIME
  | v_int b : In b [1; 2; 4; 8] -> valid_type (INT b)
  | v_float : valid_type FLOAT
  | v_double : valid_type DOUBLE
  | v_decimal p s : 1 <= p <= 19 -> valid_type (DECIMAL p s).

Definition valid_types (types : list type) : Prop := types <> [] /\ Forall valid_type types.

(** What a row consists of: its attributes and one NULL bit per attribute. *)
Inductive item := Attr (i : nat) | NullBit (j : nat).
Definition has (types : list type) (remove_null : bool) (x : item) : Prop :=
  match x with Attr i => (i < length types)%nat | NullBit j => (j < length types)%nat /\ remove_null = false end.

(** The bits of an item in row [r] of a layout at byte address [base]: first bit, number of bits. *)
Definition bits (L : layout) (types : list type) (base r : N) (x : item) : N * N :=
  let bit_of i := let '(a, b) := address L base r i in 8 * a + b in
  match x with
  | Attr i => (bit_of i, tsize (ty types i))
  | NullBit j => (bit_of (length types) + N.of_nat j, 1)
  end.

Definition disjoint (a b : N * N) : Prop := fst a + snd a <= fst b \/ fst b + snd b <= fst a.
Definition inside (a : N * N) (lo hi : N) : Prop := lo <= fst a /\ fst a + snd a <= hi.

Definition no_overlap (L : layout) (types : list type) (remove_null : bool) : Prop :=
  forall base r r' x x', has types remove_null x -> has types remove_null x' -> (r, x) <> (r', x') ->
    disjoint (bits L types base r x) (bits L types base r' x').

(** ** Lemmas on types *)
Lemma valid_ok t : valid_type t -> 0 < tsize t /\ (exists a, talign t = 2 ^ a) /\ (talign t | tsize t).
Proof.
  intros H; destruct H as [|n Hn|n| | |b Hb| | |p s Hp].
  - cbn. split; [lia|split; [exists 0; reflexivity|exists 1; reflexivity]].
  - cbn [CHAR tsize talign]. split; [lia|split; [exists 3; reflexivity|exists n; lia]].
  - cbn [VARCHAR tsize talign]. split; [lia|split; [exists 3; reflexivity|exists (n + 1); lia]].
  - cbn. split; [lia|split; [exists 5; reflexivity|exists 1; reflexivity]].
  - cbn. split; [lia|split; [exists 6; reflexivity|exists 1; reflexivity]].
  - cbn in Hb. destruct Hb as [<-|[<-|[<-|[<-|[]]]]]; cbn; (split; [lia|split; [|exists 1; reflexivity]]).
    + exists 3; reflexivity. + exists 4; reflexivity. + exists 5; reflexivity. + exists 6; reflexivity.
  - cbn. split; [lia|split; [exists 5; reflexivity|exists 1; reflexivity]].
  - cbn. split; [lia|split; [exists 6; reflexivity|exists 1; reflexivity]].
  - assert (E : DECIMAL p s = DECIMAL p 0) by reflexivity. rewrite E. clear E.
    assert (Hin : In p [1;2;3;4;5;6;7;8;9;10;11;12;13;14;15;16;17;18;19]).
    { cbn. lia. }
    clear Hp. cbn [In] in Hin.
    repeat (destruct Hin as [<-|Hin];
      [vm_compute; split; [reflexivity|split];
        (first [exists 2; reflexivity | exists 3; reflexivity | exists 4; reflexivity | exists 5; reflexivity | exists 6; reflexivity | exists 1; reflexivity])|]).
    destruct Hin.
Qed.

Lemma pow_divide a b : 2 ^ a <= 2 ^ b -> (2 ^ a | 2 ^ b).
Proof.
  intros H. apply N.pow_le_mono_r_iff in H; [|lia]. exists (2 ^ (b - a)). rewrite <- N.pow_add_r. f_equal. lia.
Qed.

Definition okt (t : type) : Prop := 0 < tsize t /\ (exists a, talign t = 2 ^ a) /\ (talign t | tsize t).

Lemma align_div t u : okt t -> okt u -> talign t <= talign u -> (talign t | talign u).
Proof. intros (_ & (a & Ha) & _) (_ & (b & Hb) & _). rewrite Ha, Hb. apply pow_divide. Qed.

Lemma NoDup_snoc (l : list nat) x : NoDup l -> ~ In x l -> NoDup (l ++ [x]).
Proof. intros H Hn. apply (Permutation_NoDup (l := x :: l)); [apply Permutation_cons_append|constructor; auto]. Qed.

Lemma okt_ty types i : Forall valid_type types -> okt (ty types i).
Proof.
  intros H. unfold ty. destruct (Nat.lt_ge_cases i (length types)) as [Hi|Hi].
  - apply valid_ok. rewrite Forall_forall in H. apply H, nth_In; auto.
  - rewrite nth_overflow by auto. apply valid_ok. constructor.
Qed.

(** ** The order of the attributes *)
Lemma sort_insert_perm types x l : Permutation (sort_insert types x l) (x :: l).
Proof.
  induction l as [|y r IH]; cbn; auto. destruct (_ <? _); auto.
  transitivity (y :: x :: r); [constructor; auto|constructor].
Qed.
Lemma stable_sort_perm types l : Permutation (stable_sort types l) l.
Proof. induction l as [|x r IH]; cbn; auto. rewrite sort_insert_perm. constructor; auto. Qed.

Definition desc (types : list type) (i j : nat) : Prop := talign (ty types j) <= talign (ty types i).

Lemma sort_insert_sorted types x l : StronglySorted (desc types) l -> StronglySorted (desc types) (sort_insert types x l).
Proof.
  induction 1 as [|y r Hr IH Hy]; cbn; [repeat constructor|].
  destruct (N.ltb_spec (talign (ty types x)) (talign (ty types y))) as [Hlt|Hge].
  - constructor; auto. apply Forall_forall. intros z Hz. apply (Permutation_in _ (sort_insert_perm types x r)) in Hz.
    destruct Hz as [<-|Hz]; [unfold desc; lia|]. rewrite Forall_forall in Hy; auto.
  - constructor; [constructor; auto|]. constructor; [unfold desc; lia|]. apply Forall_forall. intros z Hz.
    rewrite Forall_forall in Hy. specialize (Hy z Hz). unfold desc in *. lia.
Qed.
Lemma stable_sort_sorted types l : StronglySorted (desc types) (stable_sort types l).
Proof. induction l as [|x r IH]; cbn; [constructor|]. apply sort_insert_sorted; auto. Qed.

Lemma order_perm reorder types : Permutation (compute_attribute_order reorder types) (seq 0 (length types)).
Proof. unfold compute_attribute_order. destruct reorder; auto. apply stable_sort_perm. Qed.

Lemma order_nodup reorder types : NoDup (compute_attribute_order reorder types).
Proof. eapply Permutation_NoDup; [symmetry; apply order_perm|apply seq_NoDup]. Qed.

Lemma order_in reorder types i : In i (compute_attribute_order reorder types) <-> (i < length types)%nat.
Proof.
  split; intros H.
  - apply (Permutation_in _ (order_perm reorder types)) in H. apply in_seq in H. lia.
  - eapply Permutation_in; [symmetry; apply order_perm|]. apply in_seq. lia.
Qed.

(** ** Offsets in a row *)
Fixpoint total (types : list type) (l : list nat) : N :=
  match l with [] => 0 | i :: r => tsize (ty types i) + total types r end.

Fixpoint placed (types : list type) (offs : nat -> N) (off : N) (l : list nat) : Prop :=
  match l with [] => True | i :: r => offs i = off /\ placed types offs (off + tsize (ty types i)) r end.

Lemma placed_ext types f g off l : (forall i, In i l -> g i = f i) -> placed types f off l -> placed types g off l.
Proof.
  revert off; induction l as [|i r IH]; intros off He Hp; cbn in *; auto. destruct Hp as [Hi Hp]. split.
  - rewrite He; auto.
  - apply IH; auto.
Qed.

Lemma row_offsets_spec types l : NoDup l -> forall offs off al,
  exists offs' al', row_offsets types l offs off al = (offs', off + total types l, al') /\
    placed types offs' off l /\ (forall i, ~ In i l -> offs' i = offs i) /\
    al <= al' /\ (forall i, In i l -> talign (ty types i) <= al') /\
    ((exists a, al = 2 ^ a) -> (forall i, okt (ty types i)) -> exists a, al' = 2 ^ a).
Proof.
  induction l as [|i r IH]; intros Hd offs off al; cbn [row_offsets total placed].
  - rewrite N.add_0_r. exists offs, al. repeat split; auto; try lia. intros i [].
  - inversion Hd as [|? ? Hi Hr]; subst.
    destruct (IH Hr (set offs i off) (off + tsize (ty types i)) (N.max al (talign (ty types i)))) as (o & a & -> & P1 & P2 & P3 & P4 & P5).
    exists o, a. split; [f_equal; f_equal; lia|]. split; [|split; [|split; [|split]]].
    + split; auto. rewrite P2 by auto. unfold set. rewrite Nat.eqb_refl. reflexivity.
    + intros j Hj. rewrite P2 by (intros X; apply Hj; right; auto). unfold set.
      destruct (Nat.eqb_spec j i) as [->|]; auto. elim Hj; left; auto.
    + lia.
    + intros j [<-|Hj]; [lia|auto].
    + intros (x & Hx) Hok. apply P5; auto. destruct (Hok i) as (_ & (y & Hy) & _). rewrite Hx, Hy.
      destruct (N.max_spec (2 ^ x) (2 ^ y)) as [[_ ->]|[_ ->]]; eauto.
Qed.

Lemma total_perm types l l' : Permutation l l' -> total types l = total types l'.
Proof. induction 1; cbn; lia. Qed.

(** ** Packed layouts *)

(** The number of bits of a leaf, and the number of bits of its column. *)
Definition leaf_size (types : list type) (i : nat) : N := if Nat.eqb i (length types) then N.of_nat (length types) else tsize (ty types i).
Definition width (L : layout) (types : list type) (i : nat) : N := lstride L i * (rows L - 1) + leaf_size types i.

Fixpoint packed (L : layout) (types : list type) (lo : N) (l : list nat) (hi : N) : Prop :=
  match l with
  | [] => lo <= hi
  | i :: r => lo <= loffset L i /\ packed L types (loffset L i + width L types i) r hi
  end.

Record good (L : layout) (types : list type) (remove_null : bool) : Prop := mkGood {
  g_order : exists l, packed L types 0 l (block L) /\ NoDup l /\ (forall i, (i < length types)%nat -> In i l) /\
                      (remove_null = false -> In (length types) l);
  g_rows : 0 < rows L;
  g_byte : (8 | block L);
  g_stride : rows L = 1 \/ forall i, ((i < length types)%nat \/ (remove_null = false /\ i = length types)) -> leaf_size types i <= lstride L i }.

Lemma packed_lo L types l : forall lo hi, packed L types lo l hi -> lo <= hi.
Proof. induction l as [|i r IH]; intros lo hi; cbn; auto. intros [H1 H2]. apply IH in H2. lia. Qed.

Lemma packed_in L types l : forall lo hi i, packed L types lo l hi -> In i l -> lo <= loffset L i /\ loffset L i + width L types i <= hi.
Proof.
  induction l as [|j r IH]; intros lo hi i; cbn; [tauto|]. intros [H1 H2] [<-|Hi].
  - split; auto. eapply packed_lo; eauto.
  - destruct (IH _ _ _ H2 Hi). lia.
Qed.

Lemma packed_disjoint L types l : forall lo hi i j, packed L types lo l hi -> In i l -> In j l -> i <> j ->
  loffset L i + width L types i <= loffset L j \/ loffset L j + width L types j <= loffset L i.
Proof.
  induction l as [|k r IH]; intros lo hi i j; cbn; [tauto|]. intros [H1 H2] Hi Hj Hne.
  destruct Hi as [<-|Hi], Hj as [<-|Hj]; try congruence.
  - left. eapply packed_in in H2; eauto. lia.
  - right. eapply packed_in in H2; eauto. lia.
  - eauto.
Qed.

Lemma address_bits L base r i : (8 | block L) -> let '(a, b) := address L base r i in
  8 * a + b = 8 * base + (r / rows L) * block L + (loffset L i + (r mod rows L) * lstride L i).
Proof.
  intros [q Hq]. unfold address. set (x := loffset L i + (r mod rows L) * lstride L i).
  rewrite Hq. replace (r / rows L * (q * 8)) with (r / rows L * q * 8) by lia.
  rewrite N.div_mul by lia. change (0 / 8) with 0. pose proof (N.div_mod x 8 ltac:(lia)). lia.
Qed.

(** The leaf an item belongs to and its place in it. *)
Definition leaf_of (types : list type) (x : item) : nat := match x with Attr i => i | NullBit _ => length types end.
Definition place (x : item) : N := match x with Attr _ => 0 | NullBit j => N.of_nat j end.
Definition bitlen (types : list type) (x : item) : N := match x with Attr i => tsize (ty types i) | NullBit _ => 1 end.

Lemma bits_eq L types base r x : (8 | block L) ->
  bits L types base r x = (8 * base + (r / rows L) * block L + (loffset L (leaf_of types x) + (r mod rows L) * lstride L (leaf_of types x)) + place x, bitlen types x).
Proof.
  intros Hb. destruct x as [i|j]; cbn [bits leaf_of place bitlen].
  - pose proof (address_bits L base r i Hb) as H. destruct (address L base r i). f_equal. lia.
  - pose proof (address_bits L base r (length types) Hb) as H. destruct (address L base r (length types)). f_equal. lia.
Qed.

Lemma leaf_fits types rn x : has types rn x -> place x + bitlen types x <= leaf_size types (leaf_of types x).
Proof.
  destruct x as [i|j]; cbn; unfold leaf_size.
  - intros H. destruct (Nat.eqb_spec i (length types)); [lia|]. lia.
  - intros [H _]. rewrite Nat.eqb_refl. lia.
Qed.

Lemma good_leaf L types rn x : good L types rn -> has types rn x -> exists l, packed L types 0 l (block L) /\ NoDup l /\ In (leaf_of types x) l /\
  (forall y, has types rn y -> In (leaf_of types y) l).
Proof.
  intros [(l & P & D & Hl & Hn) _ _ _] Hx. exists l. split; [auto|]. split; [auto|].
  assert (G : forall y, has types rn y -> In (leaf_of types y) l) by (intros [i|j]; cbn; [auto|intros [_ ->]; auto]).
  auto.
Qed.

Lemma good_inside L types rn : good L types rn -> forall base r x, has types rn x ->
  inside (bits L types base r x) (8 * base + r / rows L * block L) (8 * base + (r / rows L + 1) * block L).
Proof.
  intros G base r x Hx. destruct (good_leaf L types rn x G Hx) as (l & P & _ & Hl & _). destruct G as [_ Gr Gb _].
  rewrite bits_eq by auto. unfold inside. cbn [fst snd]. destruct (packed_in _ _ _ _ _ _ P Hl) as [_ Hw].
  unfold width in Hw. pose proof (leaf_fits types rn x Hx) as Hf.
  assert (Hm : r mod rows L <= rows L - 1) by (pose proof (N.mod_upper_bound r (rows L) ltac:(lia)); lia).
  assert (Hs : r mod rows L * lstride L (leaf_of types x) <= lstride L (leaf_of types x) * (rows L - 1)) by (rewrite N.mul_comm; apply N.mul_le_mono_l; auto).
  rewrite N.mul_add_distr_r. lia.
Qed.

Lemma good_no_overlap L types rn : good L types rn -> no_overlap L types rn.
Proof.
  intros G base r r' x x' Hx Hx' Hne.
  pose proof (good_inside L types rn G base r x Hx) as I1. pose proof (good_inside L types rn G base r' x' Hx') as I2.
  destruct (good_leaf L types rn x G Hx) as (l & P & _ & Hl & Hall). specialize (Hall x' Hx').
  destruct G as [_ Gr Gb Gs].
  destruct (N.eq_dec (r / rows L) (r' / rows L)) as [Eq|Nq].
  - rewrite !bits_eq in * by auto. unfold disjoint. cbn [fst snd]. rewrite <- Eq. clear I1 I2.
    pose proof (leaf_fits types rn x Hx) as F1. pose proof (leaf_fits types rn x' Hx') as F2.
    assert (Hm : r mod rows L <= rows L - 1) by (pose proof (N.mod_upper_bound r (rows L) ltac:(lia)); lia).
    assert (Hm' : r' mod rows L <= rows L - 1) by (pose proof (N.mod_upper_bound r' (rows L) ltac:(lia)); lia).
    pose proof (N.div_mod r (rows L) ltac:(lia)) as D1. pose proof (N.div_mod r' (rows L) ltac:(lia)) as D2.
    set (m := r mod rows L) in *. set (m' := r' mod rows L) in *.
    assert (Hs : m * lstride L (leaf_of types x) <= lstride L (leaf_of types x) * (rows L - 1)) by (rewrite N.mul_comm; apply N.mul_le_mono_l; auto).
    assert (Hs' : m' * lstride L (leaf_of types x') <= lstride L (leaf_of types x') * (rows L - 1)) by (rewrite N.mul_comm; apply N.mul_le_mono_l; auto).
    destruct (Nat.eq_dec (leaf_of types x) (leaf_of types x')) as [El|Nl].
    + rewrite <- El in *. destruct (N.eq_dec m m') as [Em|Nm].
      * rewrite <- Em in *. assert (Er : r = r') by (rewrite D1, D2, <- Eq; reflexivity). subst r'.
        destruct x as [i|j], x' as [i'|j']; cbn [leaf_of place bitlen] in *; try congruence.
        -- exfalso. cbn in Hx. lia.
        -- exfalso. cbn in Hx'. lia.
        -- assert (j <> j') by congruence. lia.
      * destruct Gs as [G1|Gs]; [lia|].
        assert (Hst : leaf_size types (leaf_of types x) <= lstride L (leaf_of types x)).
        { apply Gs. destruct x as [i|j]; cbn in *; [left; auto|right; intuition]. }
        set (st := lstride L (leaf_of types x)) in *. set (ls := leaf_size types (leaf_of types x)) in *.
        clearbody m m' st ls. clear - Nm F1 F2 Hst. destruct (N.lt_ge_cases m m') as [Hlt|Hge].
        -- left. assert ((m + 1) * st <= m' * st) by (apply N.mul_le_mono_r; lia). lia.
        -- right. assert ((m' + 1) * st <= m * st) by (apply N.mul_le_mono_r; lia). lia.
    + destruct (packed_disjoint _ _ _ _ _ _ _ P Hl Hall Nl) as [H|H]; unfold width in H; [left|right]; lia.
  - unfold disjoint, inside in *. clear - I1 I2 Nq. set (q := r / rows L) in *. set (q' := r' / rows L) in *.
    destruct (N.lt_ge_cases q q') as [Hlt|Hge].
    + left. assert ((q + 1) * block L <= q' * block L) by (apply N.mul_le_mono_r; lia). lia.
    + right. assert ((q' + 1) * block L <= q * block L) by (apply N.mul_le_mono_r; lia). lia.
Qed.

(** Rows that fit into a memory of M bits. *)
Lemma good_memory L types rn M : good L types rn -> forall r x, has types rn x -> r < (M / block L) * rows L ->
  inside (bits L types 0 r x) 0 M.
Proof.
  intros G r x Hx Hr. pose proof (good_inside L types rn G 0 r x Hx) as [H1 H2]. destruct G as [_ Gr _ _].
  split; [lia|]. apply (N.le_trans _ _ _ H2). assert (Hq : r / rows L < M / block L) by (apply N.div_lt_upper_bound; [lia|rewrite N.mul_comm; auto]).
  destruct (N.eq_dec (block L) 0) as [E|E]; [rewrite E in *; lia|].
  pose proof (N.mul_div_le M (block L) E). assert ((r / rows L + 1) * block L <= M / block L * block L) by (apply N.mul_le_mono_r; lia). lia.
Qed.

(** ** Padding *)
Lemma pad_spec x al : al <> 0 -> (al | pad x al) /\ x <= pad x al < x + al.
Proof.
  intros Hal. unfold pad. pose proof (N.div_mod x al Hal) as D. pose proof (N.mod_upper_bound x al Hal) as U.
  destruct (N.eqb_spec (x mod al) 0) as [E|E].
  - split; [apply N.mod_divide; auto|lia].
  - split; [|lia]. exists (x / al + 1). rewrite N.mul_add_distr_r, (N.mul_comm (x / al)). lia.
Qed.

Lemma pow_ge_8 al : (exists a, al = 2 ^ a) -> 8 <= al -> (8 | al).
Proof. intros (a & ->) H. change 8 with (2 ^ 3) in *. apply pow_divide; auto. Qed.

(** ** C27: row layouts *)
Lemma placed_packed types L offs l : rows L = 1 -> (forall i, In i l -> i <> length types /\ loffset L i = offs i) -> forall off r hi,
  placed types offs off l -> packed L types (off + total types l) r hi -> packed L types off (l ++ r) hi.
Proof.
  intros HR. induction l as [|i l IH]; intros Hl off r hi Hp Hr; cbn in *.
  - rewrite N.add_0_r in Hr. auto.
  - destruct Hp as [Hi Hp]. destruct (Hl i (or_introl eq_refl)) as [Hn Ho]. rewrite Ho, Hi. split; [lia|].
    unfold width, leaf_size. rewrite HR. destruct (Nat.eqb_spec i (length types)); [lia|]. rewrite N.sub_diag, N.mul_0_r, N.add_0_l.
    apply IH; auto. rewrite <- N.add_assoc. auto.
Qed.

Lemma row_good reorder rn types : valid_types types -> good (row_layout reorder rn types) types rn.
Proof.
  intros [Hne Hv]. unfold row_layout. set (l := compute_attribute_order reorder types).
  assert (Hd : NoDup l) by apply order_nodup.
  destruct (row_offsets_spec types l Hd (fun _ => 0) 0 8) as (offs & al & -> & P1 & P2 & P3 & P4 & P5). rewrite N.add_0_l.
  assert (Hal : exists a, al = 2 ^ a) by (apply P5; [exists 3; reflexivity|intros i; apply okt_ty; auto]).
  set (n := length types) in *. set (size := pad _ _).
  assert (Hs : (8 | size) /\ total types l + (if rn then 0 else N.of_nat n) <= size).
  { unfold size. destruct (pad_spec (if rn then total types l else total types l + N.of_nat n) al) as [Q1 Q2]; [lia|].
    split; [apply (N.divide_trans _ al); auto; apply pow_ge_8; auto|]. destruct rn; lia. }
  clearbody size. constructor; cbn [rows block loffset lstride].
  - exists (l ++ if rn then [] else [n]). split; [|split; [|split]].
    + apply (placed_packed types _ offs); [reflexivity| |auto|].
      * intros i Hi. apply order_in in Hi. fold n in Hi. cbn [loffset]. unfold set. split; [lia|]. destruct (Nat.eqb_spec i n); [lia|auto].
      * rewrite N.add_0_l. destruct rn; cbn [packed]; [lia|]. cbn [loffset]. unfold set. fold n. rewrite Nat.eqb_refl. split; [lia|].
        unfold width, leaf_size. cbn [rows lstride]. fold n. rewrite Nat.eqb_refl. lia.
    + destruct rn; [rewrite app_nil_r; auto|]. apply NoDup_snoc; auto. intros X. apply order_in in X. lia.
    + intros i Hi. apply in_app_iff. left. apply order_in; auto.
    + intros ->. apply in_app_iff. right. left. reflexivity.
  - lia.
  - apply Hs.
  - left; reflexivity.
Qed.

(** Alignment of the items: attributes with their type's alignment (NULL bits have none). *)
Definition aligned (L : layout) (types : list type) : Prop :=
  forall r i, (i < length types)%nat -> (talign (ty types i) | fst (bits L types 0 r (Attr i))).

Lemma placed_aligned types offs l : (forall i, okt (ty types i)) -> StronglySorted (desc types) l -> forall off, placed types offs off l ->
  (forall i, In i l -> (talign (ty types i) | off)) -> forall i, In i l -> (talign (ty types i) | offs i).
Proof.
  intros Hok. induction 1 as [|i r Hr IH Hi]; intros off Hp Ho j Hj; [destruct Hj|].
  cbn in Hp. destruct Hp as [E Hp]. destruct Hj as [<-|Hj]; [rewrite E; apply Ho; left; auto|].
  apply (IH _ Hp); auto. intros k Hk. apply N.divide_add_r; [apply Ho; right; auto|].
  rewrite Forall_forall in Hi. specialize (Hi k Hk). unfold desc in Hi.
  apply (N.divide_trans _ (talign (ty types i))); [apply align_div; auto|]. apply Hok.
Qed.

(** Row layouts: every attribute and NULL bit of every row has bits of its own. *)
Theorem C27_no_overlap : forall reorder remove_null types, valid_types types ->
  no_overlap (row_layout reorder remove_null types) types remove_null.
Proof. intros. apply good_no_overlap, row_good; auto. Qed.

(** A row occupies one stride, a whole number of bytes. *)
Theorem C27_inside_row : forall reorder remove_null types, valid_types types ->
  let L := row_layout reorder remove_null types in
  (8 | block L) /\ forall base r x, has types remove_null x -> inside (bits L types base r x) (8 * base + r * block L) (8 * base + (r + 1) * block L).
Proof.
  intros reorder rn types Hv L. pose proof (row_good reorder rn types Hv) as G. fold L in G. split; [apply G|].
  intros base r x Hx. pose proof (good_inside L types rn G base r x Hx) as H.
  assert (E : rows L = 1). { unfold L, row_layout. destruct (row_offsets _ _ _ _ _) as [[? ?] ?]. reflexivity. }
  rewrite E, N.div_1_r in H. exact H.
Qed.

(** With reordering of the attributes (the default), attributes are aligned. *)
Theorem C27_aligned : forall remove_null types, valid_types types -> aligned (row_layout true remove_null types) types.
Proof.
  intros rn types Hv r i Hi. pose proof (row_good true rn types Hv) as G. destruct Hv as [Hne Hv].
  rewrite bits_eq by apply G. cbn [fst leaf_of place]. unfold row_layout. set (l := compute_attribute_order true types).
  assert (Hd : NoDup l) by apply order_nodup.
  destruct (row_offsets_spec types l Hd (fun _ => 0) 0 8) as (offs & al & -> & P1 & P2 & P3 & P4 & P5).
  assert (Hok : forall i, okt (ty types i)) by (intros; apply okt_ty; auto).
  destruct (P5 ltac:(exists 3; reflexivity) Hok) as (a & Ha). cbn [rows block loffset lstride].
  assert (Hil : In i l) by (apply order_in; auto).
  rewrite N.div_1_r, !N.mul_0_r, !N.add_0_r, !N.add_0_l. apply N.divide_add_r.
  - apply N.divide_mul_r. apply (N.divide_trans _ al).
    + destruct (Hok i) as (_ & (b & Hb) & _). rewrite Hb, Ha. apply pow_divide. rewrite <- Hb, <- Ha. auto.
    + apply pad_spec. lia.
  - unfold set. destruct (Nat.eqb_spec i (length types)); [lia|].
    apply (placed_aligned types offs l Hok) with (off := 0); auto; [apply stable_sort_sorted|]. intros. apply N.divide_0_r.
Qed.

(** ** C28: PAX layouts *)
Fixpoint cplaced (types : list type) (R : N) (offs : nat -> N) (c : N) (l : list nat) (e : N) : Prop :=
  match l with
  | [] => e = c
  | i :: r => offs i = c /\ cplaced types R offs (pad (c + tsize (ty types i) * R) 8) r e
  end.

Lemma cplaced_ext types R f g l : forall c e, (forall i, In i l -> g i = f i) -> cplaced types R f c l e -> cplaced types R g c l e.
Proof.
  induction l as [|i r IH]; intros c e He Hp; cbn in *; auto. destruct Hp as [Hi Hp]. split.
  - rewrite He; auto.
  - apply IH; auto.
Qed.

Definition unaligned (types : list type) (l : list nat) : N :=
  N.of_nat (length (filter (fun i => negb (tsize (ty types i) mod 8 =? 0)) l)).

Lemma column_offsets_spec types R l : NoDup l -> forall offs off p, placed types offs off l -> (8 | off * R + p) ->
  exists offs' p', column_offsets types R l offs p = (offs', p') /\
    cplaced types R offs' (off * R + p) l ((off + total types l) * R + p') /\
    (forall i, ~ In i l -> offs' i = offs i) /\ p <= p' <= p + 7 * unaligned types l.
Proof.
  induction l as [|i r IH]; intros Hd offs off p Hp H8; cbn [column_offsets cplaced total].
  - exists offs, p. rewrite N.add_0_r. repeat split; auto; unfold unaligned; cbn; lia.
  - inversion Hd as [|? ? Hi Hr]; subst. destruct Hp as [Ei Hp].
    set (s := tsize (ty types i)) in *. set (bit := (s * R) mod 8).
    assert (Hbit : bit < 8) by (apply N.mod_upper_bound; lia).
    set (q := if bit =? 0 then p else p + (8 - bit)).
    assert (Eq : (off + s) * R + q = pad (off * R + p + s * R) 8).
    { unfold pad, q. assert (Hm : (off * R + p + s * R) mod 8 = bit).
      { destruct H8 as [z Hz]. rewrite Hz, N.add_comm, N.mod_add by lia. reflexivity. }
      rewrite Hm. destruct (N.eqb_spec bit 0); lia. }
    assert (Hq8 : (8 | (off + s) * R + q)) by (rewrite Eq; apply pad_spec; lia).
    assert (Hqb : p <= q <= p + 7 * (if negb (s mod 8 =? 0) then 1 else 0)).
    { unfold q. destruct (N.eqb_spec bit 0); [lia|]. destruct (N.eqb_spec (s mod 8) 0) as [E0|E0]; cbn [negb].
      - exfalso. apply n. unfold bit. rewrite N.mul_mod, E0 by lia. reflexivity.
      - lia. }
    destruct (IH Hr (set offs i (offs i * R + p)) (off + s) q) as (o & p' & E & C1 & C2 & C3).
    { eapply placed_ext; [|exact Hp]. intros j Hj. unfold set. destruct (Nat.eqb_spec j i); [congruence|auto]. }
    { auto. }
    exists o, p'. split; [|split; [|split]].
    + fold s bit q. exact E.
    + split.
      * rewrite C2 by auto. unfold set. rewrite Nat.eqb_refl, Ei. reflexivity.
      * rewrite <- Eq. replace (off + (s + total types r)) with (off + s + total types r) by lia. exact C1.
    + intros j Hj. rewrite C2 by (intros X; apply Hj; right; auto). unfold set.
      destruct (Nat.eqb_spec j i) as [->|]; auto. elim Hj; left; auto.
    + unfold unaligned in *. cbn [filter]. fold s. destruct (negb (s mod 8 =? 0)); cbn [length]; lia.
Qed.

Lemma cplaced_byte types R offs l : forall c e, (8 | c) -> cplaced types R offs c l e -> (8 | e) /\ forall i, In i l -> (8 | offs i).
Proof.
  induction l as [|i r IH]; intros c e Hc Hp; cbn in *; [subst; split; [auto|intros i []]|]. destruct Hp as [Ei Hp].
  destruct (IH _ _ (proj1 (pad_spec _ 8 ltac:(lia))) Hp) as [H1 H2]. split; auto. intros j [<-|Hj]; [rewrite Ei; auto|auto].
Qed.

Lemma cplaced_packed types L offs l : 0 < rows L -> (forall i, In i l -> i <> length types /\ loffset L i = offs i /\ lstride L i = tsize (ty types i)) -> forall c e r hi,
  cplaced types (rows L) offs c l e -> packed L types e r hi -> packed L types c (l ++ r) hi.
Proof.
  intros HR. induction l as [|i l IH]; intros Hl c e r hi Hp Hr; cbn in *.
  - subst. auto.
  - destruct Hp as [Hi Hp]. destruct (Hl i (or_introl eq_refl)) as (Hn & Ho & Hs). rewrite Ho, Hi. split; [lia|].
    specialize (IH (fun j Hj => Hl j (or_intror Hj)) _ _ _ _ Hp Hr).
    assert (Hle : c + width L types i <= pad (c + tsize (ty types i) * rows L) 8).
    { pose proof (pad_spec (c + tsize (ty types i) * rows L) 8 ltac:(lia)) as [_ Q]. unfold width, leaf_size. rewrite Hs.
      destruct (Nat.eqb_spec i (length types)); [lia|].
      replace (tsize (ty types i) * (rows L - 1) + tsize (ty types i)) with (tsize (ty types i) * rows L); [lia|].
      rewrite <- (N.mul_1_r (tsize (ty types i))) at 3. rewrite <- N.mul_add_distr_l. f_equal. lia. }
    revert IH. generalize (l ++ r) as m. intros m. destruct m as [|j m]; cbn; intros IH; [lia|]. destruct IH. split; auto. lia.
Qed.

Lemma cplaced_aligned types R offs l : (forall i, okt (ty types i)) -> StronglySorted (desc types) l -> forall c e, cplaced types R offs c l e ->
  (8 | c) -> (forall i, In i l -> (talign (ty types i) | c)) -> forall i, In i l -> (talign (ty types i) | offs i).
Proof.
  intros Hok. induction 1 as [|i r Hr IH Hi]; intros c e Hp H8 Hc j Hj; [destruct Hj|].
  cbn in Hp. destruct Hp as [E Hp]. destruct Hj as [<-|Hj]; [rewrite E; apply Hc; left; auto|].
  pose proof (pad_spec (c + tsize (ty types i) * R) 8 ltac:(lia)) as [Q1 Q2].
  apply (IH _ _ Hp); auto. intros k Hk. rewrite Forall_forall in Hi. specialize (Hi k Hk). unfold desc in Hi.
  destruct (Hok k) as (_ & (b & Hb) & _).
  destruct (N.le_gt_cases (talign (ty types k)) 8) as [Hle|Hgt].
  - apply (N.divide_trans _ 8); auto. rewrite Hb in *. change 8 with (2 ^ 3) in *. apply pow_divide; auto.
  - assert (Hd : (talign (ty types i) | tsize (ty types i))) by apply Hok.
    assert (Hki : (talign (ty types k) | talign (ty types i))) by (apply align_div; auto).
    assert (H8i : (8 | tsize (ty types i))).
    { apply (N.divide_trans _ (talign (ty types k))); [apply pow_ge_8; [eauto|lia]|]. eapply N.divide_trans; eauto. }
    assert (Epad : pad (c + tsize (ty types i) * R) 8 = c + tsize (ty types i) * R).
    { unfold pad. destruct (N.eqb_spec ((c + tsize (ty types i) * R) mod 8) 0); auto. exfalso. apply n.
      apply N.mod_divide; [lia|]. apply N.divide_add_r; auto. apply N.divide_mul_l; auto. }
    rewrite Epad. apply N.divide_add_r; [apply Hc; right; auto|]. apply N.divide_mul_l. eapply N.divide_trans; eauto.
Qed.

(** When a block of bytes is big enough: the row with its padding fits into the blocks it is given. *)
Definition null_bits (remove_null : bool) (types : list type) : option N :=
  if remove_null then Some 0 else option_map (fun p => N.max p 8) (Arith.ceil_to_pow_2 64 (N.of_nat (length types))).
Definition row_bits (types : list type) : N := fold_right (fun t s => tsize t + s) 0 types.
Definition blocks_per_row (b row : N) : N := (row + b * 8 - 1) / (b * 8).
Definition big_enough (remove_null : bool) (opt : block_size) (types : list type) : Prop :=
  match opt with
  | NTuples t => 0 < t
  | NBytes b => 0 < b /\ 8 * b < 2 ^ 64 /\ 7 * num_not_byte_aligned types <= 8 * b /\
      forall nb, null_bits remove_null types = Some nb ->
        row_bits types + nb + 7 * num_not_byte_aligned types <= 8 * b * blocks_per_row b (row_bits types + nb)
  end.

Lemma total_row_bits types reorder : total types (compute_attribute_order reorder types) = row_bits types.
Proof.
  rewrite (total_perm types _ _ (order_perm reorder types)). unfold row_bits.
  assert (G : forall pre l, total (pre ++ l) (seq (length pre) (length l)) = fold_right (fun t s => tsize t + s) 0 l).
  { intros pre l. revert pre. induction l as [|t r IH]; intros pre; cbn [length seq total fold_right]; auto. f_equal.
    - f_equal. unfold ty. rewrite app_nth2 by lia. rewrite Nat.sub_diag. reflexivity.
    - specialize (IH (pre ++ [t])). rewrite <- app_assoc, app_length in IH. cbn [length app] in IH. rewrite Nat.add_1_r in IH. exact IH. }
  apply (G []).
Qed.

Lemma unaligned_order types reorder : unaligned types (compute_attribute_order reorder types) = num_not_byte_aligned types.
Proof.
  unfold unaligned, num_not_byte_aligned. f_equal.
  transitivity (length (filter (fun i => negb (tsize (ty types i) mod 8 =? 0)) (seq 0 (length types)))).
  - apply Permutation_length. generalize (order_perm reorder types). generalize (compute_attribute_order reorder types), (seq 0 (length types)).
    induction 1; cbn; auto.
    + destruct (negb _); auto.
    + destruct (negb _), (negb _); auto. constructor.
    + etransitivity; eauto.
  - assert (G : forall pre l, length (filter (fun i => negb (tsize (ty (pre ++ l) i) mod 8 =? 0)) (seq (length pre) (length l)))
                          = length (filter (fun t => negb (tsize t mod 8 =? 0)) l)).
    { intros pre l. revert pre. induction l as [|t r IH]; intros pre; cbn [length seq filter]; auto.
      assert (E : ty (pre ++ t :: r) (length pre) = t) by (unfold ty; rewrite app_nth2 by lia; rewrite Nat.sub_diag; reflexivity).
      rewrite E. specialize (IH (pre ++ [t])). rewrite <- app_assoc, app_length in IH. cbn [length app] in IH. rewrite Nat.add_1_r in IH.
      destruct (negb _); cbn [length]; rewrite IH; reflexivity. }
    apply (G []).
Qed.

Lemma floor_lanes_spec lanes r : 0 < lanes -> 0 < r -> 0 < floor_lanes lanes r <= r.
Proof.
  intros Hl Hr. unfold floor_lanes. destruct (N.ltb_spec lanes r); [|lia].
  pose proof (N.mul_div_le r lanes ltac:(lia)). assert (1 <= r / lanes) by (apply N.div_le_lower_bound; lia).
  assert (1 * 1 <= r / lanes * lanes) by (apply N.mul_le_mono; lia). lia.
Qed.

Lemma null_bits_ge rn types nb : null_bits rn types = Some nb -> N.of_nat (length types) < 2 ^ 64 -> rn = false -> N.of_nat (length types) <= nb /\ (8 | nb).
Proof.
  unfold null_bits. intros H Hn ->. pose proof (ArithProps.C05_ceil_to_pow_2 64 (N.of_nat (length types)) (or_intror eq_refl) Hn) as C.
  destruct (Arith.ceil_to_pow_2 64 (N.of_nat (length types))) as [p|]; [|discriminate]. cbn in H. injection H as <-.
  destruct C as (C1 & C2 & _). split; [lia|]. apply pow_ge_8; [|lia].
  destruct C1 as (k & C1). destruct (N.max_spec p 8) as [[_ ->]|[_ ->]]; [exists 3; reflexivity|eauto].
Qed.

Lemma pax_rows_spec less opt lanes row k R nblk types nb rb : pax_rows less opt lanes row k = (R, nblk) -> 0 < lanes ->
  k = num_not_byte_aligned types -> row = row_bits types + nb -> rb = row_bits types -> 0 < row ->
  match opt with NTuples t => 0 < t | NBytes b => 0 < b /\ 8 * b < 2 ^ 64 /\ 7 * k <= 8 * b /\ row + 7 * k <= 8 * b * blocks_per_row b row end ->
  0 < R /\ match opt with NTuples _ => nblk = 1 | NBytes b => forall p, p <= 7 * k -> rb * R + p + nb * R <= nblk * (b * 8) end.
Proof.
  intros Epr Hl _ Er -> H0 Hb. rewrite Er in H0. destruct opt as [t|b]; cbn [pax_rows] in Epr.
  - injection Epr as <- <-. split; [apply floor_lanes_spec; auto|reflexivity].
  - destruct Hb as (B1 & B2 & B3 & B4). unfold blocks_per_row in B4.
    assert (Es : sub64 (b * 8) (k * 7) = 8 * b - 7 * k).
    { unfold sub64. replace (b * 8 + 2 ^ 64 - k * 7) with (8 * b - 7 * k + 1 * 2 ^ 64) by lia. rewrite N.mod_add by lia. apply N.mod_small. lia. }
    rewrite Es in Epr. clear Es B2.
    assert (Hblk : 1 <= (row + b * 8 - 1) / (b * 8)) by (apply N.div_le_lower_bound; lia).
    remember ((row + b * 8 - 1) / (b * 8)) as nblocks eqn:X; clear X.
    assert (Hq : (8 * b - 7 * k) / row * row <= 8 * b - 7 * k) by (rewrite N.mul_comm; apply N.mul_div_le; lia).
    remember ((8 * b - 7 * k) / row) as q eqn:X; clear X.
    assert (Hf := floor_lanes_spec lanes (N.max 1 q) Hl ltac:(lia)). remember (floor_lanes lanes (N.max 1 q)) as r1 eqn:X; clear X.
    injection Epr as E1 E2. subst nblk.
    assert (HR : 0 < R <= N.max 1 q) by (destruct less; cbn [andb] in E1; [destruct (N.ltb_spec 1 r1)|]; lia).
    clear E1 Hf Hl. split; [lia|]. intros p Hp. rewrite (N.mul_comm (row_bits types) R), (N.mul_comm nb R).
    remember (row_bits types) as rb eqn:X; clear X. subst row.
    destruct (N.le_gt_cases 1 q) as [Hq1|Hq0].
    + assert (M1 : R * (rb + nb) <= q * (rb + nb)) by (apply N.mul_le_mono_r; lia).
      assert (M2 : 1 * (b * 8) <= nblocks * (b * 8)) by (apply N.mul_le_mono_r; auto).
      rewrite N.mul_add_distr_l in M1. lia.
    + assert (R = 1) by lia. subst R. replace (8 * b * nblocks) with (nblocks * (b * 8)) in B4 by lia. lia.
Qed.

Lemma pax_inv reorder rn less opt types L : pax_layout reorder rn less opt types = Some L ->
  valid_types types -> N.of_nat (length types) < 2 ^ 64 -> big_enough rn opt types ->
  exists offs1 nb e al c,
    0 < rows L /\ cplaced types (rows L) offs1 0 (compute_attribute_order reorder types) e /\ null_bits rn types = Some nb /\
    loffset L = set offs1 (length types) e /\ lstride L = (fun i => if Nat.eqb i (length types) then nb else tsize (ty types i)) /\
    (exists a, al = 2 ^ a) /\ 8 <= al /\ (forall i, (i < length types)%nat -> talign (ty types i) <= al) /\
    block L = c * (match opt with NTuples _ => pad (e + nb * rows L) al | NBytes b => b * 8 end) /\
    match opt with NTuples _ => c = 1 | NBytes _ => True end /\
    e + nb * rows L <= block L.
Proof.
  intros H [Hne Hv] Hn Hb. unfold pax_layout in H. destruct types as [|t0 types0] eqn:Et; [congruence|]. rewrite <- Et in *. clear Et t0 types0.
  set (l := compute_attribute_order reorder types) in *. assert (Hd : NoDup l) by apply order_nodup.
  destruct (row_offsets_spec types l Hd (fun _ => 0) 0 8) as (offs0 & al & E & P1 & P2 & P3 & P4 & P5). rewrite E in H. rewrite N.add_0_l in H.
  assert (Hok : forall i, okt (ty types i)) by (intros; apply okt_ty; auto).
  assert (Hal := P5 (ex_intro _ 3 eq_refl) Hok). clear P5.
  fold (null_bits rn types) in H. destruct (null_bits rn types) as [nb|] eqn:Enb; [|discriminate].
  destruct (min_size_in_bytes types l =? 0); [discriminate|].
  assert (H8nb : (8 | nb)).
  { destruct rn; [unfold null_bits in Enb; injection Enb as <-; apply N.divide_0_r|]. apply (null_bits_ge false types nb Enb Hn eq_refl). }
  destruct (N.eqb_spec (nb mod 8) 0) as [_|X]; [|elim X; apply N.mod_divide; auto; lia].
  set (lanes := N.max 1 (16 / min_size_in_bytes types l)) in *. assert (Hlanes : 0 < lanes) by lia. clearbody lanes.
  assert (El : total types l = row_bits types) by (unfold l; apply total_row_bits).
  assert (Ek : unaligned types l = num_not_byte_aligned types) by (unfold l; apply unaligned_order). rewrite El in H.
  destruct (pax_rows less opt lanes (row_bits types + nb) (num_not_byte_aligned types)) as [R nblocks] eqn:Epr.
  destruct (column_offsets_spec types R l Hd offs0 0 0 P1 (N.divide_0_r 8)) as (offs1 & p & Ec & C1 & C2 & C3). rewrite Ec in H.
  rewrite N.mul_0_l, !N.add_0_l in C1. rewrite N.add_0_l in C3. rewrite Ek in C3. rewrite El in C1.
  set (e := row_bits types * R + p) in *.
  injection H as <-. cbn [rows block loffset lstride].
  assert (Hrow : 0 < row_bits types).
  { destruct types as [|t r]; [congruence|]. cbn. apply Forall_inv in Hv. apply valid_ok in Hv. lia. }
  assert (HR : 0 < R /\ match opt with NTuples _ => nblocks = 1 | NBytes b => e + nb * R <= nblocks * (b * 8) end).
  { assert (Hrow' : 0 < row_bits types + nb) by lia.
    assert (Hb' : match opt with NTuples t => 0 < t | NBytes b => 0 < b /\ 8 * b < 2 ^ 64 /\ 7 * num_not_byte_aligned types <= 8 * b /\ row_bits types + nb + 7 * num_not_byte_aligned types <= 8 * b * blocks_per_row b (row_bits types + nb) end).
    { destruct opt as [t|b]; cbn in Hb; [auto|]. destruct Hb as (B1 & B2 & B3 & B4). auto. }
    destruct (pax_rows_spec less opt lanes _ _ R nblocks types nb _ Epr Hlanes eq_refl eq_refl eq_refl Hrow' Hb') as [Q1 Q2].
    split; [auto|]. destruct opt as [t|b]; [auto|]. apply Q2. apply C3. }
  destruct HR as [HR HB]. exists offs1, nb, e, al, nblocks.
  split; [auto|]. split; [exact C1|]. split; [reflexivity|]. split; [reflexivity|]. split; [reflexivity|]. split; [auto|]. split; [auto|].
  split; [intros i Hi; apply P4; apply order_in; auto|]. split; [reflexivity|]. destruct opt as [t|b].
  - split; [auto|]. subst nblocks. rewrite N.mul_1_l. apply pad_spec. lia.
  - split; [auto|]. auto.
Qed.

Lemma pax_good reorder rn less opt types L : pax_layout reorder rn less opt types = Some L ->
  valid_types types -> N.of_nat (length types) < 2 ^ 64 -> big_enough rn opt types -> good L types rn.
Proof.
  intros H Hv Hn Hb. destruct (pax_inv _ _ _ _ _ _ H Hv Hn Hb) as (offs1 & nb & e & al & c & HR & C1 & Enb & Eo & Es & Hal & Hal8 & Hala & Ebl & Hc & Hfit).
  set (n := length types) in *. set (l := compute_attribute_order reorder types) in *.
  assert (Hln : forall i, In i l -> i <> n /\ loffset L i = offs1 i /\ lstride L i = tsize (ty types i)).
  { intros i Hi. apply order_in in Hi. fold n in Hi. rewrite Eo, Es. unfold set. destruct (Nat.eqb_spec i n); [lia|]. repeat split; auto. }
  constructor.
  - exists (l ++ if rn then [] else [n]). split; [|split; [|split]].
    + apply (cplaced_packed types L offs1 l HR Hln 0 e); auto. destruct rn.
      * cbn. lia.
      * cbn [packed]. rewrite Eo. unfold set. rewrite Nat.eqb_refl. split; [lia|].
        unfold width, leaf_size. rewrite Es. fold n. rewrite Nat.eqb_refl.
        destruct (null_bits_ge false types nb Enb Hn eq_refl) as [Hge _]. fold n in Hge.
        assert (nb * (rows L - 1) + nb = nb * rows L) by (rewrite <- (N.mul_1_r nb) at 2; rewrite <- N.mul_add_distr_l; f_equal; lia). lia.
    + destruct rn; [rewrite app_nil_r; apply order_nodup|]. apply NoDup_snoc; [apply order_nodup|]. intros X. apply order_in in X. fold n in X. lia.
    + intros i Hi. apply in_app_iff. left. apply order_in; auto.
    + intros ->. apply in_app_iff. right. left. reflexivity.
  - auto.
  - rewrite Ebl. apply N.divide_mul_r. destruct opt as [t|b].
    + apply (N.divide_trans _ al); [apply pow_ge_8; auto|]. apply pad_spec. lia.
    + exists b. lia.
  - right. intros i Hi. unfold leaf_size. rewrite Es. fold n. destruct (Nat.eqb_spec i n) as [->|]; [|lia].
    destruct Hi as [Hi|[-> _]]; [lia|]. apply (null_bits_ge false types nb Enb Hn eq_refl).
Qed.

(** PAX layouts: every attribute and NULL bit of every row has bits of its own. *)
Theorem C28_no_overlap : forall reorder remove_null less opt types L,
  pax_layout reorder remove_null less opt types = Some L -> valid_types types -> N.of_nat (length types) < 2 ^ 64 ->
  big_enough remove_null opt types -> no_overlap L types remove_null.
Proof. intros. eapply good_no_overlap, pax_good; eauto. Qed.

(** The rows of a block lie in the block, a whole number of bytes. *)
Theorem C28_inside_block : forall reorder remove_null less opt types L,
  pax_layout reorder remove_null less opt types = Some L -> valid_types types -> N.of_nat (length types) < 2 ^ 64 ->
  big_enough remove_null opt types ->
  0 < rows L /\ (8 | block L) /\
  forall base r x, has types remove_null x ->
    inside (bits L types base r x) (8 * base + r / rows L * block L) (8 * base + (r / rows L + 1) * block L).
Proof.
  intros reorder rn less opt types L H Hv Hn Hb. pose proof (pax_good _ _ _ _ _ _ H Hv Hn Hb) as G.
  split; [apply G|]. split; [apply G|]. apply good_inside; auto.
Qed.

(** Columns start at whole bytes in any order of the attributes (the assertions of the code); attributes are aligned if they
    are reordered and the block size is a multiple of the alignments. *)
Theorem C28_byte_columns : forall reorder remove_null less opt types L,
  pax_layout reorder remove_null less opt types = Some L -> valid_types types -> N.of_nat (length types) < 2 ^ 64 ->
  big_enough remove_null opt types -> forall i, (i <= length types)%nat -> (8 | loffset L i).
Proof.
  intros reorder rn less opt types L H Hv Hn Hb i Hi.
  destruct (pax_inv _ _ _ _ _ _ H Hv Hn Hb) as (offs1 & nb & e & al & c & HR & C1 & _ & Eo & _).
  destruct (cplaced_byte _ _ _ _ _ _ (N.divide_0_r 8) C1) as [He Hl]. rewrite Eo. unfold set.
  destruct (Nat.eqb_spec i (length types)); auto. apply Hl, order_in. lia.
Qed.

Theorem C28_aligned : forall remove_null less opt types L,
  pax_layout true remove_null less opt types = Some L -> valid_types types -> N.of_nat (length types) < 2 ^ 64 ->
  big_enough remove_null opt types ->
  (match opt with NTuples _ => True | NBytes b => forall t, In t types -> (talign t | 8 * b) end) ->
  aligned L types.
Proof.
  intros rn less opt types L H Hv Hn Hb Ha r i Hi. pose proof (pax_good _ _ _ _ _ _ H Hv Hn Hb) as G.
  destruct (pax_inv _ _ _ _ _ _ H Hv Hn Hb) as (offs1 & nb & e & al & c & HR & C1 & _ & Eo & Es & Hal & Hal8 & Hala & Ebl & Hc & _).
  rewrite bits_eq by apply G. cbn [fst leaf_of place]. rewrite N.mul_0_r, N.add_0_l, N.add_0_r.
  destruct Hv as [_ Hv]. assert (Hok : forall i, okt (ty types i)) by (intros; apply okt_ty; auto).
  apply N.divide_add_r.
  - apply N.divide_mul_r. rewrite Ebl. apply N.divide_mul_r. destruct opt as [t|b].
    + apply (N.divide_trans _ al); [|apply pad_spec; lia]. destruct Hal as (a & ->). specialize (Hala i Hi).
      destruct (Hok i) as (_ & (q & Hq) & _). rewrite Hq in *. apply pow_divide; auto.
    + rewrite N.mul_comm. apply Ha. unfold ty. apply nth_In; auto.
  - rewrite Eo, Es. unfold set. destruct (Nat.eqb_spec i (length types)); [lia|]. apply N.divide_add_r.
    + apply (cplaced_aligned types (rows L) offs1 (compute_attribute_order true types) Hok (stable_sort_sorted _ _) 0 e); auto.
      * apply N.divide_0_r. * intros; apply N.divide_0_r. * apply order_in; auto.
    + apply N.divide_mul_r. apply Hok.
Qed.

(** ** Concrete layouts, and layouts that are wrong *)

Definition example_types : list type := [INT 4; BOOL; CHAR 3; DECIMAL 10 2; BOOL; DATETIME].

Example example_valid : valid_types example_types.
Proof.
  split; [discriminate|]. unfold example_types.
  constructor; [apply v_int; right; right; left; reflexivity|]. constructor; [apply v_bool|].
  constructor; [apply v_char; reflexivity|]. constructor; [apply v_decimal; split; discriminate|].
  constructor; [apply v_bool|]. constructor; [apply v_datetime|]. constructor.
Qed.
Example example_big_enough : big_enough false (NBytes 4096) example_types /\ big_enough false (NTuples 16) example_types.
Proof.
  split; [|cbn; lia]. split; [reflexivity|]. split; [reflexivity|]. split; [vm_compute; congruence|].
  intros nb H. vm_compute in H. injection H as <-. vm_compute. congruence.
Qed.
(** 160 rows per 4 KiB block of 32,768 bits; row 200 is in the second block. *)
Example example_pax : exists L, pax_layout true false false (NBytes 4096) example_types = Some L /\
  rows L = 160 /\ block L = 32768 /\
  bits L example_types 0 200 (Attr 5) = (45568, 64) /\ bits L example_types 0 200 (NullBit 2) = (62850, 1).
Proof. eexists. split; [vm_compute; reflexivity|]. vm_compute. auto. Qed.
Example example_row : block (row_layout true false example_types) = 192 /\
  map (fun x => fst (bits (row_layout true false example_types) example_types 0 3 x)) [Attr 0; Attr 1; Attr 2; Attr 3; Attr 4; Attr 5; NullBit 0]
  = [704; 760; 736; 576; 761; 640; 762].
Proof. vm_compute. auto. Qed.

(** Without reordering, a row layout is not aligned: an INT(4) after a BOOL starts at bit 1. *)
Theorem C27_refuted_alignment_without_reordering : exists types, valid_types types /\ ~ aligned (row_layout false false types) types.
Proof.
  exists [BOOL; INT 4]. split.
  - split; [discriminate|]. constructor; [apply v_bool|]. constructor; [apply v_int; right; right; left; reflexivity|]. constructor.
  - intros H. specialize (H 0 1%nat ltac:(cbn; lia)). 
    assert (E : fst (bits (row_layout false false [BOOL; INT 4]) [BOOL; INT 4] 0 0 (Attr 1)) = 1) by reflexivity. rewrite E in H.
    assert (E2 : talign (ty [BOOL; INT 4] 1) = 32) by reflexivity. rewrite E2 in H. destruct H as [q Hq]. lia.
Qed.

(** A row that fits into the block only without the padding to bytes: the NULL bits of a row are stored in the next block,
    over the string of the next row. *)
Theorem C28_refuted_small_block : exists types L, valid_types types /\ pax_layout true false false (NBytes 4096) types = Some L /\
  row_bits types + 8 <= 8 * 4096 /\
  bits L types 0 0 (NullBit 0) = (32768, 1) /\ bits L types 0 1 (Attr 0) = (32768, 8 * 4094) /\ ~ no_overlap L types false.
Proof.
  exists [CHAR 4094; BOOL; BOOL]. eexists. split; [|split; [vm_compute; reflexivity|]].
  - split; [discriminate|]. constructor; [apply v_char; reflexivity|]. constructor; [apply v_bool|]. constructor; [apply v_bool|]. constructor.
  - split; [vm_compute; congruence|]. split; [vm_compute; reflexivity|]. split; [vm_compute; reflexivity|].
    intros H. specialize (H 0 0 1 (NullBit 0) (Attr 0)). vm_compute in H. destruct H as [H|H]; auto; congruence.
Qed.

(** CHAR(0), which the parser accepts, divides by zero. *)
Theorem C28_refuted_char_0 : forall reorder remove_null less opt, pax_layout reorder remove_null less opt [CHAR 0] = None.
Proof. intros [] [] [] [t|b]; reflexivity. Qed.

(** ** C29: stores *)

(** The first [cap] rows lie in the first [M] bits of the memory, each item in bits of its own. *)
Definition safe (at_ : N -> item -> N * N) (types : list type) (rn : bool) (cap M : N) : Prop :=
  (forall r x, r < cap -> has types rn x -> inside (at_ r x) 0 M) /\
  (forall r r' x x', r < cap -> r' < cap -> has types rn x -> has types rn x' -> (r, x) <> (r', x') -> disjoint (at_ r x) (at_ r' x')).

(** Histories of appends and drops. *)
Inductive op := Append | Drop.
Definition exec (s : store) (o : op) : option store := match o with Append => append s | Drop => drop s end.
Fixpoint exec_all (s : store) (l : list op) : option store :=
  match l with [] => Some s | o :: r => match exec s o with Some s' => exec_all s' r | None => None end end.
Definition count (o : op) (l : list op) : nat := length (filter (fun x => match x, o with Append, Append | Drop, Drop => true | _, _ => false end) l).

(** The number of rows is exact and never exceeds the capacity; [append] fails exactly if the store is full. *)
Theorem C29_rows_exact : forall cap ops s, exec_all (mkStore 0 cap) ops = Some s ->
  capacity s = cap /\ num_rows s <= cap /\ num_rows s + N.of_nat (count Drop ops) = N.of_nat (count Append ops) /\
  (append s = None <-> num_rows s = cap).
Proof.
  intros cap ops s H.
  assert (G : forall l s0 s1, exec_all s0 l = Some s1 -> num_rows s0 <= capacity s0 ->
    capacity s1 = capacity s0 /\ num_rows s1 <= capacity s1 /\ num_rows s1 + N.of_nat (count Drop l) = num_rows s0 + N.of_nat (count Append l)).
  { induction l as [|o l IH]; intros s0 s1 E Hle; cbn in E.
    - injection E as <-. cbn. lia.
    - destruct (exec s0 o) as [s2|] eqn:Eo; [|discriminate].
      assert (E2 : capacity s2 = capacity s0 /\ num_rows s2 <= capacity s2 /\
                 match o with Append => num_rows s2 = num_rows s0 + 1 | Drop => num_rows s2 + 1 = num_rows s0 end).
      { destruct o; cbn in Eo; unfold append, drop in Eo.
        - destruct (N.eqb_spec (num_rows s0) (capacity s0)); [discriminate|]. injection Eo as <-. cbn. lia.
        - destruct (N.eqb_spec (num_rows s0) 0); [discriminate|]. injection Eo as <-. cbn. lia. }
      destruct E2 as (E2 & E3 & E4). destruct (IH _ _ E ltac:(lia)) as (I1 & I2 & I3).
      split; [lia|]. split; [lia|]. unfold count in *. destruct o; cbn [filter length]; lia. }
  destruct (G _ _ _ H) as (G1 & G2 & G3); [cbn; lia|]. cbn in G1, G3. split; [auto|]. split; [lia|]. split; [lia|].
  unfold append. rewrite G1. destruct (N.eqb_spec (num_rows s) cap); split; intros; congruence.
Qed.

Lemma good_safe L types rn M cap : good L types rn -> cap <= M / block L * rows L -> safe (bits L types 0) types rn cap M.
Proof.
  intros G Hc. split.
  - intros r x Hr Hx. eapply good_memory; eauto. lia.
  - intros r r' x x' _ _ Hx Hx' Hne. eapply good_no_overlap; eauto.
Qed.


(** *** Row stores *)
Definition row_store_layout (s : row_store) : layout := mkLayout 1 (rs_size s) (rs_offset s) (fun _ => 0).

Lemma row_store_eq alloc types : make_row_store alloc types =
  mkRowStore (fun i => w32 (loffset (row_layout true false types) i)) (w32 (block (row_layout true false types)))
    (mkStore 0 (alloc / (w32 (block (row_layout true false types)) / 8))).
Proof.
  unfold make_row_store, row_layout, compute_attribute_order.
  destruct (row_offsets types (stable_sort types (seq 0 (length types))) (fun _ => 0) 0 8) as [[offs off] al]. reflexivity.
Qed.

Lemma good_ext L L' types rn : good L types rn -> rows L' = rows L -> block L' = block L ->
  (forall i, (i <= length types)%nat -> loffset L' i = loffset L i /\ lstride L' i = lstride L i) -> forall base r x, has types rn x ->
  bits L' types base r x = bits L types base r x.
Proof.
  intros G E1 E2 E3 base r x Hx. rewrite !bits_eq by (try rewrite E2; apply G). rewrite E1, E2.
  destruct (E3 (leaf_of types x)) as [-> ->]; [|reflexivity]. destruct x; cbn in *; lia.
Qed.

Lemma row_layout_offset_le types i : valid_types types -> (i <= length types)%nat -> loffset (row_layout true false types) i <= block (row_layout true false types).
Proof.
  intros Hv Hi. destruct (g_order _ _ _ (row_good true false types Hv)) as (l & P & _ & Hl & Hn).
  assert (Hil : In i l). { destruct (Nat.eq_dec i (length types)) as [->|]; [auto|apply Hl; lia]. }
  pose proof (packed_in _ _ _ _ _ _ P Hil). lia.
Qed.

(** If a row has less than 2^32 bits: the rows the store admits lie in its memory, at the offsets of the store and with the
    row layout (which are the same), without overlap and aligned. *)
Theorem C29_row_store : forall alloc types, valid_types types ->
  let L := row_layout true false types in let s := make_row_store alloc types in
  block L < 2 ^ 32 ->
  safe (bits (row_store_layout s) types 0) types false (capacity (rs_store s)) (8 * alloc) /\
  safe (bits L types 0) types false (capacity (rs_store s)) (8 * alloc) /\
  (forall r x, has types false x -> bits (row_store_layout s) types 0 r x = bits L types 0 r x) /\
  aligned (row_store_layout s) types.
Proof.
  intros alloc types Hv L s Hb. pose proof (row_good true false types Hv) as G. fold L in G.
  assert (Ew : forall i, (i <= length types)%nat -> w32 (loffset L i) = loffset L i).
  { intros i Hi. apply N.mod_small. pose proof (row_layout_offset_le types i Hv Hi). fold L in H. lia. }
  assert (Eb : w32 (block L) = block L) by (apply N.mod_small; auto).
  assert (ER : rows L = 1). { unfold L, row_layout. destruct (row_offsets _ _ _ _ _) as [[? ?] ?]. reflexivity. }
  assert (ES : lstride L = fun _ => 0). { unfold L, row_layout. destruct (row_offsets _ _ _ _ _) as [[? ?] ?]. reflexivity. }
  assert (Ecap : capacity (rs_store s) = 8 * alloc / block L * rows L).
  { unfold s. rewrite row_store_eq. fold L. cbn [rs_store capacity]. rewrite Eb, ER, N.mul_1_r.
    destruct (g_byte _ _ _ G) as [q Hq]. rewrite Hq, N.div_mul by lia. rewrite (N.mul_comm 8 alloc).
    destruct (N.eq_dec q 0) as [->|]; [|rewrite N.div_mul_cancel_r by lia; reflexivity].
    rewrite N.mul_0_l. destruct (alloc * 8), alloc; reflexivity. }
  assert (Eq : forall r x, has types false x -> bits (row_store_layout s) types 0 r x = bits L types 0 r x).
  { intros r x Hx. apply (good_ext L _ types false G); auto; unfold s; rewrite row_store_eq; fold L; cbn [row_store_layout rows block loffset lstride rs_size rs_offset]; auto.
    intros i Hi. rewrite ES. auto. }
  assert (S : safe (bits L types 0) types false (capacity (rs_store s)) (8 * alloc)) by (apply good_safe; auto; lia).
  split; [|split; [exact S|split; [exact Eq|]]].
  - destruct S as [S1 S2]. split; intros; rewrite !Eq by auto; auto.
  - intros r i Hi. rewrite Eq by (cbn; auto). apply (C27_aligned false types Hv r i Hi).
Qed.

(** *** PAX stores *)
Definition pax_store_layout (types : list type) (s : pax_store) : layout :=
  mkLayout (ps_rows s) (8 * ps_block s) (ps_offset s) (fun i => if Nat.eqb i (length types) then N.of_nat (length types) else tsize (ty types i)).

Lemma w32_small x : x < 2 ^ 32 -> w32 x = x.
Proof. apply N.mod_small. Qed.

Lemma pax_offsets_spec types R l : NoDup l -> forall offs off p, placed types offs off l -> (8 | off * R + p) ->
  (off + total types l) * R + p + 7 * unaligned types l < 2 ^ 32 ->
  exists offs' p', pax_offsets types R l offs p = (offs', p') /\
    cplaced types R offs' (off * R + p) l ((off + total types l) * R + p') /\
    (forall i, ~ In i l -> offs' i = offs i) /\ p <= p' <= p + 7 * unaligned types l.
Proof.
  induction l as [|i r IH]; intros Hd offs off p Hp H8 Hlt; cbn [pax_offsets cplaced total] in *.
  - exists offs, p. rewrite N.add_0_r. repeat split; auto; unfold unaligned; cbn; lia.
  - inversion Hd as [|? ? Hi Hr]; subst. destruct Hp as [Ei Hp].
    set (s := tsize (ty types i)) in *.
    assert (Eo : w32 (offs i * R + p) = off * R + p).
    { rewrite Ei. apply w32_small. rewrite !N.mul_add_distr_r in Hlt. lia. }
    rewrite Eo. set (bit := (off * R + p + s * R) mod 8).
    assert (Hm : (s * R) mod 8 = bit).
    { unfold bit. destruct H8 as [z Hz]. rewrite Hz, N.add_comm, N.mod_add by lia. reflexivity. }
    assert (Hbit : bit < 8) by (apply N.mod_upper_bound; lia).
    set (q := if bit =? 0 then p else p + (8 - bit)).
    assert (Eq : (off + s) * R + q = pad (off * R + p + s * R) 8).
    { unfold pad, q. fold bit. destruct (N.eqb_spec bit 0); lia. }
    assert (Hq8 : (8 | (off + s) * R + q)) by (rewrite Eq; apply pad_spec; lia).
    assert (Hqb : p <= q <= p + 7 * (if negb (s mod 8 =? 0) then 1 else 0)).
    { unfold q. destruct (N.eqb_spec bit 0) as [E0|n]; [lia|]. destruct (N.eqb_spec (s mod 8) 0) as [E0|E0]; cbn [negb].
      - exfalso. apply n. rewrite <- Hm. rewrite N.mul_mod, E0 by lia. reflexivity.
      - lia. }
    assert (Eu : unaligned types (i :: r) = (if negb (s mod 8 =? 0) then 1 else 0) + unaligned types r).
    { unfold unaligned. cbn [filter]. fold s. destruct (negb (s mod 8 =? 0)); cbn [length]; lia. }
    rewrite Eu in *. assert (Ea : (off + s) * R + total types r * R = off * R + (s + total types r) * R) by lia.
    rewrite N.mul_add_distr_r in Hlt.
    destruct (IH Hr (set offs i (off * R + p)) (off + s) q) as (o & p' & E & C1 & C2 & C3).
    { eapply placed_ext; [|exact Hp]. intros j Hj. unfold set. destruct (Nat.eqb_spec j i); [congruence|auto]. }
    { auto. }
    { rewrite N.mul_add_distr_r. destruct (negb (s mod 8 =? 0)); lia. }
    exists o, p'. split; [|split; [|split]].
    + assert (Ew : (if bit =? 0 then p else w32 (p + (8 - bit))) = q).
      { unfold q. destruct (N.eqb_spec bit 0); auto. apply w32_small. destruct (negb (s mod 8 =? 0)); lia. }
      rewrite Ew. exact E.
    + split.
      * rewrite C2 by auto. unfold set. rewrite Nat.eqb_refl. reflexivity.
      * rewrite <- Eq. replace (off + (s + total types r)) with (off + s + total types r) by lia. exact C1.
    + intros j Hj. rewrite C2 by (intros X; apply Hj; right; auto). unfold set.
      destruct (Nat.eqb_spec j i) as [->|]; auto. elim Hj; left; auto.
    + destruct (negb (s mod 8 =? 0)); lia.
Qed.

Lemma placed_le types offs l : forall off, placed types offs off l -> forall i, In i l -> offs i <= off + total types l.
Proof.
  induction l as [|j r IH]; intros off Hp i Hi; [destruct Hi|]. cbn in Hp |- *. destruct Hp as [Ej Hp].
  destruct Hi as [<-|Hi]; [lia|]. specialize (IH _ Hp i Hi). lia.
Qed.

Lemma pax_store_good alloc B types : valid_types types -> B < 2 ^ 29 -> 7 * num_not_byte_aligned types <= 8 * B ->
  let s := make_pax_store alloc B types in
  ps_block s = B /\ capacity (ps_store s) = alloc / B * ps_rows s /\ (0 < ps_rows s -> good (pax_store_layout types s) types false).
Proof.
  intros [Hne Hv] HB Hk. unfold make_pax_store. set (l := stable_sort types (seq 0 (length types))).
  assert (El : l = compute_attribute_order true types) by reflexivity.
  assert (Hd : NoDup l) by (rewrite El; apply order_nodup).
  destruct (row_offsets_spec types l Hd (fun _ => 0) 0 8) as (offs & al & -> & P1 & P2 & _). rewrite N.add_0_l.
  assert (Et : total types l = row_bits types) by (rewrite El; apply total_row_bits). rewrite Et.
  assert (Hrow : 0 < row_bits types).
  { destruct types as [|t r]; [congruence|]. cbn. apply Forall_inv in Hv. apply valid_ok in Hv. lia. }
  set (n := length types) in *. set (k := num_not_byte_aligned types) in *.
  assert (Es : sub64 (w32 (B * 8)) (k * 7) = 8 * B - 7 * k).
  { rewrite w32_small by (change (2 ^ 32) with (2 ^ 29 * 8); apply N.mul_lt_mono_pos_r; lia). unfold sub64.
    replace (B * 8 + 2 ^ 64 - k * 7) with (8 * B - 7 * k + 1 * 2 ^ 64) by lia. rewrite N.mod_add by lia. apply N.mod_small.
    assert (8 * B < 8 * 2 ^ 29) by (apply N.mul_lt_mono_pos_l; lia). change (8 * 2 ^ 29) with (2 ^ 32) in *. assert (2 ^ 32 < 2 ^ 64) by reflexivity. lia. }
  rewrite Es. clear Es.
  assert (Hq : (row_bits types + N.of_nat n) * ((8 * B - 7 * k) / (row_bits types + N.of_nat n)) <= 8 * B - 7 * k) by (apply N.mul_div_le; lia).
  set (R := (8 * B - 7 * k) / (row_bits types + N.of_nat n)) in *. clearbody R.
  destruct (pax_offsets types R l (fun i => w32 (offs i)) 0) as [offs1 running] eqn:Ep.
  cbn [ps_block ps_store ps_rows capacity]. split; [reflexivity|]. split; [reflexivity|]. intros HR.
  assert (HB8 : 8 * B < 2 ^ 32) by (change (2 ^ 32) with (8 * 2 ^ 29); apply N.mul_lt_mono_pos_l; lia).
  rewrite N.mul_add_distr_r in Hq.
  assert (Hrb : row_bits types <= row_bits types * R) by (rewrite <- (N.mul_1_r (row_bits types)) at 1; apply N.mul_le_mono_l; lia).
  assert (Hsm : forall i, In i l -> w32 (offs i) = offs i).
  { intros i Hi. apply w32_small. pose proof (placed_le types offs l 0 P1 i Hi). lia. }
  assert (P1' : placed types (fun i => w32 (offs i)) 0 l) by (eapply placed_ext; [|exact P1]; intros i Hi; apply Hsm; auto).
  assert (Eu : unaligned types l = k) by (rewrite El; apply unaligned_order).
  destruct (pax_offsets_spec types R l Hd _ 0 0 P1' (N.divide_0_r 8)) as (o & p & E & C1 & C2 & C3).
  { rewrite N.add_0_l, N.add_0_r, Et, Eu. lia. }
  rewrite Ep in E. injection E as <- <-. rewrite N.mul_0_l, !N.add_0_l in C1. rewrite N.add_0_l, Eu in C3. rewrite Et in C1.
  rewrite (w32_small (row_bits types)) by lia. rewrite (w32_small (row_bits types * R + running)) by lia.
  set (e := row_bits types * R + running) in *.
  set (L := pax_store_layout types _).
  assert (Hln : forall i, In i l -> i <> n /\ loffset L i = offs1 i /\ lstride L i = tsize (ty types i)).
  { intros i Hi. rewrite El in Hi. apply order_in in Hi. fold n in Hi. unfold L, pax_store_layout. cbn [loffset lstride ps_offset]. fold n. unfold set.
    destruct (Nat.eqb_spec i n); [lia|]. auto. }
  constructor.
  - exists (l ++ [n]). split; [|split; [|split]].
    + apply (cplaced_packed types L offs1 l HR Hln 0 e); auto. cbn [packed].
      assert (En : loffset L n = e) by (unfold L, pax_store_layout; cbn [loffset ps_offset]; unfold set; rewrite Nat.eqb_refl; reflexivity).
      rewrite En. split; [lia|]. unfold width, leaf_size. fold n. rewrite Nat.eqb_refl. unfold L, pax_store_layout. cbn [lstride rows ps_rows block ps_block]. fold n. rewrite Nat.eqb_refl.
      assert (N.of_nat n * (R - 1) + N.of_nat n = N.of_nat n * R) by (rewrite <- (N.mul_1_r (N.of_nat n)) at 2; rewrite <- N.mul_add_distr_l; f_equal; lia).
      unfold e. lia.
    + apply NoDup_snoc; [auto|]. rewrite El. intros X. apply order_in in X. fold n in X. lia.
    + intros i Hi. apply in_app_iff. left. rewrite El. apply order_in; auto.
    + intros _. apply in_app_iff. right. left. reflexivity.
  - exact HR.
  - exists B. unfold L. cbn. lia.
  - right. intros i Hi. unfold leaf_size, L, pax_store_layout. cbn [lstride]. fold n. destruct (Nat.eqb_spec i n); lia.
Qed.

(** PAX stores of blocks smaller than 512 MiB that are at least as large as the worst case padding: the rows the store
    admits lie in its memory, at the store's offsets, without overlap. *)
Theorem C29_pax_store : forall alloc B types, valid_types types -> B < 2 ^ 29 -> 7 * num_not_byte_aligned types <= 8 * B ->
  let s := make_pax_store alloc B types in
  safe (bits (pax_store_layout types s) types 0) types false (capacity (ps_store s)) (8 * alloc).
Proof.
  intros alloc B types Hv HB Hk s. destruct (pax_store_good alloc B types Hv HB Hk) as (E1 & E2 & G). fold s in E1, E2, G.
  destruct (N.eq_dec (ps_rows s) 0) as [E0|E0].
  - rewrite E0, N.mul_0_r in E2. rewrite E2. split; intros; lia.
  - apply good_safe; [apply G; lia|]. rewrite E2. unfold pax_store_layout. cbn [block rows]. rewrite E1.
    destruct (N.eq_dec B 0) as [->|]; [rewrite N.mul_0_r; destruct alloc; cbn; lia|]. rewrite N.div_mul_cancel_l by lia. lia.
Qed.

(** *** Column stores *)
Definition column_bits (alloc : N) (types : list type) (s : column_store) (r : N) (x : item) : N * N :=
  match x with
  | Attr i => (column alloc i + tsize (ty types i) * r, tsize (ty types i))
  | NullBit j => (column alloc (length types) + cs_bitmap s * r + N.of_nat j, 1)
  end.

Lemma max_size_ge types : forall m, m <= fold_left (fun m t => N.max m (tsize t)) types m /\
  forall t, In t types -> tsize t <= fold_left (fun m t => N.max m (tsize t)) types m.
Proof.
  induction types as [|t r IH]; intros m; cbn [fold_left]; [split; [lia|intros t []]|].
  destruct (IH (N.max m (tsize t))) as [I1 I2]. split; [lia|]. intros u [<-|Hu]; [lia|auto].
Qed.

Theorem C29_column_store : forall alloc types,
  let s := make_column_store alloc types in
  safe (column_bits alloc types s) types false (capacity (cs_store s)) (8 * cs_memory s).
Proof.
  intros alloc types s. set (n := length types).
  assert (Hnb : N.of_nat n <= cs_bitmap s).
  { unfold s, make_column_store. cbn [cs_bitmap]. fold n. pose proof (N.div_mod (N.of_nat n + 7) 8 ltac:(lia)). pose proof (N.mod_upper_bound (N.of_nat n + 7) 8 ltac:(lia)). lia. }
  set (m := fold_left (fun m t => N.max m (tsize t)) types 0).
  assert (Hcap : N.max m (cs_bitmap s) * capacity (cs_store s) <= 8 * alloc).
  { unfold s, make_column_store. cbn [cs_bitmap cs_store capacity]. fold m n. set (q := N.max m _).
    destruct (N.eq_dec q 0) as [->|Hq]; [lia|]. rewrite (N.mul_comm 8 alloc). apply N.mul_div_le; auto. }
  assert (Hsz : forall i, (i < n)%nat -> tsize (ty types i) <= m).
  { intros i Hi. apply (max_size_ge types 0). apply nth_In; auto. }
  assert (Hmem : cs_memory s = alloc * (N.of_nat n + 1)) by reflexivity.
  set (cap := capacity (cs_store s)) in *. set (nb := cs_bitmap s) in *. clearbody m.
  assert (Hin : forall r x, r < cap -> has types false x ->
     inside (column_bits alloc types s r x) (column alloc (leaf_of types x)) (column alloc (S (leaf_of types x)))).
  { intros r x Hr Hx. assert (Hc : forall k, column alloc (S k) = column alloc k + 8 * alloc) by (intros; unfold column; lia). rewrite Hc.
    unfold inside. destruct x as [i|j]; cbn [column_bits leaf_of fst snd].
    - cbn in Hx. specialize (Hsz i Hx). set (t := tsize (ty types i)) in *.
      assert (t * (r + 1) <= N.max m nb * cap) by (apply N.mul_le_mono; lia). lia.
    - destruct Hx as [Hj _]. fold n in Hj. fold nb.
      assert (nb * (r + 1) <= N.max m nb * cap) by (apply N.mul_le_mono; lia). lia. }
  assert (Hmono : forall a b, (a <= b)%nat -> column alloc a <= column alloc b).
  { intros a b Hab. unfold column. apply N.mul_le_mono_l, N.mul_le_mono_l. lia. }
  assert (Hleaf : forall x, has types false x -> (leaf_of types x <= n)%nat) by (intros [i|j]; cbn; fold n; lia).
  split.
  - intros r x Hr Hx. destruct (Hin r x Hr Hx) as [H1 H2]. split; [lia|]. apply (N.le_trans _ _ _ H2).
    rewrite Hmem. apply (N.le_trans _ (column alloc (S n))); [apply Hmono; pose proof (Hleaf x Hx); lia|]. unfold column. lia.
  - intros r r' x x' Hr Hr' Hx Hx' Hne. destruct (Hin r x Hr Hx) as [H1 H2]. destruct (Hin r' x' Hr' Hx') as [H3 H4]. unfold disjoint.
    destruct (lt_eq_lt_dec (leaf_of types x) (leaf_of types x')) as [[Hlt|Heq]|Hgt].
    + left. pose proof (Hmono (S (leaf_of types x)) (leaf_of types x') Hlt). lia.
    + clear H1 H2 H3 H4. destruct x as [i|j], x' as [i'|j']; cbn [leaf_of] in Heq.
      * subst i'. cbn [column_bits fst snd]. assert (r <> r') by congruence. set (t := tsize (ty types i)).
        destruct (N.lt_ge_cases r r') as [Hl|Hl]; [left|right].
        -- assert (t * (r + 1) <= t * r') by (apply N.mul_le_mono_l; lia). lia.
        -- assert (t * (r' + 1) <= t * r) by (apply N.mul_le_mono_l; lia). lia.
      * cbn in Hx. fold n in Heq. lia.
      * cbn in Hx'. fold n in Heq. lia.
      * cbn [column_bits fst snd]. destruct Hx as [Hj _], Hx' as [Hj' _]. fold n in Hj, Hj' |- *. fold nb.
        destruct (N.eq_dec r r') as [<-|Hrr]; [assert (j <> j') by congruence; lia|].
        destruct (N.lt_ge_cases r r') as [Hl|Hl]; [left|right].
        -- assert (nb * (r + 1) <= nb * r') by (apply N.mul_le_mono_l; lia). lia.
        -- assert (nb * (r' + 1) <= nb * r) by (apply N.mul_le_mono_l; lia). lia.
    + right. pose proof (Hmono (S (leaf_of types x')) (leaf_of types x) Hgt). lia.
Qed.

(** *** A store and a layout that do not agree *)

(** CREATE TABLE combines any store with the default layout, PAX with 4 MiB blocks: the store admits rows that the layout
    places outside of the store's memory.  1 GiB is the size in debug builds and 128 GiB in release builds. *)
Definition outside (L : layout) (types : list type) (cap M : N) : Prop :=
  exists r i, r < cap /\ (i < length types)%nat /\ ~ inside (bits L types 0 r (Attr i)) 0 M.

Theorem C29_refuted_default_layout_on_row_store : forall alloc, alloc = 2 ^ 30 \/ alloc = 2 ^ 37 ->
  let types := repeat (INT 1) 17 in
  exists L, pax_layout true false false (NBytes (2 ^ 22)) types = Some L /\ outside L types (capacity (rs_store (make_row_store alloc types))) (8 * alloc).
Proof.
  intros alloc H types. eexists. split; [vm_compute; reflexivity|].
  exists (capacity (rs_store (make_row_store alloc types)) - 1), 0%nat.
  destruct H as [-> | ->]; (split; [vm_compute; reflexivity|]; split; [cbn; lia|]; vm_compute; intros [_ H]; apply H; reflexivity).
Qed.

Theorem C29_refuted_default_layout_on_pax_store : forall alloc, alloc = 2 ^ 30 \/ alloc = 2 ^ 37 ->
  let types := [INT 4] in
  exists L, pax_layout true false false (NBytes (2 ^ 22)) types = Some L /\ outside L types (capacity (ps_store (make_pax_store alloc 4096 types))) (8 * alloc).
Proof.
  intros alloc H types. eexists. split; [vm_compute; reflexivity|].
  exists (capacity (ps_store (make_pax_store alloc 4096 types)) - 1), 0%nat.
  destruct H as [-> | ->]; (split; [vm_compute; reflexivity|]; split; [cbn; lia|]; vm_compute; intros [_ H]; apply H; reflexivity).
Qed.

Theorem C29_refuted_default_layout_on_column_store : forall alloc, alloc = 2 ^ 30 \/ alloc = 2 ^ 37 ->
  let types := repeat (INT 1) 8 in let s := make_column_store alloc types in
  exists L, pax_layout true false false (NBytes (2 ^ 22)) types = Some L /\ outside L types (capacity (cs_store s)) (8 * cs_memory s).
Proof.
  intros alloc H types s. eexists. split; [vm_compute; reflexivity|].
  exists (capacity (cs_store s) - 1), 0%nat.
  destruct H as [-> | ->]; (split; [vm_compute; reflexivity|]; split; [cbn; lia|]; vm_compute; intros [_ H]; apply H; reflexivity).
Qed.

(** The size of a row is stored in 32 bits: with a CHAR(2^29) the store takes a row for one byte, and admits one row per byte. *)
Theorem C29_refuted_large_rows : let types := [CHAR (2 ^ 29)] in let s := make_row_store (2 ^ 30) types in
  valid_types types /\ rs_size s = 8 /\ capacity (rs_store s) = 2 ^ 30 /\
  ~ safe (bits (row_store_layout s) types 0) types false (capacity (rs_store s)) (8 * 2 ^ 30).
Proof.
  split; [|split; [|split]].
  - split; [discriminate|]. constructor; [apply v_char; reflexivity|constructor].
  - vm_compute. reflexivity.
  - vm_compute. reflexivity.
  - intros [_ H]. specialize (H 0 1 (Attr 0) (Attr 0)). vm_compute in H. destruct H as [H|H]; auto; try congruence.
Qed.

(** More than 4681 columns that are not whole bytes: the padding exceeds the block of a PAX store and the number of rows per
    block wraps around. *)
Lemma pax_store_rows alloc B types : ps_rows (make_pax_store alloc B types) =
  sub64 (w32 (B * 8)) (num_not_byte_aligned types * 7) / (row_bits types + N.of_nat (length types)) /\
  ps_block (make_pax_store alloc B types) = B /\
  capacity (ps_store (make_pax_store alloc B types)) = alloc / B * ps_rows (make_pax_store alloc B types).
Proof.
  unfold make_pax_store. change (stable_sort types (seq 0 (length types))) with (compute_attribute_order true types).
  destruct (row_offsets_spec types _ (order_nodup true types) (fun _ => 0) 0 8) as (offs & al & -> & _). rewrite N.add_0_l, total_row_bits.
  destruct (pax_offsets _ _ _ _ _). cbn [ps_rows ps_block ps_store capacity]. auto.
Qed.

Lemma many_columns types s : N.of_nat (length types) = 4682 -> num_not_byte_aligned types = 4682 -> row_bits types = 4682 ->
  s = make_pax_store (2 ^ 30) 4096 types ->
  2 ^ 50 < ps_rows s /\ ~ safe (bits (pax_store_layout types s) types 0) types false (capacity (ps_store s)) (8 * 2 ^ 30).
Proof.
  intros Hn Hk Hr Es. destruct (pax_store_rows (2 ^ 30) 4096 types) as (E1 & E2 & E3). rewrite <- Es in E1, E2, E3. clear Es.
  rewrite Hn, Hk, Hr in E1.
  assert (E : (2 ^ 50 <? ps_rows s) = true) by (rewrite E1; vm_compute; reflexivity). apply N.ltb_lt in E. split; [exact E|].
  assert (Hh : has types false (NullBit 0)) by (split; [lia|reflexivity]). clear E1 Hk Hr.
  intros [H _]. specialize (H (2 ^ 50) (NullBit 0)).
  assert (E4 : capacity (ps_store s) = 262144 * ps_rows s) by (rewrite E3; reflexivity). clear E3.
  assert (C : 2 ^ 50 < capacity (ps_store s)) by (rewrite E4; clear - E; lia).
  specialize (H C Hh). destruct H as [_ H]. rewrite bits_eq in H by (exists 4096; unfold pax_store_layout; cbn [block]; rewrite E2; reflexivity).
  unfold pax_store_layout in H. cbn [fst snd rows lstride loffset block leaf_of place bitlen] in H. rewrite Nat.eqb_refl, Hn in H.
  rewrite (N.div_small (2 ^ 50)), (N.mod_small (2 ^ 50)) in H by auto. clear - H.
  assert (X : 8 * 2 ^ 30 < 2 ^ 50 * 4682) by reflexivity. lia.
Qed.

Theorem C29_refuted_many_columns : exists types s, valid_types types /\ s = make_pax_store (2 ^ 30) 4096 types /\
  2 ^ 50 < ps_rows s /\ ~ safe (bits (pax_store_layout types s) types 0) types false (capacity (ps_store s)) (8 * 2 ^ 30).
Proof.
  exists (repeat BOOL 4682), (make_pax_store (2 ^ 30) 4096 (repeat BOOL 4682)). split; [|split; [reflexivity|]].
  - split; [discriminate|]. apply Forall_forall. intros t Ht. apply repeat_spec in Ht. subst t. constructor.
  - apply many_columns; [vm_compute; reflexivity|vm_compute; reflexivity|vm_compute; reflexivity|reflexivity].
Qed.

(** Non-vacuity: the stores of a table of six columns. *)
Example example_stores : block (row_layout true false example_types) < 2 ^ 32 /\ 7 * num_not_byte_aligned example_types <= 8 * 4096 /\
  capacity (rs_store (make_row_store (2 ^ 30) example_types)) = 44739242 /\
  capacity (ps_store (make_pax_store (2 ^ 30) 4096 example_types)) = 44564480 /\
  capacity (cs_store (make_column_store (2 ^ 30) example_types)) = 134217728.
Proof. vm_compute. repeat split; congruence. Qed.
Example example_history : exec_all (mkStore 0 2) [Append; Append; Drop; Append] = Some (mkStore 2 2) /\ append (mkStore 2 2) = None.
Proof. split; reflexivity. Qed.
