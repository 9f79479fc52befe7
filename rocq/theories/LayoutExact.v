(** * C27-C29: the geometry of layouts and stores: existence, compactness, rows per block, capacities *)
From Coq Require Import List Arith Lia Bool NArith.
From Verif Require Arith ArithProps.
From Verif Require Import Layout LayoutProps.
Import ListNotations.
Local Open Scope N_scope.

(** ** Specification *)
(** The largest alignment, at least one byte. *)
Definition widest (types : list type) : N := fold_right (fun t a => N.max (talign t) a) 8 types.
(** [lanes]: as many of the smallest values (counted in bytes) as fit into 16 bytes, at least one. *)
Definition simd_lanes (types : list type) (lanes : N) : Prop :=
  exists t, In t types /\ (forall u, In u types -> (tsize t + 7) / 8 <= (tsize u + 7) / 8) /\ lanes = N.max 1 (16 / ((tsize t + 7) / 8)).
(** NULL bits of a row: none, or a power of two of at least 8 bits. *)
Definition null_bitmap (remove_null : bool) (types : list type) (nb : N) : Prop :=
  if remove_null then nb = 0 else (exists k, nb = 2 ^ k) /\ 8 <= nb /\ N.of_nat (length types) <= nb /\ (8 < nb -> nb < 2 * N.of_nat (length types)).

(** ** Row layouts *)
Lemma row_offsets_al types l : forall offs off al, snd (row_offsets types l offs off al) = fold_left (fun a i => N.max a (talign (ty types i))) l al.
Proof. induction l as [|i r IH]; intros offs off al; cbn [row_offsets fold_left]; [reflexivity|]. apply IH. Qed.
Lemma fold_max_le (f : nat -> N) l : forall a x, a <= x -> (forall i, In i l -> f i <= x) -> fold_left (fun a i => N.max a (f i)) l a <= x.
Proof. induction l as [|i r IH]; intros a x Ha Hl; cbn [fold_left]; [exact Ha|]. apply IH; [specialize (Hl i (or_introl eq_refl)); lia|]. intros j Hj. apply Hl. right. exact Hj. Qed.
Lemma widest_ge types t : In t types -> talign t <= widest types.
Proof. unfold widest. induction types as [|u r IH]; [intros []|]. cbn [fold_right]. intros [->|H]; [lia|]. specialize (IH H). lia. Qed.
Lemma widest_8 types : 8 <= widest types.
Proof. unfold widest. induction types as [|u r IH]; cbn [fold_right]; lia. Qed.

(** A row takes its bits, rounded up to the alignment: no more. *)
Theorem C27_compact : forall (reorder remove_null : bool) types, valid_types types ->
  let need := row_bits types + (if remove_null then 0 else N.of_nat (length types)) in
  need <= block (row_layout reorder remove_null types) < need + widest types.
Proof.
  intros reorder rn types [Hne Hv] need. unfold row_layout. set (l := compute_attribute_order reorder types).
  assert (Hd : NoDup l) by apply order_nodup. pose proof (row_offsets_al types l (fun _ => 0) 0 8) as Eal.
  destruct (row_offsets_spec types l Hd (fun _ => 0) 0 8) as (offs & al & E & P1 & P2 & P3 & P4 & P5). rewrite E in *. cbn [snd] in Eal.
  assert (Hal : al <= widest types).
  { rewrite Eal. apply fold_max_le; [apply widest_8|]. intros i Hi. apply order_in in Hi. apply widest_ge. unfold ty. apply nth_In. exact Hi. }
  cbn [block]. assert (El : total types l = row_bits types) by apply total_row_bits. rewrite El, N.add_0_l.
  assert (F : (if rn then row_bits types else row_bits types + N.of_nat (length types)) = need) by (unfold need; destruct rn; lia). rewrite F.
  destruct (pad_spec need al ltac:(lia)) as [_ Hp]. lia.
Qed.
(** The sizes of the slots. *)
Theorem C27_slots : (forall n, tsize (CHAR n) = 8 * n) /\ (forall n, tsize (VARCHAR n) = 8 * n + 8) /\ tsize DATE = 32 /\ tsize DATETIME = 64 /\ tsize BOOL = 1 /\
  (forall b, In b [1; 2; 4; 8] -> tsize (INT b) = 8 * b /\ talign (INT b) = 8 * b) /\ tsize FLOAT = 32 /\ talign FLOAT = 32 /\ tsize DOUBLE = 64 /\ talign DOUBLE = 64 /\
  talign DATE = 32 /\ talign DATETIME = 64 /\ (forall n, talign (CHAR n) = 8 /\ talign (VARCHAR n) = 8) /\
  (forall p s, 2 <= p <= 18 -> 10 ^ p <= 2 ^ (tsize (DECIMAL p s) - 1) /\ talign (DECIMAL p s) = tsize (DECIMAL p s)).
Proof.
  split; [reflexivity|]. split; [intros n; cbn; lia|]. do 3 (split; [reflexivity|]).
  split; [intros b [<-|[<-|[<-|[<-|[]]]]]; split; reflexivity|]. do 6 (split; [reflexivity|]). split; [intros; split; reflexivity|].
  intros p s Hp. split; [|reflexivity]. assert (p = 2 \/ p = 3 \/ p = 4 \/ p = 5 \/ p = 6 \/ p = 7 \/ p = 8 \/ p = 9 \/ p = 10 \/ p = 11 \/ p = 12 \/ p = 13 \/ p = 14 \/ p = 15 \/ p = 16 \/ p = 17 \/ p = 18) as D by lia.
  clear Hp. repeat (destruct D as [->|D]; [vm_compute; discriminate|]). subst p. vm_compute. discriminate.
Qed.

(** ** PAX layouts *)
Lemma min_fold (f : nat -> N) l : forall a, let m := fold_left (fun m i => N.min m (f i)) l a in m <= a /\ (forall i, In i l -> m <= f i) /\ (m = a \/ exists i, In i l /\ m = f i).
Proof.
  induction l as [|i r IH]; intros a; cbn [fold_left].
  - split; [lia|]. split; [intros i []|]. left. reflexivity.
  - destruct (IH (N.min a (f i))) as (A & B & C). split; [lia|]. split; [intros j [<-|Hj]; [lia|apply B; exact Hj]|].
    destruct C as [C|(j & Hj & C)]; [|right; exists j; split; [right; exact Hj|exact C]].
    destruct (N.min_spec a (f i)) as [[_ E]|[_ E]]; [left; congruence|right; exists i; split; [left; reflexivity|congruence]].
Qed.
Lemma lanes_ok reorder types : valid_types types -> min_size_in_bytes types (compute_attribute_order reorder types) <> 0 /\
  simd_lanes types (N.max 1 (16 / min_size_in_bytes types (compute_attribute_order reorder types))).
Proof.
  intros [Hne Hv]. set (l := compute_attribute_order reorder types). unfold min_size_in_bytes.
  destruct (min_fold (fun i => size_in_bytes (ty types i)) l (2 ^ 64 - 1)) as (A & B & C). remember (fold_left _ l _) as m eqn:Em. clear Em.
  assert (Hin : forall u, In u types -> exists i, In i l /\ ty types i = u).
  { intros u Hu. destruct (In_nth types u BOOL Hu) as (i & Hi & Hu'). exists i. split; [apply order_in; exact Hi|exact Hu']. }
  assert (Hpos : forall u, In u types -> 1 <= size_in_bytes u).
  { intros u Hu. rewrite Forall_forall in Hv. apply Hv, valid_ok in Hu. unfold size_in_bytes. apply N.div_le_lower_bound; lia. }
  (* a smallest type *)
  assert (Hs : exists t, In t types /\ forall u, In u types -> size_in_bytes t <= size_in_bytes u).
  { clear - Hne. induction types as [|t r IH]; [congruence|]. destruct r as [|t' r]; [exists t; split; [left; reflexivity|]; intros u [<-|[]]; lia|].
    destruct IH as (s & Hs & Hm); [discriminate|]. destruct (N.le_gt_cases (size_in_bytes t) (size_in_bytes s)) as [L|L].
    - exists t. split; [left; reflexivity|]. intros u [<-|Hu]; [lia|]. specialize (Hm u Hu). lia.
    - exists s. split; [right; exact Hs|]. intros u [<-|Hu]; [lia|]. apply Hm. exact Hu. }
  destruct Hs as (t & Ht & Hm). destruct (Hin t Ht) as (i & Hi & Ei). specialize (B i Hi). cbv beta in B. rewrite Ei in B.
  destruct C as [C|(j & Hj & C)].
  - split; [lia|]. exists t. split; [exact Ht|]. split; [exact Hm|]. rewrite !N.div_small; [reflexivity|fold (size_in_bytes t); lia|lia].
  - apply order_in in Hj. assert (Hjt : In (ty types j) types) by (unfold ty; apply nth_In; exact Hj). pose proof (Hpos _ Hjt). split; [lia|].
    exists t. split; [exact Ht|]. split; [exact Hm|]. specialize (Hm _ Hjt). do 2 f_equal. fold (size_in_bytes t). lia.
Qed.
Lemma null_bits_ok rn types : valid_types types -> N.of_nat (length types) <= 2 ^ 63 -> exists nb, null_bits rn types = Some nb /\ null_bitmap rn types nb.
Proof.
  intros [Hne _] Hn. unfold null_bits, null_bitmap. destruct rn; [exists 0; split; reflexivity|].
  assert (Hn64 : N.of_nat (length types) < 2 ^ 64) by lia.
  pose proof (ArithProps.C05_ceil_to_pow_2 64 (N.of_nat (length types)) (or_intror eq_refl) Hn64) as C. 
  destruct (Arith.ceil_to_pow_2 64 (N.of_nat (length types))) as [p|]; [|].
  - cbn [option_map]. exists (N.max p 8). split; [reflexivity|]. destruct C as (C1 & C2 & C3). destruct C1 as (k & C1).
    split; [destruct (N.max_spec p 8) as [[_ ->]|[_ ->]]; [exists 3; reflexivity|exists k; exact C1]|]. split; [lia|]. split; [lia|].
    intros H. assert (E : N.max p 8 = p) by lia. rewrite E in *.
    destruct (N.lt_ge_cases p (2 * N.of_nat (length types))) as [L|L]; [exact L|]. exfalso.
    assert (k <> 0) by (intros ->; cbn in C1; lia). assert (Ek : p = 2 * 2 ^ (k - 1)) by (rewrite C1, <- N.pow_succ_r'; f_equal; lia).
    specialize (C3 (2 ^ (k - 1)) (ex_intro _ (k - 1) eq_refl)). lia.
  - exfalso. assert (Hl : 1 <= N.of_nat (length types)) by (destruct types; [congruence|cbn [length]; lia]). set (n := N.of_nat (length types)) in *. clearbody n.
    specialize (C (2 ^ N.log2_up n)). assert (LA : ArithProps.least_above ArithProps.power_of_two n (2 ^ N.log2_up n)).
    { split; [exists (N.log2_up n); reflexivity|]. split; [destruct (N.eq_dec n 1) as [->|]; [cbn; lia|apply N.log2_up_spec; lia]|]. intros r [k ->] Hr. apply N.pow_le_mono_r; [lia|]. apply N.log2_up_le_pow2; [lia|exact Hr]. }
    specialize (C LA). assert (N.log2_up n <= 63) by (apply N.log2_up_le_pow2; [lia|exact Hn]). assert (2 ^ N.log2_up n <= 2 ^ 63) by (apply N.pow_le_mono_r; lia). lia.
Qed.
(** A PAX layout exists for every table with at most 2^63 attributes. *)
Theorem C28_exists : forall reorder remove_null less opt types, valid_types types -> N.of_nat (length types) <= 2 ^ 63 ->
  exists L, pax_layout reorder remove_null less opt types = Some L.
Proof.
  intros reorder rn less opt types Hv Hn. destruct (null_bits_ok rn types Hv Hn) as (nb & Enb & _). destruct (lanes_ok reorder types Hv) as [Hm _].
  unfold pax_layout. destruct types as [|t0 types0] eqn:Et; [destruct Hv; congruence|]. rewrite <- Et in *. clear Et t0 types0.
  destruct (row_offsets _ _ _ _ _) as [[offs0 off] al]. fold (null_bits rn types). rewrite Enb.
  destruct (N.eqb_spec (min_size_in_bytes types (compute_attribute_order reorder types)) 0) as [X|_]; [contradiction|].
  destruct (pax_rows _ _ _ _ _) as [R nblocks]. destruct (column_offsets _ _ _ _ _) as [offs1 padding]. eexists. reflexivity.
Qed.
Lemma floor_lanes_tight lanes r : 0 < lanes -> r < floor_lanes lanes r + lanes /\ floor_lanes lanes r <= r /\ (lanes < r -> (lanes | floor_lanes lanes r)) /\ (r <= lanes -> floor_lanes lanes r = r).
Proof.
  intros Hl. unfold floor_lanes. pose proof (N.div_mod r lanes ltac:(lia)) as D. pose proof (N.mod_upper_bound r lanes ltac:(lia)) as U.
  destruct (N.ltb_spec lanes r); (split; [lia|]); (split; [lia|]); (split; [intros; try lia; apply N.divide_factor_r|intros; lia]).
Qed.
(** Rows per block: as many as asked for, rounded down to the SIMD lanes; with a given number of bytes per block, blocks have that size
    (or a multiple, for rows that do not fit into one), and hold as many rows as fit for sure, again rounded down; one row less if asked for. *)
Theorem C28_geometry : forall reorder remove_null less opt types L lanes nb,
  pax_layout reorder remove_null less opt types = Some L -> valid_types types -> N.of_nat (length types) <= 2 ^ 63 ->
  big_enough remove_null opt types -> simd_lanes types lanes -> null_bitmap remove_null types nb ->
  match opt with
  | NTuples t => rows L <= t < rows L + lanes /\ (lanes < t -> (lanes | rows L)) /\
                 row_bits types * rows L + nb * rows L <= block L
  | NBytes b => let row := row_bits types + nb in let slack := 7 * num_not_byte_aligned types in
      (exists c, block L = 8 * b * c /\ row <= 8 * b * c < row + 8 * b) /\
      exists r, rows L = (if less && (1 <? r) then r - 1 else r) /\ (1 < r -> row * r + slack <= 8 * b) /\ 8 * b < row * (r + lanes) + slack /\ (lanes < r -> (lanes | r))
  end.
Proof.
  intros reorder rn less opt types L lanes nb HL Hv Hn Hb Hlanes Hnb.
  destruct (null_bits_ok rn types Hv Hn) as (nb' & Enb & Hnb').
  assert (nb' = nb).
  { unfold null_bitmap in Hnb, Hnb'. destruct rn; [congruence|]. destruct Hnb as ((k & K) & A1 & A2 & A3), Hnb' as ((k' & K') & B1 & B2 & B3).
    assert (Hkk : k = k' \/ k < k' \/ k' < k) by lia. destruct Hkk as [->|[H|H]]; [congruence|exfalso..].
    - assert (2 * 2 ^ k <= 2 ^ k') by (rewrite <- N.pow_succ_r'; apply N.pow_le_mono_r; lia). assert (8 < nb') by lia. specialize (B3 H1). lia.
    - assert (2 * 2 ^ k' <= 2 ^ k) by (rewrite <- N.pow_succ_r'; apply N.pow_le_mono_r; lia). assert (8 < nb) by lia. specialize (A3 H1). lia. }
  subst nb'. clear Hnb Hnb'. destruct (lanes_ok reorder types Hv) as [Hm HL2].
  assert (El : N.max 1 (16 / min_size_in_bytes types (compute_attribute_order reorder types)) = lanes).
  { destruct Hlanes as (t & T1 & T2 & T3), HL2 as (u & U1 & U2 & U3). rewrite U3, T3. specialize (T2 u U1). specialize (U2 t T1). do 2 f_equal. lia. }
  assert (Hl0 : 0 < lanes) by lia. clear Hlanes HL2.
  assert (Hn64 : N.of_nat (length types) < 2 ^ 64) by lia.
  destruct (pax_inv _ _ _ _ _ _ HL Hv Hn64 Hb) as (offs1' & nb' & e & al' & c & I1 & I2 & I3 & I4 & I5 & I6 & I7 & I8 & I9 & I10 & I11).
  rewrite Enb in I3. injection I3 as <-.
  assert (Hrow : 0 < row_bits types).
  { destruct Hv as [Hne Hv]. destruct types as [|t r]; [congruence|]. cbn. apply Forall_inv in Hv. apply valid_ok in Hv. lia. }
  assert (H8nb : nb mod 8 = 0).
  { destruct rn; [unfold null_bits in Enb; injection Enb as <-; reflexivity|]. apply N.mod_divide; [lia|]. apply (null_bits_ge false types nb Enb Hn64 eq_refl). }
  (* unfold the layout *)
  unfold pax_layout in HL. destruct types as [|t0 types0] eqn:Et; [destruct Hv; congruence|]. rewrite <- Et in *. clear Et t0 types0.
  set (l := compute_attribute_order reorder types) in *. assert (Hd : NoDup l) by apply order_nodup.
  destruct (row_offsets_spec types l Hd (fun _ => 0) 0 8) as (offs0 & al & E & P1 & _). rewrite E in HL. rewrite N.add_0_l in HL.
  fold (null_bits rn types) in HL. rewrite Enb in HL. destruct (N.eqb_spec (min_size_in_bytes types l) 0) as [X|_]; [contradiction|].
  rewrite H8nb in HL. cbn [N.eqb] in HL. rewrite El in HL.
  assert (Et : total types l = row_bits types) by apply total_row_bits. rewrite Et in HL.
  destruct (pax_rows less opt lanes (row_bits types + nb) (num_not_byte_aligned types)) as [R nblocks] eqn:Epr.
  destruct (column_offsets_spec types R l Hd offs0 0 0 P1 (N.divide_0_r 8)) as (offs1 & p & Ec & _ & _ & C3). rewrite Ec in HL.
  injection HL as HL. assert (ER : rows L = R) by (rewrite <- HL; reflexivity). assert (EB : block L = nblocks * match opt with NTuples _ => pad (row_bits types * R + p + nb * R) al | NBytes b => b * 8 end) by (rewrite <- HL; reflexivity).
  assert (Eo : e = row_bits types * R + p).
  { assert (X : loffset L (length types) = row_bits types * R + p) by (rewrite <- HL; cbn [loffset]; unfold set; rewrite Nat.eqb_refl; reflexivity). rewrite I4 in X. unfold set in X. rewrite Nat.eqb_refl in X. exact X. }
  clear HL E Ec. rewrite ER in *. clear ER. destruct opt as [t|b]; cbn [pax_rows] in Epr.
  - injection Epr as <- <-. destruct (floor_lanes_tight lanes t Hl0) as (F1 & F2 & F3 & F4). split; [lia|]. split; [exact F3|]. lia.
  - cbn [big_enough] in Hb. destruct Hb as (B1 & B2 & B3 & B4). specialize (B4 nb Enb). unfold blocks_per_row in B4.
    set (k := num_not_byte_aligned types) in *. set (row := row_bits types + nb) in *. assert (Hr : 0 < row) by (unfold row; lia).
    assert (Es : sub64 (b * 8) (k * 7) = 8 * b - 7 * k).
    { unfold sub64. replace (b * 8 + 2 ^ 64 - k * 7) with (8 * b - 7 * k + 1 * 2 ^ 64) by lia. rewrite N.mod_add by lia. apply N.mod_small. lia. }
    rewrite Es in Epr. injection Epr as E1 E2. cbv zeta. split.
    + exists nblocks. split; [rewrite EB; lia|]. rewrite <- E2. pose proof (N.div_mod (row + b * 8 - 1) (b * 8) ltac:(lia)) as D. pose proof (N.mod_upper_bound (row + b * 8 - 1) (b * 8) ltac:(lia)) as U.
      revert D U. generalize ((row + b * 8 - 1) / (b * 8)), ((row + b * 8 - 1) mod (b * 8)). intros q m D U. lia.
    + exists (floor_lanes lanes (N.max 1 ((8 * b - 7 * k) / row))). split; [symmetry; exact E1|].
      pose proof (N.div_mod (8 * b - 7 * k) row ltac:(lia)) as D. pose proof (N.mod_upper_bound (8 * b - 7 * k) row ltac:(lia)) as U. set (q := (8 * b - 7 * k) / row) in *.
      destruct (floor_lanes_tight lanes (N.max 1 q) Hl0) as (F1 & F2 & F3 & F4). set (r := floor_lanes lanes (N.max 1 q)) in *.
      clearbody q r row k. clear - D U F1 F2 F3 F4 B3 Hr Hl0. split; [|split].
      * intros H1. assert (row * r <= row * q) by (apply N.mul_le_mono_l; lia). lia.
      * assert (row * (N.max 1 q + 1) <= row * (r + lanes)) by (apply N.mul_le_mono_l; lia). assert (row * (q + 1) <= row * (N.max 1 q + 1)) by (apply N.mul_le_mono_l; lia). lia.
      * intros H1. apply F3. lia.
Qed.

(** ** Stores: the capacity is what the memory holds *)
Theorem C29_row_store_capacity : forall alloc types, valid_types types -> block (row_layout true false types) < 2 ^ 32 ->
  let cap := capacity (rs_store (make_row_store alloc types)) in let bytes := block (row_layout true false types) / 8 in
  cap * bytes <= alloc < (cap + 1) * bytes.
Proof.
  intros alloc types Hv Hb cap bytes. unfold cap. rewrite row_store_eq. cbn [rs_store capacity]. unfold w32. rewrite N.mod_small by exact Hb. fold bytes.
  assert (0 < bytes). { destruct (C27_compact true false types Hv) as [A _]. destruct (C27_inside_row true false types Hv) as [[q D] _]. assert (0 < row_bits types). { destruct Hv as [Hne Hv]. destruct types as [|t r]; [congruence|]. cbn. apply Forall_inv in Hv. apply valid_ok in Hv. lia. }
    unfold bytes. rewrite D in *. rewrite N.div_mul by lia. lia. }
  pose proof (N.div_mod alloc bytes ltac:(lia)) as D. pose proof (N.mod_upper_bound alloc bytes ltac:(lia)) as U. lia.
Qed.
Theorem C29_pax_store_capacity : forall alloc B types, valid_types types -> 0 < B < 2 ^ 29 -> 7 * num_not_byte_aligned types <= 8 * B ->
  let s := make_pax_store alloc B types in let row := row_bits types + N.of_nat (length types) in
  ps_block s = B /\ ps_rows s * row + 7 * num_not_byte_aligned types <= 8 * B < (ps_rows s + 1) * row + 7 * num_not_byte_aligned types /\
  exists blocks, capacity (ps_store s) = blocks * ps_rows s /\ blocks * B <= alloc < (blocks + 1) * B.
Proof.
  intros alloc B types Hv HB Hk s row. unfold s, make_pax_store. set (order := stable_sort types (seq 0 (length types))).
  assert (Hd : NoDup order) by (apply (order_nodup true)). destruct (row_offsets_spec types order Hd (fun _ => 0) 0 8) as (offs0 & al & E & P1 & _). rewrite E. rewrite N.add_0_l.
  assert (Et : total types order = row_bits types) by (apply (total_row_bits types true)). rewrite Et. fold row.
  assert (Es : sub64 (w32 (B * 8)) (num_not_byte_aligned types * 7) = 8 * B - 7 * num_not_byte_aligned types).
  { unfold w32. rewrite N.mod_small by lia. unfold sub64. replace (B * 8 + 2 ^ 64 - num_not_byte_aligned types * 7) with (8 * B - 7 * num_not_byte_aligned types + 1 * 2 ^ 64) by lia. rewrite N.mod_add by lia. apply N.mod_small. lia. }
  rewrite Es. destruct (pax_offsets _ _ _ _ _) as [offs1 running]. cbn [ps_block ps_rows ps_store capacity]. split; [reflexivity|].
  assert (0 < row) by (unfold row; destruct Hv as [Hne Hv]; destruct types as [|t r]; [congruence|]; cbn [length]; lia). set (k := num_not_byte_aligned types) in *. clearbody k row. clear Es E P1 Et Hd offs1 running offs0 al order s Hv.
  assert (R0 : row <> 0) by lia. pose proof (N.div_mod (8 * B - 7 * k) row R0) as D. pose proof (N.mod_upper_bound (8 * B - 7 * k) row R0) as U. split; [revert D U; generalize ((8 * B - 7 * k) / row), ((8 * B - 7 * k) mod row); intros q m D U; lia|].
  exists (alloc / B). split; [reflexivity|]. assert (B0 : B <> 0) by lia. pose proof (N.div_mod alloc B B0) as D2. pose proof (N.mod_upper_bound alloc B B0) as U2. clear - D2 U2. lia.
Qed.
(** Every column has [alloc] bytes; the widest one determines the number of rows. *)
Theorem C29_column_store_capacity : forall alloc types, types <> [] ->
  let s := make_column_store alloc types in
  exists w, (w = cs_bitmap s \/ exists t, In t types /\ w = tsize t) /\ cs_bitmap s <= w /\ (forall t, In t types -> tsize t <= w) /\
    N.of_nat (length types) <= cs_bitmap s < N.of_nat (length types) + 8 /\
    capacity (cs_store s) * w <= 8 * alloc < (capacity (cs_store s) + 1) * w.
Proof.
  intros alloc types Hne s. unfold s, make_column_store. cbn [cs_bitmap cs_store capacity]. set (n := N.of_nat (length types)).
  assert (Hn : 0 < n) by (unfold n; destruct types; [congruence|cbn [length]; lia]). clearbody n.
  destruct (max_size_ge types 0) as [_ M]. assert (M2 : forall l m, fold_left (fun m t => N.max m (tsize t)) l m = m \/ exists t, In t l /\ fold_left (fun m t => N.max m (tsize t)) l m = tsize t).
  { induction l as [|t r IH]; intros m; cbn [fold_left]; [left; reflexivity|]. destruct (IH (N.max m (tsize t))) as [E|(u & Hu & E)]; [|right; exists u; split; [right; exact Hu|exact E]].
    rewrite E. destruct (N.max_spec m (tsize t)) as [[_ ->]|[_ ->]]; [right; exists t; split; [left; reflexivity|reflexivity]|left; reflexivity]. }
  specialize (M2 types 0). set (m := fold_left (fun m t => N.max m (tsize t)) types 0) in *.
  pose proof (N.div_mod (n + 7) 8 ltac:(lia)) as D. pose proof (N.mod_upper_bound (n + 7) 8 ltac:(lia)) as U. set (q := (n + 7) / 8) in *. assert (Hq : n <= q * 8 < n + 8) by lia. clearbody q m.
  exists (N.max m (q * 8)). split; [|split; [lia|split; [intros t Ht; specialize (M t Ht); lia|split; [lia|]]]].
  - destruct (N.max_spec m (q * 8)) as [[_ ->]|[H ->]]; [left; reflexivity|]. destruct M2 as [->|M2]; [lia|]. right. destruct M2 as (t & Ht & E). exists t. auto.
  - assert (0 < N.max m (q * 8)) by lia. replace (alloc * 8) with (8 * alloc) by lia. set (w := N.max m (q * 8)) in *. clearbody w.
    pose proof (N.div_mod (8 * alloc) w ltac:(lia)) as D2. pose proof (N.mod_upper_bound (8 * alloc) w ltac:(lia)) as U2. lia.
Qed.
(** A row can be dropped exactly if there is one; appending adds one row. *)
Theorem C29_append_drop : forall s, (append s = None <-> num_rows s = capacity s) /\ (drop s = None <-> num_rows s = 0) /\
  (forall s', append s = Some s' -> num_rows s' = num_rows s + 1 /\ capacity s' = capacity s /\ drop s' = Some s) .
Proof.
  intros [n c]. unfold append, drop. cbn [num_rows capacity]. split; [destruct (N.eqb_spec n c); split; congruence|]. split; [destruct (N.eqb_spec n 0); split; congruence|].
  intros s'. destruct (N.eqb_spec n c); [discriminate|]. intros [= <-]. cbn [num_rows capacity]. split; [reflexivity|]. split; [reflexivity|].
  destruct (N.eqb_spec (n + 1) 0); [lia|]. do 2 f_equal. lia.
Qed.
Example C28_geometry_example : simd_lanes example_types 16 /\ null_bitmap false example_types 8.
Proof.
  split; [exists BOOL; split; [right; left; reflexivity|]; split; [|reflexivity]; intros u Hu; repeat (destruct Hu as [<-|Hu]; [vm_compute; discriminate|]); destruct Hu|].
  split; [exists 3; reflexivity|]. split; [lia|]. split; [vm_compute; discriminate|]. intros X; lia.
Qed.
