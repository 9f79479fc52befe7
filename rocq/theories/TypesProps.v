(** * C39: numeric types *)
From Coq Require Import ZArith QArith Qpower Lia Bool List.
From Verif Require Import Types.
Import ListNotations.
Local Open Scope Z_scope.

(** ** Specification: the numeric types of SQL and the numbers they represent *)

(** The types a query can use: INT of 1, 2, 4, 8 bytes, FLOAT, DOUBLE, DECIMAL with 1 to 19 digits
    (MAX_DECIMAL_PRECISION) and any scale. *)
Definition valid (t : numeric) : Prop :=
  match knd t with
  | N_Int => (precision t = 1 \/ precision t = 2 \/ precision t = 4 \/ precision t = 8) /\ scale t = 0
  | N_Float => (precision t = 32 \/ precision t = 64) /\ scale t = 0
  | N_Decimal => 1 <= precision t <= 19 /\ 0 <= scale t
  end.

(** [x] is a finite number of a binary floating-point format: [m * 2^e] with [|m| < 2^p] and [emin <= e <= emax]. *)
Definition binary_float (p emin emax : Z) (x : Q) : Prop :=
  exists m e, Z.abs m < 2 ^ p /\ emin <= e <= emax /\ (x == inject_Z m * (2 # 1) ^ e)%Q.

(** The numbers of a type. *)
Definition represents (t : numeric) (x : Q) : Prop :=
  match knd t with
  | N_Int => exists k, - 2 ^ (8 * precision t - 1) <= k < 2 ^ (8 * precision t - 1) /\ (x == inject_Z k)%Q
  | N_Float => if precision t =? 32 then binary_float 24 (-149) 104 x else binary_float 53 (-1074) 971 x
  | N_Decimal => exists k, Z.abs k < 10 ^ precision t /\ (x * inject_Z (10 ^ scale t) == inject_Z k)%Q
  end.

(** ** Commutativity holds for all types *)
Theorem C39_join_commutative : forall a b, arithmetic_join a b = arithmetic_join b a.
Proof.
  intros a b. unfold arithmetic_join.
  rewrite (Z.max_comm (precision_bits a)), (Z.max_comm (scale a)).
  assert (max_cat (cat a) (cat b) = max_cat (cat b) (cat a)) as -> by (destruct (cat a), (cat b); reflexivity).
  assert (max_kind (knd a) (knd b) = max_kind (knd b) (knd a)) as -> by (destruct (knd a), (knd b); reflexivity).
  reflexivity.
Qed.

(** ** Reduction to (kind, precision): there are 25 of them *)
Definition shapes : list (kind * Z) :=
  map (pair N_Int) [1; 2; 4; 8] ++ map (pair N_Float) [32; 64] ++
  map (pair N_Decimal) [1; 2; 3; 4; 5; 6; 7; 8; 9; 10; 11; 12; 13; 14; 15; 16; 17; 18; 19].

Lemma valid_shape t : valid t -> In (knd t, precision t) shapes.
Proof.
  unfold valid. destruct t as [c k p s]; cbn [knd precision scale]. destruct k.
  - intros [[->|[->|[->| ->]]] _]; cbn; tauto.
  - intros [[->| ->] _]; cbn; tauto.
  - intros [H _]. assert (p = 1 \/ p = 2 \/ p = 3 \/ p = 4 \/ p = 5 \/ p = 6 \/ p = 7 \/ p = 8 \/ p = 9 \/ p = 10 \/
      p = 11 \/ p = 12 \/ p = 13 \/ p = 14 \/ p = 15 \/ p = 16 \/ p = 17 \/ p = 18 \/ p = 19) as D by lia.
    unfold shapes. apply in_or_app. right. apply in_or_app. right. apply in_map.
    clear H. cbn. intuition.
Qed.

(** The join on shapes. *)
Definition shape_join (a b : kind * Z) : option (kind * Z) :=
  option_map (fun t => (knd t, precision t))
    (arithmetic_join (mkNumeric TY_Scalar (fst a) (snd a) 0) (mkNumeric TY_Scalar (fst b) (snd b) 0)).

Definition kind_eqb (a b : kind) : bool := kind_num a =? kind_num b.
Definition shape_eqb (a b : kind * Z) : bool := kind_eqb (fst a) (fst b) && (snd a =? snd b).

Lemma shape_eqb_eq a b : shape_eqb a b = true -> a = b.
Proof.
  destruct a as [[] p], b as [[] q]; cbn; try discriminate; intros H; apply Z.eqb_eq in H; congruence.
Qed.

Lemma join_shape a b : valid a -> valid b ->
  arithmetic_join a b =
  match shape_join (knd a, precision a) (knd b, precision b) with
  | Some (k, p) => Some (mkNumeric (max_cat (cat a) (cat b)) k p (Z.max (scale a) (scale b)))
  | None => None
  end.
Proof.
  intros Ha Hb. destruct a as [ca ka pa sa], b as [cb kb pb sb].
  unfold shape_join, arithmetic_join, valid, precision_bits in *. cbn [cat knd precision scale fst snd] in *.
  assert (Hs : max_kind ka kb <> N_Decimal -> sa = 0 /\ sb = 0).
  { destruct ka, kb; cbn; intros H; try congruence; tauto. }
  destruct (max_kind ka kb).
  - destruct Hs as [-> ->]; [discriminate|]. reflexivity.
  - destruct Hs as [-> ->]; [discriminate|].
    match goal with |- context [?x =? 32] => destruct (x =? 32); [reflexivity|destruct (x =? 64); reflexivity] end.
  - reflexivity.
Qed.

(** All pairs of shapes have a join, and it is a shape; checked for the 25 x 25 pairs. *)
Lemma shapes_closed : forallb (fun a => forallb (fun b =>
    match shape_join a b with Some c => existsb (shape_eqb c) shapes | None => false end) shapes) shapes = true.
Proof. vm_compute. reflexivity. Qed.

Lemma shapes_idempotent : forallb (fun a => match shape_join a a with Some c => shape_eqb c a | None => false end) shapes = true.
Proof. vm_compute. reflexivity. Qed.

(** Tabulated, so that associativity needs each join only once. *)
Definition shape_num (a : kind * Z) : nat :=
  match fst a with
  | N_Int => Z.to_nat (Z.log2 (snd a))
  | N_Float => Z.to_nat (3 + snd a / 32)
  | N_Decimal => Z.to_nat (5 + snd a)
  end.

Lemma shapes_associative :
  let tab := map (fun a => map (fun b => shape_join a b) shapes) shapes in
  let j (a b : kind * Z) := nth (shape_num b) (nth (shape_num a) tab []) None in
  forallb (fun a => forallb (fun b =>
    match shape_join a b, j a b with Some c, Some d => shape_eqb c d | _, _ => false end) shapes) shapes &&
  forallb (fun a => forallb (fun b => forallb (fun c =>
    match j a b, j b c with
    | Some ab, Some bc => match j ab c, j a bc with Some x, Some y => shape_eqb x y | _, _ => false end
    | _, _ => false
    end) shapes) shapes) shapes = true.
Proof. vm_compute. reflexivity. Qed.

Lemma forallb_In {A} (f : A -> bool) l x : forallb f l = true -> In x l -> f x = true.
Proof. rewrite forallb_forall. auto. Qed.

Lemma shape_join_closed a b : In a shapes -> In b shapes -> exists c, shape_join a b = Some c /\ In c shapes.
Proof.
  intros Ha Hb. pose proof (forallb_In _ _ _ (forallb_In _ _ _ shapes_closed Ha) Hb) as H. cbv beta in H.
  destruct (shape_join a b) as [c|]; [|discriminate]. exists c. split; [auto|].
  apply existsb_exists in H. destruct H as (d & Hd & He). apply shape_eqb_eq in He. congruence.
Qed.

(** *** The join of valid types exists and is valid *)

(** The kind of the join is the larger one; its category is the larger one. *)
Lemma join_kind : forall a b c, arithmetic_join a b = Some c ->
  knd c = max_kind (knd a) (knd b) /\ cat c = max_cat (cat a) (cat b).
Proof.
  intros a b c. unfold arithmetic_join. destruct (max_kind (knd a) (knd b)).
  - intros [= <-]. auto.
  - destruct (_ =? 32); [intros [= <-]; auto|]. destruct (_ =? 64); [intros [= <-]; auto|discriminate].
  - intros [= <-]. auto.
Qed.

(** The join of valid types exists and is valid. *)
Theorem C39_join_total : forall a b, valid a -> valid b -> exists c, arithmetic_join a b = Some c /\ valid c.
Proof.
  intros a b Ha Hb. pose proof (join_shape a b Ha Hb) as Hj.
  destruct (shape_join_closed _ _ (valid_shape a Ha) (valid_shape b Hb)) as ([k p] & Hk & Hin).
  rewrite Hk in Hj. eexists. split; [exact Hj|].
  apply join_kind in Hj. cbn [knd cat] in Hj. destruct Hj as [Hkk _].
  unfold shapes in Hin. rewrite !in_app_iff, !in_map_iff in Hin.
  unfold valid in *. cbn [knd precision scale].
  destruct Hin as [(x & [= <- <-] & Hx)|[(x & [= <- <-] & Hx)|(x & [= <- <-] & Hx)]].
  - assert (scale a = 0 /\ scale b = 0) as [-> ->] by (destruct (knd a), (knd b); try discriminate Hkk; tauto).
    cbn in Hx. split; [intuition|reflexivity].
  - assert (scale a = 0 /\ scale b = 0) as [-> ->] by (destruct (knd a), (knd b); try discriminate Hkk; tauto).
    cbn in Hx. split; [intuition|reflexivity].
  - assert (0 <= scale a) by (destruct (knd a); lia).
    cbn in Hx. split; [|lia]. clear - Hx. intuition; lia.
Qed.

Theorem C39_join_idempotent : forall a, valid a -> arithmetic_join a a = Some a.
Proof.
  intros a Ha. rewrite (join_shape a a Ha Ha).
  pose proof (forallb_In _ _ _ shapes_idempotent (valid_shape a Ha)) as H. cbv beta in H.
  destruct (shape_join _ _) as [[k p]|]; [|discriminate]. apply shape_eqb_eq in H. injection H as -> ->.
  rewrite Z.max_id. destruct a as [[] k p s]; reflexivity.
Qed.

Lemma max_cat_assoc a b c : max_cat (max_cat a b) c = max_cat a (max_cat b c).
Proof. destruct a, b, c; reflexivity. Qed.

Lemma shape_join_assoc a b c ab bc : In a shapes -> In b shapes -> In c shapes ->
  shape_join a b = Some ab -> shape_join b c = Some bc -> shape_join ab c = shape_join a bc.
Proof.
  intros Ha Hb Hc Hab Hbc. pose proof shapes_associative as HA. cbv zeta in HA. apply andb_true_iff in HA.
  destruct HA as [H1 H2].
  set (j := fun a b : kind * Z => nth (shape_num b) (nth (shape_num a)
     (map (fun a => map (fun b => shape_join a b) shapes) shapes) []) None) in *.
  assert (J : forall x y, In x shapes -> In y shapes -> exists z, shape_join x y = Some z /\ j x y = Some z /\ In z shapes).
  { intros x y Hx Hy. destruct (shape_join_closed x y Hx Hy) as (z & Hz & Hin).
    pose proof (forallb_In _ _ _ (forallb_In _ _ _ H1 Hx) Hy) as H. cbv beta in H. fold (j x y) in H. rewrite Hz in H.
    destruct (j x y) as [d|]; [|discriminate]. apply shape_eqb_eq in H. subst d. eauto. }
  destruct (J a b Ha Hb) as (ab' & E1 & E1' & I1). rewrite Hab in E1. injection E1 as <-.
  destruct (J b c Hb Hc) as (bc' & E2 & E2' & I2). rewrite Hbc in E2. injection E2 as <-.
  pose proof (forallb_In _ _ _ (forallb_In _ _ _ (forallb_In _ _ _ H2 Ha) Hb) Hc) as H. cbv beta in H.
  fold (j a b) in H. fold (j b c) in H. rewrite E1', E2' in H. fold (j ab c) in H. fold (j a bc) in H.
  destruct (J ab c I1 Hc) as (x & Ex & Ex' & _). destruct (J a bc Ha I2) as (y & Ey & Ey' & _).
  rewrite Ex', Ey' in H. apply shape_eqb_eq in H. congruence.
Qed.

Theorem C39_join_associative : forall a b c ab bc, valid a -> valid b -> valid c ->
  arithmetic_join a b = Some ab -> arithmetic_join b c = Some bc ->
  exists r, arithmetic_join ab c = Some r /\ arithmetic_join a bc = Some r.
Proof.
  intros a b c ab bc Ha Hb Hc Hab Hbc.
  assert (Vab : valid ab) by (destruct (C39_join_total a b Ha Hb) as (x & Hx & Hv); congruence).
  assert (Vbc : valid bc) by (destruct (C39_join_total b c Hb Hc) as (x & Hx & Hv); congruence).
  destruct (C39_join_total ab c Vab Hc) as (r & Hr & _). exists r. split; [auto|]. rewrite <- Hr.
  rewrite (join_shape a bc Ha Vbc), (join_shape ab c Vab Hc).
  rewrite (join_shape a b Ha Hb) in Hab. rewrite (join_shape b c Hb Hc) in Hbc.
  destruct (shape_join (knd a, precision a) (knd b, precision b)) as [[k1 p1]|] eqn:E1; [|discriminate].
  destruct (shape_join (knd b, precision b) (knd c, precision c)) as [[k2 p2]|] eqn:E2; [|discriminate].
  injection Hab as <-. injection Hbc as <-. cbn [knd precision cat scale].
  rewrite (shape_join_assoc _ _ _ _ _ (valid_shape a Ha) (valid_shape b Hb) (valid_shape c Hc) E1 E2).
  rewrite max_cat_assoc, Z.max_assoc. reflexivity.
Qed.

(** *** The join, exactly: DECIMAL before FLOAT/DOUBLE before INT, a vector if one operand is a vector, the larger scale; the larger
    integer; a double unless 32 bits suffice for both; as many digits as the longer of the operands, counting 2, 4, 9, 19 for integers
    of 1, 2, 4, 8 bytes and 9, 19 for floats and doubles. *)
Definition decimal_digits (t : numeric) : Z :=
  match knd t with
  | N_Int => if precision t =? 1 then 2 else if precision t =? 2 then 4 else if precision t =? 4 then 9 else 19
  | N_Float => if precision t =? 32 then 9 else 19
  | N_Decimal => precision t
  end.
Definition wide (t : numeric) : bool := match knd t with N_Int => precision t =? 8 | N_Float => precision t =? 64 | N_Decimal => false end.
Definition common_type (a b : numeric) : numeric :=
  let c := match cat a, cat b with TY_Scalar, TY_Scalar => TY_Scalar | _, _ => TY_Vector end in
  match knd a, knd b with
  | N_Int, N_Int => mkNumeric c N_Int (Z.max (precision a) (precision b)) 0
  | N_Float, N_Float | N_Float, N_Int | N_Int, N_Float => mkNumeric c N_Float (if wide a || wide b then 64 else 32) 0
  | _, _ => mkNumeric c N_Decimal (Z.max (decimal_digits a) (decimal_digits b)) (Z.max (scale a) (scale b))
  end.
Lemma shapes_exact : forallb (fun a => forallb (fun b =>
    match shape_join a b with
    | Some c => let t := common_type (mkNumeric TY_Scalar (fst a) (snd a) 0) (mkNumeric TY_Scalar (fst b) (snd b) 0) in shape_eqb c (knd t, precision t)
    | None => false end) shapes) shapes = true.
Proof. vm_compute. reflexivity. Qed.
Theorem C39_join_exact : forall a b, valid a -> valid b -> arithmetic_join a b = Some (common_type a b).
Proof.
  intros a b Ha Hb. rewrite (join_shape a b Ha Hb). pose proof (forallb_In _ _ _ (forallb_In _ _ _ shapes_exact (valid_shape a Ha)) (valid_shape b Hb)) as H. cbv beta in H.
  destruct (shape_join _ _) as [[k p]|]; [|discriminate]. cbv zeta in H. apply shape_eqb_eq in H. destruct a as [ca ka pa sa], b as [cb kb pb sb]. cbn [knd precision scale cat fst snd] in *.
  unfold valid in Ha, Hb. cbn [knd precision scale] in Ha, Hb.
  destruct ka, kb; unfold common_type, decimal_digits, wide in *; cbn [knd precision scale cat] in *; injection H as -> ->; destruct ca, cb; try reflexivity;
    destruct Ha as [_ Ha], Hb as [_ Hb]; rewrite ?Ha, ?Hb; reflexivity.
Qed.

(** ** Which values survive the conversion to the common type *)

(** The exact condition under which every number of type [a] is a number of the common type of [a] and [b]. *)
Definition fits (a b c : numeric) : Prop :=
  match knd a, knd b with
  | N_Int, N_Int | N_Float, N_Int | N_Float, N_Float | N_Decimal, N_Int | N_Decimal, N_Float => True
  | N_Int, N_Float => precision a <= 2 \/ (precision a = 4 /\ precision b = 64)
  | N_Int, N_Decimal => 2 ^ (8 * precision a - 1) * 10 ^ scale c < 10 ^ precision c
  | N_Float, N_Decimal => False
  | N_Decimal, N_Decimal => precision a + (scale c - scale a) <= precision c
  end.

(** Facts about the join of shapes, by enumeration. *)
Lemma shapes_facts : forallb (fun a => forallb (fun b =>
    match shape_join a b with
    | Some c =>
        match fst a, fst b with
        | N_Int, N_Int => snd a <=? snd c
        | N_Float, N_Float => snd a <=? snd c
        | N_Float, N_Int => snd a <=? snd c
        | N_Int, N_Float => (snd c =? (if snd a =? 8 then 64 else snd b))
        | N_Decimal, N_Decimal => snd c =? Z.max (snd a) (snd b)
        | N_Decimal, _ => snd a <=? snd c
        | _, _ => true
        end
    | None => false end) shapes) shapes = true.
Proof. vm_compute. reflexivity. Qed.

Lemma join_facts a b c : valid a -> valid b -> arithmetic_join a b = Some c ->
  match knd a, knd b with
  | N_Int, N_Int | N_Float, N_Float | N_Float, N_Int | N_Decimal, N_Int | N_Decimal, N_Float => precision a <= precision c
  | N_Int, N_Float => precision c = (if precision a =? 8 then 64 else precision b)
  | N_Decimal, N_Decimal => precision c = Z.max (precision a) (precision b)
  | _, _ => True
  end /\ scale c = Z.max (scale a) (scale b).
Proof.
  intros Ha Hb Hc. rewrite (join_shape a b Ha Hb) in Hc.
  pose proof (forallb_In _ _ _ (forallb_In _ _ _ shapes_facts (valid_shape a Ha)) (valid_shape b Hb)) as H.
  cbv beta in H. cbn [fst snd] in H.
  destruct (shape_join _ _) as [[k p]|]; [|discriminate]. injection Hc as <-. cbn [precision scale snd] in *.
  split; [|reflexivity]. destruct (knd a), (knd b); try exact I; try (apply Z.leb_le in H; exact H); apply Z.eqb_eq in H; exact H.
Qed.

Lemma inject_Z_eq a b : (inject_Z a == inject_Z b)%Q -> a = b.
Proof. unfold Qeq, inject_Z; cbn. lia. Qed.

Lemma Qpower_2_pos e : 0 <= e -> ((2 # 1) ^ e == inject_Z (2 ^ e))%Q.
Proof. intros H. symmetry. exact (Zpower_Qpower 2 e H). Qed.

(** An odd number with more bits than the mantissa is not a number of the format. *)
Lemma odd_not_float p emin emax N : 0 <= p -> Z.odd N = true -> 2 ^ p <= Z.abs N -> ~ binary_float p emin emax (inject_Z N).
Proof.
  intros Hp Ho HN (m & e & Hm & _ & He).
  destruct (Z_lt_le_dec e 0) as [Hneg|Hpos].
  - assert (E : (inject_Z N * inject_Z (2 ^ (- e)) == inject_Z m)%Q).
    { rewrite He, <- Qpower_2_pos by lia. rewrite <- Qmult_assoc, <- Qpower_plus by discriminate.
      replace (e + - e) with 0 by lia. rewrite Qpower_0_r, Qmult_1_r. reflexivity. }
    rewrite <- inject_Z_mult in E. apply inject_Z_eq in E.
    assert (1 <= 2 ^ (- e)) by (apply (Z.pow_le_mono_r 2 0); lia).
    rewrite <- E, Z.abs_mul in Hm. rewrite (Z.abs_eq (2 ^ (- e))) in Hm by lia. nia.
  - rewrite Qpower_2_pos, <- inject_Z_mult in He by auto. apply inject_Z_eq in He.
    destruct (Z.eq_dec e 0) as [->|Hne].
    + rewrite Z.pow_0_r, Z.mul_1_r in He. subst. lia.
    + rewrite He, Z.odd_mul, Z.odd_pow in Ho by lia. cbn in Ho. rewrite andb_false_r in Ho. discriminate.
Qed.

Lemma pow10_pos n : 0 <= n -> 0 < 10 ^ n.
Proof. intros. apply Z.pow_pos_nonneg; lia. Qed.

Theorem C39_join_represents : forall a b c, valid a -> valid b -> arithmetic_join a b = Some c ->
  (fits a b c <-> forall x, represents a x -> represents c x).
Proof.
  intros a b c Ha Hb Hc.
  pose proof (join_kind a b c Hc) as [Hk _]. pose proof (join_facts a b c Ha Hb Hc) as [HF HS].
  assert (Vc : valid c) by (destruct (C39_join_total a b Ha Hb) as (x & Hx & Hv); congruence).
  unfold fits, represents. unfold valid in Ha, Hb, Vc.
  destruct (knd a) eqn:Ka, (knd b) eqn:Kb; cbn in Hk; rewrite Hk in *.
  - (* INT, INT *)
    split; [|auto]. intros _ x (k & Hkr & Hx). exists k. split; [|auto].
    assert (2 ^ (8 * precision a - 1) <= 2 ^ (8 * precision c - 1)) by (apply Z.pow_le_mono_r; lia). lia.
  - (* INT, FLOAT *)
    split.
    + intros Hfit x (k & Hkr & Hx).
      assert (Hk' : precision c = 32 /\ precision a <= 2 \/ precision c = 64 /\ precision a <= 4).
      { rewrite HF. destruct (Z.eqb_spec (precision a) 8); lia. }
      assert (HE : (x == inject_Z k * (2 # 1) ^ 0)%Q) by (rewrite Qpower_0_r, Qmult_1_r; auto).
      destruct Hk' as [[-> Hp]|[-> Hp]]; cbn [Z.eqb Pos.eqb].
      * exists k, 0. split; [|split; [lia|auto]].
        assert (2 ^ (8 * precision a - 1) <= 2 ^ 15) by (apply Z.pow_le_mono_r; lia).
        change (2 ^ 24) with 16777216. change (2 ^ 15) with 32768 in *. lia.
      * exists k, 0. split; [|split; [lia|auto]].
        assert (2 ^ (8 * precision a - 1) <= 2 ^ 31) by (apply Z.pow_le_mono_r; lia).
        change (2 ^ 53) with 9007199254740992. change (2 ^ 31) with 2147483648 in *. lia.
    + intros H. destruct (Z.eqb_spec (precision a) 8) as [E8|E8].
      * exfalso. rewrite HF in H. cbn [Z.eqb Pos.eqb] in H. rewrite E8 in H.
        apply (odd_not_float 53 (-1074) 971 (2 ^ 63 - 1)); [lia|reflexivity|vm_compute; discriminate|].
        apply H. exists (2 ^ 63 - 1). split; [vm_compute; split; [discriminate|reflexivity]|reflexivity].
      * destruct (Z.eq_dec (precision a) 4) as [E4|E4]; [|left; lia].
        right. split; [auto|]. destruct Hb as [[Hb|Hb] _]; [|auto]. exfalso.
        rewrite HF, Hb in H. cbn [Z.eqb Pos.eqb] in H. rewrite E4 in H.
        apply (odd_not_float 24 (-149) 104 (2 ^ 31 - 1)); [lia|reflexivity|vm_compute; discriminate|].
        apply H. exists (2 ^ 31 - 1). split; [vm_compute; split; [discriminate|reflexivity]|reflexivity].
  - (* INT, DECIMAL *)
    assert (P10 : 0 < 10 ^ scale c) by (apply pow10_pos; lia).
    assert (P2 : 0 < 2 ^ (8 * precision a - 1)) by (apply Z.pow_pos_nonneg; lia).
    split.
    + intros Hfit x (k & Hkr & Hx). exists (k * 10 ^ scale c). split.
      * rewrite Z.abs_mul, (Z.abs_eq (10 ^ scale c)) by lia.
        apply Z.le_lt_trans with (2 ^ (8 * precision a - 1) * 10 ^ scale c); [|lia].
        apply Z.mul_le_mono_nonneg_r; lia.
      * rewrite Hx, inject_Z_mult. reflexivity.
    + intros H. destruct (H (inject_Z (- 2 ^ (8 * precision a - 1)))) as (k & Hkr & Hx).
      { exists (- 2 ^ (8 * precision a - 1)). split; [lia|reflexivity]. }
      rewrite <- inject_Z_mult in Hx. apply inject_Z_eq in Hx. rewrite <- Hx in Hkr.
      rewrite Z.abs_mul, Z.abs_opp, !Z.abs_eq in Hkr by lia. exact Hkr.
  - (* FLOAT, INT *)
    split; [|auto]. intros _ x. assert (Hac : precision a = 32 \/ precision a = 64 /\ precision c = 64) by lia.
    assert (Hcc : precision c = 32 \/ precision c = 64) by tauto.
    destruct Hac as [->|[-> ->]]; cbn [Z.eqb Pos.eqb]; [|auto].
    destruct Hcc as [-> | ->]; cbn [Z.eqb Pos.eqb]; [auto|].
    intros (m & e & Hm & He & Hx). exists m, e. split; [|split; [lia|auto]].
    change (2 ^ 24) with 16777216 in Hm. change (2 ^ 53) with 9007199254740992. lia.
  - (* FLOAT, FLOAT *)
    split; [|auto]. intros _ x. assert (Hac : precision a = 32 \/ precision a = 64 /\ precision c = 64) by lia.
    assert (Hcc : precision c = 32 \/ precision c = 64) by tauto.
    destruct Hac as [->|[-> ->]]; cbn [Z.eqb Pos.eqb]; [|auto].
    destruct Hcc as [-> | ->]; cbn [Z.eqb Pos.eqb]; [auto|].
    intros (m & e & Hm & He & Hx). exists m, e. split; [|split; [lia|auto]].
    change (2 ^ 24) with 16777216 in Hm. change (2 ^ 53) with 9007199254740992. lia.
  - (* FLOAT, DECIMAL *)
    split; [tauto|]. intros H. destruct (H (inject_Z 1 * (2 # 1) ^ 104)%Q) as (k & Hkr & Hx).
    { destruct Ha as [[-> | ->] _]; cbn [Z.eqb Pos.eqb]; exists 1, 104; (split; [vm_compute; reflexivity|]);
        (split; [lia|reflexivity]). }
    rewrite Qpower_2_pos, <- !inject_Z_mult in Hx by lia. apply inject_Z_eq in Hx.
    assert (P10 : 0 < 10 ^ scale c) by (apply pow10_pos; lia).
    assert (10 ^ precision c <= 10 ^ 19) by (apply Z.pow_le_mono_r; lia).
    assert (10 ^ 19 < 2 ^ 104) by reflexivity.
    rewrite <- Hx in Hkr. rewrite Z.mul_1_l, Z.abs_eq in Hkr by (apply Z.mul_nonneg_nonneg; lia).
    assert (2 ^ 104 * 1 <= 2 ^ 104 * 10 ^ scale c) by (apply Z.mul_le_mono_nonneg_l; lia). lia.
  - (* DECIMAL, INT *)
    split; [|auto]. intros _ x (k & Hkr & Hx). exists k. split.
    + assert (10 ^ precision a <= 10 ^ precision c) by (apply Z.pow_le_mono_r; lia). lia.
    + replace (scale c) with (scale a); [auto|]. lia.
  - (* DECIMAL, FLOAT *)
    split; [|auto]. intros _ x (k & Hkr & Hx). exists k. split.
    + assert (10 ^ precision a <= 10 ^ precision c) by (apply Z.pow_le_mono_r; lia). lia.
    + replace (scale c) with (scale a); [auto|]. lia.
  - (* DECIMAL, DECIMAL *)
    set (d := scale c - scale a). assert (Hd : 0 <= d) by (unfold d; lia).
    assert (Psc : 10 ^ scale c = 10 ^ scale a * 10 ^ d) by (rewrite <- Z.pow_add_r by lia; f_equal; unfold d; lia).
    assert (P10 : 0 < 10 ^ d) by (apply pow10_pos; lia).
    assert (P10a : 0 < 10 ^ scale a) by (apply pow10_pos; lia).
    split.
    + intros Hfit x (k & Hkr & Hx). exists (k * 10 ^ d). split.
      * rewrite Z.abs_mul, (Z.abs_eq (10 ^ d)) by lia.
        apply Z.lt_le_trans with (10 ^ precision a * 10 ^ d).
        { apply Z.mul_lt_mono_pos_r; auto. }
        rewrite <- Z.pow_add_r by lia. apply Z.pow_le_mono_r; lia.
      * rewrite Psc, !inject_Z_mult, Qmult_assoc, Hx. reflexivity.
    + intros H. destruct (Z_le_gt_dec (precision a + d) (precision c)) as [|Hgt]; [auto|exfalso].
      destruct (H ((10 ^ precision a - 1) # Z.to_pos (10 ^ scale a))%Q) as (k & Hkr & Hx).
      { exists (10 ^ precision a - 1). assert (0 < 10 ^ precision a) by (apply pow10_pos; lia). split; [lia|].
        unfold Qeq, inject_Z. cbn. rewrite Pos.mul_1_r, Z2Pos.id by lia. lia. }
      unfold Qeq, inject_Z in Hx. cbn [Qmult Qnum Qden] in Hx. rewrite !Pos.mul_1_r, Z.mul_1_r in Hx.
      rewrite Z2Pos.id, Psc in Hx by lia.
      assert (Hk2 : k = (10 ^ precision a - 1) * 10 ^ d) by nia.
      assert (E1 : 10 ^ precision a = 10 * 10 ^ (precision a - 1)).
      { replace (precision a) with (1 + (precision a - 1)) at 1 by lia. rewrite Z.pow_add_r by lia. reflexivity. }
      assert (P1 : 0 < 10 ^ (precision a - 1)) by (apply pow10_pos; lia).
      assert (E2 : 10 ^ precision c <= 10 ^ (precision a - 1) * 10 ^ d).
      { rewrite <- Z.pow_add_r by lia. apply Z.pow_le_mono_r; lia. }
      rewrite Hk2, Z.abs_eq in Hkr by (apply Z.mul_nonneg_nonneg; lia).
      assert (10 ^ (precision a - 1) * 10 ^ d <= (10 ^ precision a - 1) * 10 ^ d).
      { apply Z.mul_le_mono_nonneg_r; lia. }
      lia.
Qed.

(** Consequences: the common type of two integers, of two floating-point types or of two decimals with the same scale
    has all values of both operands. *)
Theorem C39_join_upper_bound : forall a b c x, valid a -> valid b -> arithmetic_join a b = Some c ->
  (knd a = N_Int /\ knd b = N_Int) \/ (knd a = N_Float /\ knd b = N_Float) \/
  (knd a = N_Decimal /\ knd b = N_Decimal /\ scale a = scale b) ->
  represents a x \/ represents b x -> represents c x.
Proof.
  assert (G : forall a b c x, valid a -> valid b -> arithmetic_join a b = Some c ->
    (knd a = N_Int /\ knd b = N_Int) \/ (knd a = N_Float /\ knd b = N_Float) \/
    (knd a = N_Decimal /\ knd b = N_Decimal /\ scale a = scale b) ->
    represents a x -> represents c x).
  { intros a b c x Ha Hb Hc Hk. apply (C39_join_represents a b c Ha Hb Hc). unfold fits.
    pose proof (join_facts a b c Ha Hb Hc) as [HF HS].
    destruct Hk as [[E1 E2]|[[E1 E2]|(E1 & E2 & E3)]]; rewrite E1, E2 in *; auto. lia. }
  intros a b c x Ha Hb Hc Hk [H|H]; [exact (G a b c x Ha Hb Hc Hk H)|].
  rewrite C39_join_commutative in Hc. apply (G b a c x); auto. intuition.
Qed.

(** Not so in general: a value of an operand may not be a value of the common type. *)
Theorem C39_refuted_int_decimal : exists a b c x, valid a /\ valid b /\ arithmetic_join a b = Some c /\
  a = mkNumeric TY_Scalar N_Int 4 0 /\ b = mkNumeric TY_Scalar N_Decimal 8 2 /\ c = mkNumeric TY_Scalar N_Decimal 9 2 /\
  represents a x /\ ~ represents c x.
Proof.
  exists (mkNumeric TY_Scalar N_Int 4 0), (mkNumeric TY_Scalar N_Decimal 8 2), (mkNumeric TY_Scalar N_Decimal 9 2), (inject_Z (10 ^ 7)).
  split; [cbn; lia|]. split; [cbn; lia|]. split; [vm_compute; reflexivity|].
  repeat (split; [reflexivity|]). split.
  - exists (10 ^ 7). split; [vm_compute; split; [discriminate|reflexivity]|reflexivity].
  - intros (k & Hk & Hx). cbn [scale precision] in *. rewrite <- inject_Z_mult in Hx. apply inject_Z_eq in Hx. subst k.
    vm_compute in Hk. discriminate.
Qed.

Theorem C39_refuted_decimal_scales : exists a b c x, valid a /\ valid b /\ arithmetic_join a b = Some c /\
  a = mkNumeric TY_Scalar N_Decimal 8 0 /\ b = mkNumeric TY_Scalar N_Decimal 8 4 /\ c = b /\
  represents a x /\ ~ represents c x.
Proof.
  exists (mkNumeric TY_Scalar N_Decimal 8 0), (mkNumeric TY_Scalar N_Decimal 8 4), (mkNumeric TY_Scalar N_Decimal 8 4), (inject_Z 10000).
  split; [cbn; lia|]. split; [cbn; lia|]. split; [vm_compute; reflexivity|].
  repeat (split; [reflexivity|]). split.
  - exists 10000. split; [vm_compute; reflexivity|reflexivity].
  - intros (k & Hk & Hx). cbn [scale precision] in *. rewrite <- inject_Z_mult in Hx. apply inject_Z_eq in Hx. subst k.
    vm_compute in Hk. discriminate.
Qed.

Theorem C39_refuted_int_double : exists a b x, valid a /\ valid b /\ arithmetic_join a b = Some b /\
  a = mkNumeric TY_Scalar N_Int 8 0 /\ b = mkNumeric TY_Scalar N_Float 64 0 /\
  represents a x /\ ~ represents b x.
Proof.
  exists (mkNumeric TY_Scalar N_Int 8 0), (mkNumeric TY_Scalar N_Float 64 0), (inject_Z (2 ^ 53 + 1)).
  split; [cbn; lia|]. split; [cbn; lia|]. split; [vm_compute; reflexivity|].
  repeat (split; [reflexivity|]). split.
  - exists (2 ^ 53 + 1). split; [vm_compute; split; [discriminate|reflexivity]|reflexivity].
  - cbn. apply odd_not_float; [lia|reflexivity|vm_compute; discriminate].
Qed.

(** ** The storage size *)

(** A signed integer of [size] bits holds the digits of every number of the type exactly when the precision is 2 to 18
    (the claim for all DECIMALs fails for one digit and for the maximal precision 19). *)

Lemma decimal_sizes : forall p, 1 <= p <= 19 -> forall c s,
  size (mkNumeric c N_Decimal p s) =
  (if p =? 1 then 4 else if p =? 2 then 8 else if p <=? 4 then 16 else if p <=? 9 then 32 else 64).
Proof.
  intros p H c s.
  assert (p = 1 \/ p = 2 \/ p = 3 \/ p = 4 \/ p = 5 \/ p = 6 \/ p = 7 \/ p = 8 \/ p = 9 \/ p = 10 \/
      p = 11 \/ p = 12 \/ p = 13 \/ p = 14 \/ p = 15 \/ p = 16 \/ p = 17 \/ p = 18 \/ p = 19) as D by lia.
  clear H. repeat (destruct D as [->|D]; [vm_compute; reflexivity|]). subst p. vm_compute. reflexivity.
Qed.

Lemma abs_bound k d b : (d <=? b) = true -> Z.abs k < d -> - b <= k < b.
Proof. rewrite Z.leb_le. lia. Qed.

Theorem C39_decimal_size : forall t, valid t -> knd t = N_Decimal ->
  ((forall k, Z.abs k < 10 ^ precision t -> - 2 ^ (size t - 1) <= k < 2 ^ (size t - 1)) <-> 2 <= precision t <= 18).
Proof.
  intros [c k p s] Ht Hk. cbn in Hk. subst k. unfold valid in Ht. cbn [knd precision scale] in *.
  rewrite decimal_sizes by tauto.
  assert (p = 1 \/ p = 2 \/ p = 3 \/ p = 4 \/ p = 5 \/ p = 6 \/ p = 7 \/ p = 8 \/ p = 9 \/ p = 10 \/
      p = 11 \/ p = 12 \/ p = 13 \/ p = 14 \/ p = 15 \/ p = 16 \/ p = 17 \/ p = 18 \/ p = 19) as D by lia.
  clear Ht. destruct D as [->|D].
  - split; [|lia]. intros H. specialize (H 9 ltac:(vm_compute; reflexivity)). vm_compute in H. destruct H as [_ H]; discriminate.
  - repeat (destruct D as [->|D]; [split; [intros _; lia|intros _ k Hk;
      match goal with |- - 2 ^ ?b <= _ < _ => 
        match type of Hk with _ < ?d => apply (abs_bound k d (2 ^ b)); [vm_compute; reflexivity|exact Hk] end end]|]). subst p.
    split; [|lia]. intros H. specialize (H (2 ^ 63) ltac:(vm_compute; reflexivity)). vm_compute in H. destruct H as [_ H]; discriminate.
Qed.

(** The sizes in bits; a DECIMAL has the machine width that holds its digits (4 bits for one digit). *)
Theorem C39_sizes : forall t, valid t -> alignment t = size t /\
  size t = match knd t with
           | N_Int => 8 * precision t
           | N_Float => precision t
           | N_Decimal => if precision t =? 1 then 4 else if precision t =? 2 then 8 else if precision t <=? 4 then 16 else if precision t <=? 9 then 32 else 64
           end.
Proof.
  intros [c k p s] Ht. split; [reflexivity|]. unfold valid in Ht. cbn [knd precision scale] in *. destruct k; [reflexivity..|]. apply decimal_sizes. tauto.
Qed.

(** Sizes are those of machine types (8, 16, 32, 64 bits), except for DECIMAL(1, s), which has 4 bits. *)
Theorem C39_size_machine : forall t, valid t -> (size t = 8 \/ size t = 16 \/ size t = 32 \/ size t = 64) <->
  ~ (knd t = N_Decimal /\ precision t = 1).
Proof.
  intros [c k p s] Ht. unfold valid in Ht. cbn [knd precision scale] in *. destruct k.
  - unfold size. cbn [knd precision]. split; [intros _ [? _]; discriminate|]. intros _. lia.
  - unfold size. cbn [knd precision]. split; [intros _ [? _]; discriminate|]. intros _. lia.
  - rewrite decimal_sizes by tauto. destruct (Z.eqb_spec p 1); [split; [lia|intros []; auto]|].
    split; [intros _ [_ ?]; lia|]. intros _.
    destruct (Z.eqb_spec p 2); [auto|]. destruct (Z.leb_spec p 4); [auto|]. destruct (Z.leb_spec p 9); auto.
Qed.

(** ** Equal types hash alike (as pooling requires) *)
Theorem C39_hash : forall a b, (numeric_eqb a b = true <-> a = b) /\ (numeric_eqb a b = true -> numeric_hash a = numeric_hash b).
Proof.
  intros a b. assert (E : numeric_eqb a b = true <-> a = b).
  { unfold numeric_eqb. rewrite !andb_true_iff, !Z.eqb_eq. destruct a as [ca ka pa sa], b as [cb kb pb sb]. cbn.
    split; [|intros [= -> -> -> ->]; auto]. intros [[[H1 H2] ->] ->]. destruct ca, cb, ka, kb; cbn in *; congruence || lia. }
  split; [exact E|]. intros H. apply E in H. congruence.
Qed.

(** ** Non-vacuity *)
Example C39_nonvacuous :
  valid (mkNumeric TY_Scalar N_Int 2 0) /\ valid (mkNumeric TY_Vector N_Decimal 10 2) /\
  arithmetic_join (mkNumeric TY_Scalar N_Int 2 0) (mkNumeric TY_Vector N_Decimal 10 2) = Some (mkNumeric TY_Vector N_Decimal 10 2) /\
  fits (mkNumeric TY_Scalar N_Int 2 0) (mkNumeric TY_Vector N_Decimal 10 2) (mkNumeric TY_Vector N_Decimal 10 2).
Proof. split; [cbn; lia|]. split; [cbn; lia|]. split; [vm_compute; reflexivity|]. cbn. lia. Qed.
