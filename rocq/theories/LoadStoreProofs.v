(** * C54: from the executions to the specification *)
From Coq Require Import List Bool ZArith Arith Lia.
From Verif Require Import LoadStore LoadStoreSpec LoadStoreSim LoadStoreTree LoadStoreJump LoadStoreStrides LoadStoreBits LoadStoreAccess LoadStoreRun LoadStoreStatic LoadStoreMain.
Import ListNotations.
Local Open Scope Z_scope.

Lemma position_some id l k : NoDup l -> (position id l = Some k <-> nth_error l k = Some id).
Proof.
  intros ND. revert k; induction l as [|x l IH]; intros k; cbn; [split; [discriminate|destruct k; discriminate]|]. inversion ND as [|? ? NI ND']; subst. specialize (IH ND'). destruct (Nat.eqb_spec id x) as [->|N].
  - split; [intros [= <-]; reflexivity|]. destruct k as [|k]; [reflexivity|]. cbn. intros H. exfalso. apply NI. eapply nth_error_In; eauto.
  - destruct k as [|k]; cbn.
    + split; [destruct (position id l); discriminate|congruence].
    + rewrite <- IH. destruct (position id l); cbn; split; congruence.
Qed.
Lemma set_nth_same t : forall k e, (k < length t)%nat -> nth_error (set_nth t k e) k = Some e.
Proof. induction t as [|x t IH]; intros [|k] e H; cbn in *; try lia; auto. apply IH; lia. Qed.
Lemma set_nth_other t : forall k e j, j <> k -> nth_error (set_nth t k e) j = nth_error t j.
Proof. induction t as [|x t IH]; intros [|k] e [|j] H; cbn in *; auto; congruence. Qed.

Lemma range_sub b a w x : b + a <= x < b + a + w -> a <= x - b < a + w.
Proof. lia. Qed.

Section Attr.
  Variables (ls : schema) (ts : list nat).
  Hypothesis HT : schemas_ok ls ts.
  Lemma attribute_slot i k nl : attribute ls ts i k nl <-> slot ls ts i = Some k /\ nullable ls i = nl /\ (i < length ls)%nat.
  Proof.
    unfold attribute, slot, nullable. destruct HT as (_ & ND & _). split.
    - intros (id & A & B). rewrite A. split; [apply position_some; assumption|]. split; [reflexivity|]. apply nth_error_Some. congruence.
    - intros (A & B & C). destruct (nth_error ls i) as [[id b]|]; [|discriminate]. subst. exists id. split; [reflexivity|]. apply position_some; assumption.
  Qed.
  Lemma slot_attribute i k : slot ls ts i = Some k -> attribute ls ts i k (nullable ls i).
  Proof. intros H. apply attribute_slot. split; [exact H|]. split; [reflexivity|]. apply nth_error_Some. unfold slot in H. destruct (nth_error ls i); congruence. Qed.
  Lemma attribute_inj i i' k nl nl' : attribute ls ts i k nl -> attribute ls ts i' k nl' -> i = i'.
  Proof.
    intros (id & A & B) (id' & A' & B'). assert (id' = id) as -> by congruence. destruct HT as (ND & _). apply (proj1 (NoDup_nth_error (map fst ls)) ND).
    - rewrite map_length. apply nth_error_Some. congruence.
    - rewrite !nth_error_map, A, A'. reflexivity.
  Qed.
  Lemma attribute_lt i k nl : attribute ls ts i k nl -> (k < length ts)%nat.
  Proof. intros (id & _ & B). apply nth_error_Some. congruence. Qed.
  Lemma needs i k : attribute ls ts i k true -> needs_null_bitmap ls ts = true.
  Proof.
    intros (id & A & B). unfold needs_null_bitmap. apply existsb_exists. exists id. split; [eapply nth_error_In; exact B|]. destruct HT as (ND & _).
    assert (P : position id (map fst ls) = Some i) by (apply position_some; [exact ND|]; rewrite nth_error_map, A; reflexivity). rewrite P. unfold nullable. rewrite A. reflexivity.
  Qed.
End Attr.

Section Final.
  Variables (ls : schema) (ts : list nat) (base r0 : Z) (L : layout).
  Notation nb := (length ls).
  Hypothesis HL : layout_ok nb L.
  Hypothesis HT : schemas_ok ls ts.
  Notation ni := (the_null ls ts base r0 L).
  Notation lvs := (all_leaves L).

  Lemma bitmap_place r : place L r nb = option_map (fun l => (l_t l, lpos l r)) (bitmap ls L).
  Proof.
    unfold bitmap. destruct (find (fun l => Nat.eqb (l_i l) nb) lvs) as [l|] eqn:F.
    - apply find_some in F. destruct F as [I E]. apply Nat.eqb_eq in E. cbn. rewrite <- E. apply place_leaf; [apply HL|exact I].
    - cbn. apply place_none. intros H. apply in_map_iff in H. destruct H as (l & E & I). apply (find_none _ _ F) in I. apply Nat.eqb_neq in I. contradiction.
  Qed.
  Lemma null_flag i k nl r m : attribute ls ts i k nl -> is_null ls ni i m (null_place ls base L r) = nl && match place L r nb with Some (_, b) => get_bit m (8 * base + b + Z.of_nat i) | None => false end.
  Proof.
    intros A. unfold is_null, can_be_null, null_place. rewrite bitmap_place. destruct (proj1 (attribute_slot ls ts HT i k nl) A) as (_ & Nl & _). rewrite Nl. rewrite (the_null_eq ls ts base r0 L HL). destruct nl; [|destruct (needs_null_bitmap ls ts); [destruct (bitmap ls L)|]; reflexivity].
    rewrite (needs ls ts HT i k A). destruct (bitmap ls L); reflexivity.
  Qed.

  (** ** Loading *)
  Lemma loads_length r m l : forall t, length (fold_left (fun t l => load_leaf ls ts ni base (null_place ls base L r) r m l t) l t) = length t.
  Proof. induction l as [|x l IH]; intros t; cbn [fold_left]; [reflexivity|]. rewrite IH. apply load_leaf_length. Qed.
  Lemma load_leaf_other B r m x t k : (l_i x <> nb -> slot ls ts (l_i x) <> Some k) -> nth_error (load_leaf ls ts ni base B r m x t) k = nth_error t k.
  Proof.
    intros H. unfold load_leaf. destruct (Nat.eqb_spec (l_i x) nb) as [|N]; [reflexivity|]. specialize (H N). destruct (slot ls ts (l_i x)) as [k'|]; [|reflexivity]. destruct (nth_error t k') as [[old b]|]; [|reflexivity]. apply set_nth_other. congruence.
  Qed.
  Lemma loads_other r m k l : (forall x, In x l -> l_i x <> nb -> slot ls ts (l_i x) <> Some k) -> forall t, nth_error (fold_left (fun t l => load_leaf ls ts ni base (null_place ls base L r) r m l t) l t) k = nth_error t k.
  Proof.
    induction l as [|x l IH]; intros H t; cbn [fold_left]; [reflexivity|]. rewrite IH by (intros y Hy; apply H; right; exact Hy). apply load_leaf_other. apply H. left; reflexivity.
  Qed.
  Lemma loaded_ok r m t : (length ts <= length t)%nat -> loaded ls ts L base r m t (fold_left (fun t l => load_leaf ls ts ni base (null_place ls base L r) r m l t) lvs t).
  Proof.
    intros Ht. split; [apply loads_length|]. split.
    - intros i k nl ty a A P. destruct (place_some L r i ty a (proj1 (proj2 HL)) P) as (l & I & Ei & Et & Ep). destruct (proj1 (attribute_slot ls ts HT i k nl) A) as (S & Nl & Hi). apply in_split in I. destruct I as (l1 & l2 & EL). rewrite EL, fold_left_app. cbn [fold_left].
      set (t1 := fold_left _ l1 t). assert (Lt : length t1 = length t) by apply loads_length.
      assert (OTHER : forall x, In x l2 -> l_i x <> nb -> slot ls ts (l_i x) <> Some k).
      { intros x Hx N S'. pose proof (attribute_inj ls ts HT _ _ _ _ _ (slot_attribute ls ts HT _ _ S') A) as E. pose proof (lvs_nodup ls L HL) as ND. rewrite EL, map_app in ND. cbn [map] in ND. apply NoDup_remove_2 in ND. apply ND. apply in_or_app. right. rewrite Ei, <- E. apply in_map. exact Hx. }
      rewrite loads_other by exact OTHER. unfold load_leaf. rewrite Ei. destruct (Nat.eqb_spec i nb); [lia|]. rewrite S. pose proof (attribute_lt ls ts _ _ _ A) as Hk.
      destruct (nth_error t1 k) as [[old b]|] eqn:En; [|apply nth_error_None in En; lia]. rewrite set_nth_same by lia. rewrite (null_flag i k nl r m A), Et, Ep. set (fl := nl && _). unfold new_entry. destruct fl.
      + eexists. split; [reflexivity|]. discriminate.
      + eexists. split; [reflexivity|]. reflexivity.
    - intros k H. apply loads_other. intros x Hx N S. specialize (H _ _ (slot_attribute ls ts HT _ _ S)). rewrite (place_leaf L r x (proj1 (proj2 HL)) Hx) in H. discriminate.
  Qed.

  (** ** Storing *)
  Hypothesis SEP : separate ls L.
  Variables (r : Z) (t : list entry).
  Hypothesis Hr : 0 <= r.
  Hypothesis Ht : tuple_ok ts true t.
  Notation B := (null_place ls base L r).
  Notation sto := (fun m l => store_leaf ls ts ni base B r t l m).

  Lemma aligned l : In l lvs -> l_i l <> nb -> is_boolean (l_t l) = false -> (8 * base + lpos l r) mod 8 = 0.
  Proof.
    intros I N T. pose proof (lvs_good ls L HL l I) as (CH & _ & _ & _ & OK). unfold leaf_ok in OK. destruct (Nat.eqb_spec (l_i l) nb); [contradiction|].
    assert (AL : l_off l mod 8 = 0 /\ l_st l mod 8 = 0) by (destruct (l_t l); try discriminate T; try tauto). destruct AL as [A1 A2]. pose proof (lbase_8 _ _ r CH) as A3. unfold lpos. apply Z.mod_divide in A1, A2, A3; try lia. destruct A1 as [x ->], A2 as [y ->], A3 as [z ->].
    apply Z.mod_divide; [lia|]. exists (base + z + x + lrow (l_lv l) r * y). lia.
  Qed.
  (** The bits that the store of leaf [l] may change *)
  Definition written (l : leaf) (x : Z) : Prop :=
    exists k v n, slot ls ts (l_i l) = Some k /\ nth_error t k = Some (v, n) /\
      (can_be_null ls ni (l_i l) = true /\ x = B + Z.of_nat (l_i l) \/ n = false /\ 8 * base + lpos l r <= x < 8 * base + lpos l r + bits (l_t l)).
  Lemma store_frame l m x : In l lvs -> bytes_ok m -> (l_i l <> nb -> ~ written l x) -> get_bit (store_leaf ls ts ni base B r t l m) x = get_bit m x.
  Proof.
    intros I Hm NW. unfold store_leaf. destruct (Nat.eqb_spec (l_i l) nb) as [|N]; [reflexivity|]. specialize (NW N). destruct (slot ls ts (l_i l)) as [k|] eqn:S; [|reflexivity]. destruct (nth_error t k) as [[v n]|] eqn:E; [|reflexivity].
    set (m1 := if can_be_null ls ni (l_i l) then put_bit m (B + Z.of_nat (l_i l)) n else m). assert (Hm1 : bytes_ok m1) by (unfold m1; destruct (can_be_null ls ni (l_i l)); [apply put_bit_ok|]; exact Hm).
    assert (G1 : get_bit m1 x = get_bit m x).
    { unfold m1. destruct (can_be_null ls ni (l_i l)) eqn:C; [|reflexivity]. rewrite get_put_bit by exact Hm. destruct (Z.eqb_spec x (B + Z.of_nat (l_i l))); [|reflexivity]. exfalso. apply NW. exists k, v, n. auto. }
    destruct n; [exact G1|]. rewrite put_frame; [exact G1|exact Hm1|apply aligned; assumption|].
    destruct (Z_lt_ge_dec x (8 * base + lpos l r)); [left; lia|right]. destruct (Z_lt_ge_dec x (8 * base + lpos l r + bits (l_t l))); [|lia]. exfalso. apply NW. exists k, v, false. split; [exact S|]. split; [exact E|]. right. split; [reflexivity|lia].
  Qed.
  Lemma stores_bytes l : forall m, bytes_ok m -> bytes_ok (fold_left sto l m).
  Proof. induction l as [|x l IH]; intros m H; cbn [fold_left]; [exact H|]. apply IH. apply store_leaf_ok; assumption. Qed.
  Lemma stores_frame x l : incl l lvs -> forall m, bytes_ok m -> (forall y, In y l -> l_i y <> nb -> ~ written y x) -> get_bit (fold_left sto l m) x = get_bit m x.
  Proof.
    induction l as [|y l IH]; intros IN m Hm H; cbn [fold_left]; [reflexivity|]. rewrite IH.
    - apply store_frame; [apply IN; left; reflexivity|exact Hm|apply H; left; reflexivity].
    - intros z Hz. apply IN. right; exact Hz.
    - apply store_leaf_ok; assumption.
    - intros z Hz. apply H. right; exact Hz.
  Qed.
  (** Parts of the row *)
  Lemma written_part l x : In l lvs -> l_i l <> nb -> written l (8 * base + x) -> exists k v n, slot ls ts (l_i l) = Some k /\ nth_error t k = Some (v, n) /\ (part ls L r (l_i l) true x \/ part ls L r (l_i l) false x /\ n = false).
  Proof.
    intros I N (k & v & n & S & E & W). exists k, v, n. split; [exact S|]. split; [exact E|]. pose proof (slot_attribute ls ts HT _ _ S) as A. destruct (proj1 (attribute_slot ls ts HT _ _ _) A) as (_ & _ & Hi). destruct W as [[C W]|[W1 W2]].
    - left. split; [exact Hi|]. unfold can_be_null in C. rewrite (the_null_eq ls ts base r0 L HL) in C. destruct (needs_null_bitmap ls ts); [|discriminate]. unfold null_place in W. destruct (bitmap ls L) as [l'|] eqn:Bm; [|discriminate]. cbn in C. split; [exact C|].
      exists (l_t l'), (lpos l' r). rewrite bitmap_place, Bm. split; [reflexivity|lia].
    - right. split; [|exact W1]. split; [exact Hi|]. exists (l_t l), (lpos l r). rewrite (place_leaf L r l (proj1 (proj2 HL)) I). split; [reflexivity|lia].
  Qed.
  Lemma stored_ok m : bytes_ok m -> stored ls ts L base r t m (fold_left sto lvs m).
  Proof.
    intros Hm. split; [apply stores_bytes; exact Hm|]. split.
    - intros i k nl ty a v n A P En. destruct (place_some L r i ty a (proj1 (proj2 HL)) P) as (l & I & Ei & Et & Ep). destruct (proj1 (attribute_slot ls ts HT i k nl) A) as (S & Nl & Hi).
      assert (Ni : l_i l <> nb) by lia. pose proof I as I0. apply in_split in I. destruct I as (l1 & l2 & EL). rewrite EL, fold_left_app. cbn [fold_left]. set (m0 := fold_left _ l1 m). assert (Hm0 : bytes_ok m0) by (apply stores_bytes; exact Hm).
      assert (IN2 : incl l2 lvs) by (intros y Hy; rewrite EL; apply in_or_app; right; right; exact Hy).
      (* the other leaves write other bits *)
      assert (OTHER : forall x nn, part ls L r i nn x -> forall y, In y l2 -> l_i y <> nb -> ~ written y (8 * base + x)).
      { intros x nn Hp y Hy N W. destruct (written_part y x (IN2 y Hy) N W) as (k' & v' & n' & S' & _ & Q). assert (E : exists n'', part ls L r (l_i y) n'' x) by (destruct Q as [Q|[Q _]]; eauto). destruct E as [n'' Q'].
        pose proof (SEP _ _ _ _ _ _ _ Hr Hr Hp Q') as E. injection E as E _. pose proof (lvs_nodup ls L HL) as ND. rewrite EL, map_app in ND. cbn [map] in ND. apply NoDup_remove_2 in ND. apply ND. apply in_or_app. right. rewrite Ei, E. apply in_map. exact Hy. }
      assert (Hm1 : bytes_ok (store_leaf ls ts ni base B r t l m0)) by (apply store_leaf_ok; assumption).
      assert (KEEP : forall x nn, part ls L r i nn x -> get_bit (fold_left sto l2 (store_leaf ls ts ni base B r t l m0)) (8 * base + x) = get_bit (store_leaf ls ts ni base B r t l m0) (8 * base + x)) by (intros x nn Hp; apply stores_frame; [exact IN2|exact Hm1|exact (OTHER x nn Hp)]).
      assert (PV : forall x, a <= x < a + bits ty -> part ls L r i false x) by (intros x Hx; split; [exact Hi|]; exists ty, a; auto).
      assert (ST : store_leaf ls ts ni base B r t l m0 = let m1 := if can_be_null ls ni i then put_bit m0 (B + Z.of_nat i) n else m0 in if n then m1 else put ty m1 (8 * base + a) v).
      { unfold store_leaf. destruct (Nat.eqb_spec (l_i l) nb); [contradiction|]. rewrite Ei, S, En, Et, Ep. reflexivity. }
      set (m1 := if can_be_null ls ni i then put_bit m0 (B + Z.of_nat i) n else m0) in ST. cbn zeta in ST. assert (Hmm : bytes_ok m1) by (unfold m1; destruct (can_be_null ls ni i); [apply put_bit_ok|]; exact Hm0).
      assert (AL : is_boolean ty = false -> (8 * base + a) mod 8 = 0) by (intros T; rewrite <- Ep; apply aligned; [exact I0|exact Ni|rewrite Et; exact T]).
      split.
      + intros ty' b -> Pb. assert (PN : part ls L r i true (b + Z.of_nat i)) by (split; [exact Hi|]; split; [exact Nl|]; exists ty', b; auto).
        rewrite <- Z.add_assoc. rewrite (KEEP _ _ PN), ST. assert (C : can_be_null ls ni i = true /\ B = 8 * base + b).
        { unfold can_be_null. rewrite (the_null_eq ls ts base r0 L HL). rewrite (needs ls ts HT i k A). rewrite bitmap_place in Pb. unfold null_place. destruct (bitmap ls L) as [l'|]; [|discriminate]. cbn in Pb |- *. injection Pb as <- <-. auto. }
        destruct C as [C EB]. assert (G1 : get_bit m1 (8 * base + (b + Z.of_nat i)) = n) by (unfold m1; rewrite C, EB, get_put_bit by exact Hm0; destruct (Z.eqb_spec (8 * base + (b + Z.of_nat i)) (8 * base + b + Z.of_nat i)); [reflexivity|lia]).
        destruct n; [exact G1|]. rewrite put_frame; [exact G1|exact Hmm|exact AL|]. destruct (Z_lt_ge_dec (b + Z.of_nat i) a); [left; lia|]. destruct (Z_lt_ge_dec (b + Z.of_nat i) (a + bits ty)); [|right; lia].
        exfalso. assert (Q : a <= b + Z.of_nat i < a + bits ty) by lia. pose proof (SEP _ _ _ _ _ _ _ Hr Hr PN (PV _ Q)) as E. discriminate.
      + intros -> T. etransitivity; [|exact (value_put ty m1 (8 * base + a) v Hmm T)]. apply value_ext; auto.
        * apply stores_bytes. exact Hm1.
        * rewrite <- ST. exact Hm1.
        * intros x Hx. replace x with (8 * base + (x - 8 * base)) by lia. rewrite (KEEP _ _ (PV (x - 8 * base) ltac:(lia))), ST. reflexivity.
    - intros x H. apply stores_frame; [apply incl_refl|exact Hm|]. intros l I N W. destruct (written_part l x I N W) as (k & v & n & S & E & Q). pose proof (slot_attribute ls ts HT _ _ S) as A.
      destruct (H _ _ _ A) as [H1 H2]; [rewrite (place_leaf L r l (proj1 (proj2 HL)) I); discriminate|]. destruct Q as [Q|[Q ->]]; [contradiction|]. apply H2. split; [exact Q|]. exists v. exact E.
  Qed.
End Final.
