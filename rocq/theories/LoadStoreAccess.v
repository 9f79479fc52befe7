(** * C54: the code that accesses one row *)
From Coq Require Import List Bool ZArith Arith Lia.
From Verif Require Import LoadStore LoadStoreSpec LoadStoreSim LoadStoreTree LoadStoreJump LoadStoreStrides LoadStoreBits.
Import ListNotations.
Local Open Scope Z_scope.

Ltac names := first [discriminate | let E := fresh in intros E; injection E; congruence].
Ltac run := cbn -[upd Z.modulo Z.div Z.eqb Z.ltb Z.pow Z.mul Z.add Z.shiftl Z.shiftr Z.land Z.lor Z.lnot u8 set_nth nth_error Nat.ltb Z.of_nat Z.to_nat read_le write_le read_str write_str setbit set_byte signed firstn length as_i as_s as_b].
Ltac go := repeat (run; repeat first [rewrite upd_same | rewrite upd_other by names]).

Lemma chain_k_8 k lv r : chain k lv -> lbase lv r mod 8 = 0.
Proof. apply lbase_8. Qed.

Section Access.
  Variables (ls : schema) (ts : list nat) (ni : option null_info) (base : Z).
  Notation nb := (length ls).
  Notation at_bit := (at_bit ls ts ni).
  Notation at_row := (at_row ls ts ni base).

  (** ** The NULL bit *)
  (** The variables for the bitmap say it is at bit [B]. *)
  Definition null_pos (e : env) (B : Z) : Prop :=
    forall x, ni = Some x ->
      if n_stride x =? 0 then e NullP = VI (B / 8) /\ n_bit_offset x = B mod 8
      else exists p o, e NullP = VI p /\ e NullOfs = VI o /\ 0 <= o /\ 8 * p + o = B.

  Lemma split_bit B i : (B + i) / 8 = B / 8 + (B mod 8 + i) / 8 /\ (B + i) mod 8 = (B mod 8 + i) mod 8.
  Proof.
    pose proof (Z.div_mod B 8 ltac:(lia)). split.
    - replace (B + i) with (B mod 8 + i + (B / 8) * 8) by lia. rewrite Z.div_add by lia. lia.
    - replace (B + i) with (B mod 8 + i + (B / 8) * 8) by lia. rewrite Z.mod_add by lia. reflexivity.
  Qed.
  Lemma split_ofs p o i : Z.shiftr (o + i) 3 + p = (8 * p + o + i) / 8 /\ Z.land (o + i) 7 = (8 * p + o + i) mod 8.
  Proof.
    replace (8 * p + o + i) with (o + i + p * 8) by lia. rewrite Z.div_add, Z.mod_add by lia. split; [rewrite Z.shiftr_div_pow2 by lia; reflexivity|].
    change 7 with (Z.ones 3). rewrite Z.land_ones by lia. reflexivity.
  Qed.
  Lemma nez_bit m a : bytes_ok m -> negb (Z.land (m (a / 8)) (2 ^ (a mod 8) mod 256) =? 0) = get_bit m a.
  Proof. intros H. apply byte_fact; [apply H|apply mod8]. Qed.
  Lemma byte_1 m a : read_le m a 1 = m a.
  Proof. cbn [read_le]. lia. Qed.
  Lemma nez_signed m a : bytes_ok m -> negb (Z.land (signed 1 (read_le m (a / 8) 1)) (2 ^ (a mod 8)) =? 0) = get_bit m a.
  Proof. intros H. rewrite byte_1. apply byte_fact; [apply H|apply mod8]. Qed.
  Lemma put_true m a : bytes_ok m -> set_byte m (a / 8) (Z.lor (signed 1 (read_le m (a / 8) 1)) (2 ^ (a mod 8)) mod 256) = put_bit m a true.
  Proof. intros H. rewrite byte_1. unfold put_bit. f_equal. apply byte_fact; [apply H|apply mod8]. Qed.
  Lemma put_false m a : bytes_ok m -> set_byte m (a / 8) (Z.land (signed 1 (read_le m (a / 8) 1)) (Z.lnot (2 ^ (a mod 8))) mod 256) = put_bit m a false.
  Proof. intros H. rewrite byte_1. unfold put_bit. f_equal. apply byte_fact; [apply H|apply mod8]. Qed.

  Lemma null_load x i k e st m t B : ni = Some x -> nullable ls i = true -> bytes_ok m -> null_pos e B ->
    cexec (access_null false ls ni i k) e (mkState st m t) = Some (e, mkState ((VNone, true) :: (VB (get_bit m (B + Z.of_nat i)), false) :: st) m t).
  Proof.
    intros Hn Hl Hm HP. specialize (HP x Hn). unfold access_null. rewrite Hn, Hl. destruct (n_stride x =? 0).
    - destruct HP as [P O]. unfold null_fixed. rewrite O. destruct (split_bit B (Z.of_nat i)) as [D M]. rewrite <- (nez_bit m (B + Z.of_nat i) Hm), D, M. set (b := B mod 8 + Z.of_nat i) in *.
      assert (0 <= b) by (unfold b; pose proof (mod8 B); lia). destruct (Z.ltb_spec b 8) as [L|L].
      + rewrite (Z.div_small b 8), (Z.mod_small b 8), Z.add_0_r by lia. go. rewrite P. reflexivity.
      + go. rewrite P. go. cbn [as_i]. rewrite (Z.add_comm (b / 8)). reflexivity.
    - destruct HP as (p & o & P & O & O0 & E). unfold null_adjustable. go. rewrite P, O. go. cbn [as_i]. destruct (split_ofs p o (Z.of_nat i)) as [D M]. rewrite D, M, E. rewrite Z.shiftl_mul_pow2, Z.mul_1_l by apply mod8. rewrite nez_signed by exact Hm. reflexivity.
  Qed.
  Lemma null_store x i k e st m t B v n : ni = Some x -> nullable ls i = true -> bytes_ok m -> null_pos e B -> (k < 256)%nat -> @nth_error entry t k = Some (v, n) ->
    exists e', cexec (access_null true ls ni i k) e (mkState st m t) = Some (e', mkState st (put_bit m (B + Z.of_nat i) n) t) /\ same_but (NAddr i) (NMask i) e e'.
  Proof.
    intros Hn Hl Hm HP Hk Ht. specialize (HP x Hn). unfold access_null. rewrite Hn, Hl, app_nil_r. destruct (n_stride x =? 0).
    - destruct HP as [P O]. exists e. split; [|intros ? _ _; reflexivity]. unfold null_fixed. rewrite O. destruct (split_bit B (Z.of_nat i)) as [D M]. unfold put_bit. rewrite D, M. set (b := B mod 8 + Z.of_nat i) in *.
      assert (0 <= b) by (unfold b; pose proof (mod8 B); lia). pose proof (mod8 b). destruct (Z.ltb_spec b 8) as [L|L].
      + rewrite (Z.div_small b 8), (Z.mod_small b 8), Z.add_0_r by lia. rewrite (Z.mod_small b 256) by lia. unfold ld_tup. rewrite (u8_small k Hk). go. rewrite P, Ht. go. cbn [as_i as_b]. reflexivity.
      + rewrite (Z.mod_small (b mod 8) 256) by lia. unfold ld_tup. rewrite (u8_small k Hk). go. rewrite P, Ht. go. cbn [as_i as_b]. rewrite (Z.add_comm (b / 8)). reflexivity.
    - destruct HP as (p & o & P & O & O0 & E). destruct (split_ofs p o (Z.of_nat i)) as [D M]. rewrite E in *.
      exists (upd (upd e (NAddr i) (VI ((B + Z.of_nat i) / 8))) (NMask i) (VI (2 ^ ((B + Z.of_nat i) mod 8)))). split; [|intros z A A'; rewrite !upd_other by assumption; reflexivity].
      unfold null_adjustable, ld_tup. rewrite (u8_small k Hk). go. rewrite ?P, ?O. go. rewrite Ht. go. rewrite ?P, ?O. go. cbn [as_i as_b]. rewrite D, M. rewrite Z.shiftl_mul_pow2, Z.mul_1_l by apply mod8.
      destruct n; cbn [orb]; go; cbn [as_i write_le].
      + rewrite Z.lor_comm, put_true by exact Hm. reflexivity.
      + rewrite Z.land_comm, put_false by exact Hm. reflexivity.
  Qed.

  (** ** The value *)
  Definition bit_tail (i : nat) : list call :=
    [Load (Mask i); Emit (ShLi_i 1); Update (Mask i);
     Const (VI 256); Emit Eq_i; Emit Dup; Const (VI 1); Load (Mask i); Emit Sel; Update (Mask i); Emit Pop;
     Emit Cast_i_b; Load (Ptr i); Emit Add_p; Update (Ptr i); Emit Pop].
  Lemma bit_tail_exec i e s X : e (Ptr i) = VI (X / 8) -> e (Mask i) = VI (2 ^ (X mod 8)) ->
    exists e', cexec (bit_tail i) e s = Some (e', s) /\ e' (Ptr i) = VI ((X + 1) / 8) /\ e' (Mask i) = VI (2 ^ ((X + 1) mod 8)) /\ same_but (Ptr i) (Mask i) e e'.
  Proof.
    intros HP HM. exists (upd (upd (upd e (Mask i) (VI (2 ^ (X mod 8 + 1)))) (Mask i) (VI (2 ^ ((X + 1) mod 8)))) (Ptr i) (VI ((X + 1) / 8))). destruct s as [st m t]. split; [|split; [apply upd_same|split; [rewrite upd_other by discriminate; apply upd_same|intros z A B; rewrite !upd_other by assumption; reflexivity]]].
    unfold bit_tail. go. rewrite ?HM, ?HP. go. rewrite ?HM, ?HP. cbn [as_i as_b]. rewrite Z.shiftl_mul_pow2, <- Z.pow_add_r by (try apply mod8; lia).
    pose proof (mod8 X) as B. pose proof (Z.div_mod X 8 ltac:(lia)) as D. destruct (Z.eqb_spec (2 ^ (X mod 8 + 1)) 256) as [E|E].
    - assert (X mod 8 = 7) as E7 by (change 256 with (2 ^ 8) in E; apply Z.pow_inj_r in E; lia). assert (EX : X + 1 = 0 + (X / 8 + 1) * 8) by lia. rewrite EX at 1 2. rewrite Z.div_add, Z.mod_add by lia. go. cbn [as_i as_b]. change (0 / 8) with 0. change (0 mod 8) with 0. rewrite E7.
      replace (0 + (X / 8 + 1)) with (1 + X / 8) by lia. rewrite ?HP. reflexivity.
    - assert (X mod 8 <> 7) by (intros E'; apply E; rewrite E'; reflexivity). assert (EX : X + 1 = X mod 8 + 1 + X / 8 * 8) by lia. rewrite EX at 1 2. rewrite Z.div_add, Z.mod_add by lia. rewrite (Z.mod_small (X mod 8 + 1) 8), (Z.div_small (X mod 8 + 1) 8) by lia. go. rewrite ?HP. reflexivity.
  Qed.
  Definition byte_tail (i : nat) (byte_stride : Z) : list call := if byte_stride =? 0 then [] else [Const (VI byte_stride); Load (Ptr i); Emit Add_p; Update (Ptr i); Emit Pop].
  Lemma byte_tail_exec i e s X st : e (Ptr i) = VI (X / 8) -> st mod 8 = 0 ->
    exists e', cexec (byte_tail i (st / 8)) e s = Some (e', s) /\ e' (Ptr i) = VI ((X + st) / 8) /\ same_but (Ptr i) (Mask i) e e'.
  Proof.
    intros HP H8. apply Z.mod_divide in H8; [|lia]. destruct H8 as [q ->]. rewrite Z.div_mul, Z.div_add by lia. unfold byte_tail. destruct (Z.eqb_spec q 0) as [->|Hq].
    - exists e. rewrite Z.add_0_r. split; [reflexivity|]. split; [exact HP|intros ? _ _; reflexivity].
    - exists (upd e (Ptr i) (VI (X / 8 + q))). split; [|split; [apply upd_same|intros z A B; apply upd_other; exact A]]. destruct s. go. rewrite HP. cbn [as_i]. rewrite (Z.add_comm q). reflexivity.
  Qed.

  Definition is_null (i : nat) (m : memory) (B : Z) : bool := can_be_null ls ni i && get_bit m (B + Z.of_nat i).
  (** The entry of the tuple after loading a value [v] of type [ty] *)
  Definition new_entry (ty : type) (old : val) (n : bool) (v : val) : entry :=
    if n then (match ty with TChar _ | TVarchar _ => old | _ => VNone end, true) else (v, false).
  Definition pushed (i : nat) (m : memory) (B : Z) (st : list entry) : list entry :=
    if can_be_null ls ni i then (VNone, true) :: (VB (get_bit m (B + Z.of_nat i)), false) :: st else st.

  Lemma nth_lt (t : list entry) k e0 : nth_error t k = Some e0 -> Nat.ltb k (length t) = true.
  Proof. intros H. apply Nat.ltb_lt. apply nth_error_Some. congruence. Qed.
  (** From the loaded value to the tuple *)
  Lemma sel_store i k ty e st m t B v old b0 : (k < 256)%nat -> @nth_error entry t k = Some (old, b0) ->
    (match ty with TChar n | TVarchar n => exists s, v = VS s /\ (length s <= n)%nat | _ => True end) ->
    cexec ((if can_be_null ls ni i then [Emit Sel] else []) ++ emit_St_Tup k ty ++ [Emit Pop]) e (mkState ((v, false) :: pushed i m B st) m t) =
    Some (e, mkState st m (set_nth t k (new_entry ty old (is_null i m B) v))).
  Proof.
    intros Hk Ht Hv. unfold pushed, is_null, new_entry. pose proof (nth_lt _ _ _ Ht) as Hl. destruct (can_be_null ls ni i); cbn [andb].
    - destruct (get_bit m (B + Z.of_nat i)).
      + destruct ty; unfold emit_St_Tup; rewrite (u8_small k Hk); go; cbn [as_b]; go; try rewrite Hl; go; try reflexivity; rewrite Ht; go; reflexivity.
      + destruct ty; unfold emit_St_Tup; rewrite (u8_small k Hk); go; cbn [as_b]; go; try rewrite Hl; go; try reflexivity; rewrite Ht; go; destruct Hv as (s & -> & Hs); cbn [as_s as_i]; rewrite Nat2Z.id, firstn_all2 by exact Hs; reflexivity.
    - destruct ty; unfold emit_St_Tup; rewrite (u8_small k Hk); go; try rewrite Hl; go; try reflexivity; rewrite Ht; go; destruct Hv as (s & -> & Hs); cbn [as_s as_i]; rewrite Nat2Z.id, firstn_all2 by exact Hs; reflexivity.
  Qed.
  Lemma emit_Ld_exec ty e st m t X : is_boolean ty = false -> ty <> TBitmap ->
    cexec (emit_Ld ty) e (mkState ((VI (X / 8), false) :: st) m t) = Some (e, mkState ((value_at ty m X, false) :: st) m t).
  Proof. intros B N. destruct ty; try discriminate; try contradiction; go; cbn [as_i value_at]; rewrite ?Nat2Z.id; reflexivity. Qed.
  Lemma emit_St_exec ty e st m t X v (n : bool) : is_boolean ty = false -> ty <> TBitmap ->
    cexec (emit_St ty) e (mkState ((v, n) :: (VI (X / 8), false) :: st) m t) = Some (e, mkState st (if n then m else put ty m X v) t).
  Proof.
    intros B N. destruct ty; try discriminate; try contradiction; go; cbn [as_i put]; try reflexivity; rewrite ?Nat2Z.id; try reflexivity.
    replace (Z.to_nat (Z.of_nat n0 + 1)) with (S n0) by lia. reflexivity.
  Qed.

  (** ** A leaf *)
  Definition load_leaf (B r : Z) (m : memory) (l : leaf) (t : list entry) : list entry :=
    if Nat.eqb (l_i l) nb then t
    else match slot ls ts (l_i l) with
         | None => t
         | Some k => match nth_error t k with
                     | Some (old, _) => set_nth t k (new_entry (l_t l) old (is_null (l_i l) m B) (value_at (l_t l) m (8 * base + lpos l r)))
                     | None => t
                     end
         end.
  Definition store_leaf (B r : Z) (t : list entry) (l : leaf) (m : memory) : memory :=
    if Nat.eqb (l_i l) nb then m
    else match slot ls ts (l_i l) with
         | None => m
         | Some k => match nth_error t k with
                     | Some (v, n) =>
                         let m1 := if can_be_null ls ni (l_i l) then put_bit m (B + Z.of_nat (l_i l)) n else m in
                         if n : bool then m1 else put (l_t l) m1 (8 * base + lpos l r) v
                     | None => m
                     end
         end.
  Definition own_or_null (i : nat) (x : name) : Prop := x = Ptr i \/ x = Mask i \/ x = NAddr i \/ x = NMask i.

  Lemma position_lt id l k : position id l = Some k -> (k < length l)%nat.
  Proof.
    revert k; induction l as [|x l IH]; intros k; cbn; [discriminate|]. destruct (Nat.eqb id x); [intros [= <-]; lia|]. destruct (position id l); [|discriminate]. cbn. intros [= <-]. specialize (IH _ eq_refl). lia.
  Qed.
  Lemma slot_lt i k : slot ls ts i = Some k -> (k < length ts)%nat.
  Proof. unfold slot. destruct (nth_error ls i) as [[id n]|]; [|discriminate]. apply position_lt. Qed.

  (** The code of the leaf, compiled for row [r0] *)
  Definition leaf_code (is_store : bool) (r0 : Z) (l : leaf) : list call :=
    access_leaf is_store ls ts ni (l_i l) (l_t l) (l_off l) (l_st l) (base + lbase (l_lv l) r0 / 8) (lrow (l_lv l) r0).

  (** The bit offset is the same in all rows, for strides of whole bytes. *)
  Lemma same_offset l r r0 : good_leaf nb l -> l_st l mod 8 = 0 -> (l_off l + lrow (l_lv l) r0 * l_st l) mod 8 = (8 * base + lpos l r) mod 8.
  Proof.
    intros (CH & _) H8. unfold lpos. pose proof (lbase_8 _ _ r CH) as B8. apply Z.mod_divide in B8, H8; try lia. destruct B8 as [u ->], H8 as [v ->].
    replace (l_off l + lrow (l_lv l) r0 * (v * 8)) with (l_off l + lrow (l_lv l) r0 * v * 8) by lia.
    replace (8 * base + (u * 8 + l_off l + lrow (l_lv l) r * (v * 8))) with (l_off l + (base + u + lrow (l_lv l) r * v) * 8) by lia. rewrite !Z.mod_add by lia. reflexivity.
  Qed.
  Lemma can_null i : can_be_null ls ni i = true -> exists x, ni = Some x /\ nullable ls i = true.
  Proof. unfold can_be_null. destruct ni as [x|]; [|discriminate]. eauto. Qed.
  Lemma cannot_null is_store i k : can_be_null ls ni i = false -> access_null is_store ls ni i k = [].
  Proof. unfold can_be_null, access_null. destruct ni as [x|]; [|reflexivity]. intros ->. reflexivity. Qed.

  Lemma access_bit_load i k t b : access_bit false ls ni i k t b = [Emit Ld_i8; New (Mask i) (VI (2 ^ b)); Load (Mask i); Emit And_i; Emit NEZ_i] ++ ((if can_be_null ls ni i then [Emit Sel] else []) ++ emit_St_Tup k t ++ [Emit Pop]) ++ bit_tail i.
  Proof. unfold access_bit, bit_tail. rewrite <- !app_assoc. reflexivity. Qed.
  Lemma access_bit_store i k t b : access_bit true ls ni i k t b = (ld_tup k ++ [New (Mask i) (VI (2 ^ b))] ++ [Load (Ptr i); Emit Ld_i8; Load (Mask i); Emit Or_i;
        Load (Ptr i); Emit Ld_i8; Load (Mask i); Emit Neg_i; Emit And_i; Emit Sel; Emit St_i8]) ++ bit_tail i.
  Proof. unfold access_bit, bit_tail. rewrite <- !app_assoc. reflexivity. Qed.
  Lemma load_leaf_exec l e r r0 st m t B : good_leaf nb l -> l_i l <> nb -> bytes_ok m -> (length ts <= length t)%nat -> (length ts <= 256)%nat -> null_pos e B -> at_row e r l ->
    exists e', cexec (leaf_code false r0 l) e (mkState st m t) = Some (e', mkState st m (load_leaf B r m l t)) /\
      at_bit e' l (8 * base + lpos l r + l_st l) /\ (forall x, ~ own_or_null (l_i l) x -> e' x = e x).
  Proof.
    intros GL Ni Hm Ht H256 NP AR. pose proof GL as (_ & _ & _ & _ & OK). unfold leaf_code, access_leaf, load_leaf, LoadStoreStrides.at_row, LoadStoreStrides.at_bit in *. destruct (Nat.eqb_spec (l_i l) nb) as [|_]; [contradiction|].
    destruct (slot ls ts (l_i l)) as [k|] eqn:Ek; [|exists e; split; [reflexivity|split; [congruence|auto]]].
    destruct (AR ltac:(discriminate)) as [HP HM]. clear AR. set (X := 8 * base + lpos l r) in *. pose proof (slot_lt _ _ Ek) as Hk.
    destruct (nth_error t k) as [[old b0]|] eqn:En; [|apply nth_error_None in En; lia].
    assert (NULL : cexec (access_null false ls ni (l_i l) k) e (mkState st m t) = Some (e, mkState (pushed (l_i l) m B st) m t)).
    { unfold pushed. destruct (can_be_null ls ni (l_i l)) eqn:C; [|rewrite cannot_null by exact C; reflexivity]. destruct (can_null _ C) as (x & Hx & Hn). rewrite (null_load x _ _ _ _ _ _ B Hx Hn Hm NP). reflexivity. }
    rewrite cexec_app, NULL. cbn [app cexec cstep]. unfold push. cbn [stk mem tup]. rewrite HP.
    destruct (Z.eqb_spec (l_st l mod 8) 0) as [E8|E8].
    - rewrite (same_offset l r r0 GL E8). fold X. unfold access_bytes. fold (byte_tail (l_i l) (l_st l / 8)).
      destruct (byte_tail_exec (l_i l) e (mkState st m (set_nth t k (new_entry (l_t l) old (is_null (l_i l) m B) (value_at (l_t l) m X)))) X (l_st l) HP E8) as (e' & A & P' & SB). exists e'.
      assert (V : cexec (if is_boolean (l_t l) then [Emit (Ld_b (2 ^ (X mod 8) mod 256))] else emit_Ld (l_t l)) e (mkState ((VI (X / 8), false) :: pushed (l_i l) m B st) m t) = Some (e, mkState ((value_at (l_t l) m X, false) :: pushed (l_i l) m B st) m t)).
      { destruct (is_boolean (l_t l)) eqn:IB.
        - destruct (l_t l); try discriminate. go. cbn [as_i value_at]. rewrite nez_bit by exact Hm. reflexivity.
        - apply emit_Ld_exec; [exact IB|]. intros E. unfold leaf_ok in OK. rewrite E in OK. destruct (Nat.eqb (l_i l) nb) eqn:E'; [apply Nat.eqb_eq in E'; contradiction|exact OK]. }
      rewrite cexec_app, cexec_app, V. rewrite (sel_store (l_i l) k (l_t l) e st m t B (value_at (l_t l) m X) old b0); [|lia|exact En|].
      + split; [exact A|]. split; [intros _; split; [exact P'|contradiction]|]. intros x Hx. apply SB; intros ->; apply Hx; red; auto.
      + destruct (l_t l); auto; eexists; (split; [reflexivity|apply read_str_length]).
    - assert (T : l_t l = TBool /\ l_st l = 1).
      { unfold leaf_ok in OK. destruct (Nat.eqb (l_i l) nb) eqn:E'; [apply Nat.eqb_eq in E'; contradiction|]. destruct (l_t l); try (destruct OK; contradiction); try contradiction. tauto. }
      destruct T as [T1 T2]. specialize (HM E8). rewrite T1, T2 in *. rewrite access_bit_load.
      set (ent := new_entry TBool old (is_null (l_i l) m B) (value_at TBool m X)).
      destruct (bit_tail_exec (l_i l) e (mkState st m (set_nth t k ent)) X HP HM) as (e' & A & P' & M' & SB). exists e'.
      assert (V : cexec [Emit Ld_i8; New (Mask (l_i l)) (VI (2 ^ ((l_off l + lrow (l_lv l) r0 * 1) mod 8))); Load (Mask (l_i l)); Emit And_i; Emit NEZ_i] e (mkState ((VI (X / 8), false) :: pushed (l_i l) m B st) m t) = Some (e, mkState ((value_at TBool m X, false) :: pushed (l_i l) m B st) m t)).
      { go. rewrite HM. cbn [as_i value_at]. rewrite nez_signed by exact Hm. reflexivity. }
      rewrite cexec_app, V, cexec_app. rewrite (sel_store (l_i l) k TBool e st m t B (value_at TBool m X) old b0); [|lia|exact En|exact I]. split; [exact A|].
      split; [intros _; split; [exact P'|intros _; exact M']|]. intros x Hx. apply SB; intros ->; apply Hx; red; auto.
  Qed.
  Lemma store_leaf_exec l e r r0 st m t B : good_leaf nb l -> l_i l <> nb -> bytes_ok m -> (length ts <= length t)%nat -> (length ts <= 256)%nat -> null_pos e B -> at_row e r l ->
    exists e', cexec (leaf_code true r0 l) e (mkState st m t) = Some (e', mkState st (store_leaf B r t l m) t) /\
      at_bit e' l (8 * base + lpos l r + l_st l) /\ (forall x, ~ own_or_null (l_i l) x -> e' x = e x).
  Proof.
    intros GL Ni Hm Ht H256 NP AR. pose proof GL as (_ & _ & _ & _ & OK). unfold leaf_code, access_leaf, store_leaf, LoadStoreStrides.at_row, LoadStoreStrides.at_bit in *. destruct (Nat.eqb_spec (l_i l) nb) as [|_]; [contradiction|].
    destruct (slot ls ts (l_i l)) as [k|] eqn:Ek; [|exists e; split; [reflexivity|split; [congruence|auto]]].
    destruct (AR ltac:(discriminate)) as [HP HM]. clear AR. set (X := 8 * base + lpos l r) in *. pose proof (slot_lt _ _ Ek) as Hk.
    destruct (nth_error t k) as [[v n]|] eqn:En; [|apply nth_error_None in En; lia].
    set (m1 := if can_be_null ls ni (l_i l) then put_bit m (B + Z.of_nat (l_i l)) n else m).
    assert (Hm1 : bytes_ok m1) by (unfold m1; destruct (can_be_null ls ni (l_i l)); [apply put_bit_ok|]; exact Hm).
    assert (NULL : exists e1, cexec (access_null true ls ni (l_i l) k) e (mkState st m t) = Some (e1, mkState st m1 t) /\ same_but (NAddr (l_i l)) (NMask (l_i l)) e e1).
    { unfold m1. destruct (can_be_null ls ni (l_i l)) eqn:C; [|rewrite cannot_null by exact C; exists e; split; [reflexivity|intros ? _ _; reflexivity]]. destruct (can_null _ C) as (x & Hx & Hn). apply (null_store x _ _ _ _ _ _ B v n Hx Hn Hm NP); [lia|exact En]. }
    destruct NULL as (e1 & NULL & SB1). assert (HP1 : e1 (Ptr (l_i l)) = VI (X / 8)) by (rewrite SB1 by discriminate; exact HP).
    rewrite cexec_app, NULL. cbn [app cexec cstep]. unfold push. cbn [stk mem tup]. rewrite HP1.
    destruct (Z.eqb_spec (l_st l mod 8) 0) as [E8|E8].
    - rewrite (same_offset l r r0 GL E8). fold X. unfold access_bytes. fold (byte_tail (l_i l) (l_st l / 8)).
      destruct (byte_tail_exec (l_i l) e1 (mkState st (if n then m1 else put (l_t l) m1 X v) t) X (l_st l) HP1 E8) as (e' & A & P' & SB). exists e'.
      assert (V : cexec (ld_tup k ++ if is_boolean (l_t l) then [Emit (St_b (X mod 8 mod 256))] else emit_St (l_t l)) e1 (mkState ((VI (X / 8), false) :: st) m1 t) = Some (e1, mkState st (if n then m1 else put (l_t l) m1 X v) t)).
      { unfold ld_tup. rewrite u8_small by lia. rewrite cexec_app. cbn [cexec cstep step tup option_map]. rewrite En. cbn [option_map]. destruct (is_boolean (l_t l)) eqn:IB.
        - destruct (l_t l); try discriminate. go. cbn [as_i put]. rewrite (Z.mod_small (X mod 8)) by (pose proof (mod8 X); lia). destruct n; reflexivity.
        - apply emit_St_exec; [exact IB|]. intros E. unfold leaf_ok in OK. rewrite E in OK. destruct (Nat.eqb (l_i l) nb) eqn:E'; [apply Nat.eqb_eq in E'; contradiction|exact OK]. }
      rewrite cexec_app, V.
      split; [exact A|]. split; [intros _; split; [exact P'|contradiction]|]. intros x Hx. rewrite SB, SB1; [reflexivity| | | |]; intros ->; apply Hx; red; auto.
    - assert (T : l_t l = TBool /\ l_st l = 1).
      { unfold leaf_ok in OK. destruct (Nat.eqb (l_i l) nb) eqn:E'; [apply Nat.eqb_eq in E'; contradiction|]. destruct (l_t l); try (destruct OK; contradiction); try contradiction. tauto. }
      destruct T as [T1 T2]. specialize (HM E8). rewrite T1, T2 in *. rewrite access_bit_store. assert (HM1 : e1 (Mask (l_i l)) = VI (2 ^ (X mod 8))) by (rewrite SB1 by discriminate; exact HM).
      destruct (bit_tail_exec (l_i l) e1 (mkState st (if n then m1 else put TBool m1 X v) t) X HP1 HM1) as (e' & A & P' & M' & SB). exists e'.
      rewrite cexec_app. match goal with |- context [cexec ?c e1 (mkState ((VI (X / 8), false) :: st) m1 t)] => assert (V : cexec c e1 (mkState ((VI (X / 8), false) :: st) m1 t) = Some (e1, mkState st (if n then m1 else put TBool m1 X v) t)) end.
      { unfold ld_tup. rewrite u8_small by lia. go. rewrite En. go. rewrite HP1, HM1. cbn [as_i put]. destruct n; go; [reflexivity|]. cbn [as_i]. destruct (as_b v); cbn [orb as_i write_le].
        - rewrite put_true by exact Hm1. reflexivity.
        - rewrite put_false by exact Hm1. reflexivity. }
      rewrite V. split; [exact A|].
      split; [intros _; split; [exact P'|intros _; exact M']|]. intros x Hx. rewrite SB, SB1; [reflexivity| | | |]; intros ->; apply Hx; red; auto.
  Qed.
End Access.
