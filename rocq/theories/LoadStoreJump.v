(** * C54: execution of the code that moves pointers at the end of linearizations *)
From Coq Require Import List Bool ZArith Arith Lia.
From Verif Require Import LoadStore LoadStoreSpec LoadStoreSim LoadStoreTree.
Import ListNotations.
Local Open Scope Z_scope.

Definition is_ctr (x : name) : bool := match x with Ctr _ => true | _ => false end.
Definition lvl (l : level) : nat * Z * Z := (v_id l, v_n l, v_st l).
(** Values of the counters after row [r] has been accessed. *)
Definition counted (e : env) (r : Z) (lv : list level) : Prop := forall l, In l lv -> e (Ctr (v_id l)) = VI (r mod v_n l + 1).
Definition same_but (x y : name) (e e' : env) : Prop := forall z, z <> x -> z <> y -> e' z = e z.

Lemma sub64_eq a b : 0 <= b <= a -> a < 2 ^ 64 -> sub64 a b = a - b.
Proof. intros. unfold sub64. apply Z.mod_small. lia. Qed.
Lemma fires r n : 0 < n -> ((r mod n + 1 =? n) = ((r + 1) mod n =? 0)).
Proof.
  intros Hn. pose proof (Z.mod_pos_bound r n Hn). pose proof (Z.mod_pos_bound (r + 1) n Hn). rewrite (mod_succ r n Hn).
  destruct (Z.eqb_spec ((r + 1) mod n) 0) as [E|E].
  - cbn [Z.eqb]. apply Z.eqb_eq. apply Z.mod_divide in E; [|lia]. destruct E as [k Hk]. replace r with (n - 1 + (k - 1) * n) by lia. rewrite Z.mod_add by lia. rewrite Z.mod_small; lia.
  - destruct (Z.eqb_spec (r mod n + 1) 0); [lia|]. destruct (Z.eqb_spec (r mod n + 1) n); [|reflexivity]. exfalso. apply E.
    rewrite (Z.div_mod r n) by lia. replace (n * (r / n) + r mod n + 1) with ((r / n + 1) * n) by lia. apply Z.mod_mul; lia.
Qed.
Lemma fires_1 r : (r + 1) mod 1 =? 0 = true.
Proof. rewrite Z.mod_1_r. reflexivity. Qed.

Ltac eqs := cbn -[upd Z.modulo Z.eqb Z.pow Z.mul Z.add]; match goal with |- Some (upd ?e ?x (VI ?a), ?s) = Some (upd ?e ?x (VI ?b), ?s) => replace a with b by lia; reflexivity end.
Lemma advance_exec x c n bytes e s p r : e x = VI p -> is_ctr x = false -> 0 < n -> e (Ctr c) = VI (r mod n + 1) ->
  exists e', cexec (advance_ptr x c n bytes) e s = Some (e', s) /\ e' x = VI (p + if (r + 1) mod n =? 0 then bytes else 0) /\ same_but x x e e'.
Proof.
  intros Hp Hx Hn Hc. exists (upd e x (VI (p + if (r + 1) mod n =? 0 then bytes else 0))). split; [|split; [apply upd_same|intros z A _; apply upd_other; exact A]].
  destruct s as [st m t]. unfold advance_ptr. destruct (Z.eqb_spec n 1) as [->|N1].
  - cbn -[upd Z.modulo Z.eqb Z.add Z.mul]. rewrite Hp. cbn -[upd Z.modulo Z.eqb Z.add Z.mul]. rewrite fires_1. eqs.
  - cbn -[upd Z.modulo Z.eqb Z.add Z.mul]. rewrite Hc, Hp. cbn -[upd Z.modulo Z.eqb Z.add Z.mul]. rewrite fires by assumption. destruct ((r + 1) mod n =? 0); eqs.
Qed.

Lemma jumps_aligned ls i x r lv : is_ctr x = false -> forall pn ps e s p, chain pn lv -> room pn ps lv -> ps mod 8 = 0 -> counted e r lv -> e x = VI p ->
  exists e', cexec (jumps ls i x pn ps (map lvl lv)) e s = Some (e', s) /\ jump_sum pn ps lv r mod 8 = 0 /\ e' x = VI (p + jump_sum pn ps lv r / 8) /\ same_but x x e e'.
Proof.
  intros Hx. induction lv as [|l lv IH]; intros pn ps e s p CH RO P8 CO Hp; cbn [map jumps jump_sum].
  - exists e. cbn. split; [reflexivity|]. split; [reflexivity|]. split; [rewrite Z.add_0_r; exact Hp|]. intros z _ _; reflexivity.
  - unfold lvl at 1. cbn [chain room] in CH, RO. destruct CH as (Hk & Hm & _ & _ & Hb & Hs & HC). destruct RO as [R1 R2]. rewrite sub64_eq by lia. pose proof (chain_pos _ _ HC) as Hn.
    set (rem := v_st l - v_n l / pn * ps) in *. assert (R8 : rem mod 8 = 0).
    { unfold rem. apply Z.mod_divide in P8, Hs; try lia. apply Z.mod_divide; [lia|]. apply Z.divide_sub_r; [exact Hs|apply Z.divide_mul_r; exact P8]. }
    assert (STEP : exists e1, cexec (if rem =? 0 then [] else if rem mod 8 =? 0 then advance_ptr x (v_id l) (v_n l) (rem / 8) else (if (i =? length ls)%nat then reset_null (v_id l) (v_n l) else reset_mask i (v_id l) (v_n l)) ++ advance_ptr x (v_id l) (v_n l) (rem / 8 + 1)) e s = Some (e1, s) /\
       e1 x = VI (p + (if (r + 1) mod v_n l =? 0 then rem else 0) / 8) /\ same_but x x e e1).
    { destruct (Z.eqb_spec rem 0) as [E0|E0].
      - exists e. split; [reflexivity|]. split; [rewrite E0, Hp; destruct (_ =? _); cbn; rewrite Z.add_0_r; reflexivity|intros z _ _; reflexivity].
      - rewrite R8, Z.eqb_refl. destruct (advance_exec x (v_id l) (v_n l) (rem / 8) e s p r Hp Hx Hn (CO l (or_introl eq_refl))) as (e1 & A & B & C). exists e1. split; [exact A|]. split; [|exact C].
        rewrite B. repeat f_equal. destruct (_ =? _); reflexivity. }
    destruct STEP as (e1 & A & B & C).
    assert (CO1 : counted e1 r lv) by (intros l' Hl'; rewrite C; [apply CO; right; exact Hl'| |]; intros E; rewrite <- E in Hx; discriminate).
    destruct (IH (v_n l) (v_st l) e1 s _ HC R2 Hs CO1 B) as (e2 & A2 & M2 & B2 & C2).
    exists e2. rewrite cexec_app, A. split; [exact A2|]. assert (F8 : (if (r + 1) mod v_n l =? 0 then rem else 0) mod 8 = 0) by (destruct ((r + 1) mod v_n l =? 0); [exact R8|reflexivity]). split.
    + rewrite Z.add_mod, M2, F8 by lia. reflexivity.
    + split; [|intros z A' B'; rewrite C2, C by assumption; reflexivity]. rewrite B2. f_equal. rewrite <- Z.add_assoc. f_equal.
      apply Z.mod_divide in F8; [|lia]. destruct F8 as [q Hq]. rewrite Hq, Z.div_mul by lia. rewrite (Z.add_comm (q * 8)), Z.div_add by lia. lia.
Qed.

(** ** Booleans with a stride of one bit *)
Lemma reset_mask_exec i c n e s b r : e (Mask i) = VI (2 ^ b) -> 0 < n -> e (Ctr c) = VI (r mod n + 1) ->
  exists e', cexec (reset_mask i c n) e s = Some (e', s) /\ e' (Mask i) = VI (2 ^ if (r + 1) mod n =? 0 then 0 else b) /\ same_but (Mask i) (Mask i) e e'.
Proof.
  intros Hb Hn Hc. exists (upd e (Mask i) (VI (2 ^ if (r + 1) mod n =? 0 then 0 else b))). split; [|split; [apply upd_same|intros z A _; apply upd_other; exact A]].
  destruct s as [st m t]. unfold reset_mask. destruct (Z.eqb_spec n 1) as [->|N1].
  - rewrite fires_1. reflexivity.
  - cbn -[upd Z.modulo Z.eqb Z.pow Z.add Z.mul]. rewrite Hc, Hb. cbn -[upd Z.modulo Z.eqb Z.pow Z.add Z.mul]. rewrite fires by assumption. destruct ((r + 1) mod n =? 0); reflexivity.
Qed.
Lemma jumps_bit ls i r lv e s p b : i <> length ls -> chain 1 lv -> room 1 1 lv -> counted e r lv ->
  e (Ptr i) = VI p -> e (Mask i) = VI (2 ^ b) -> 0 <= b < 8 ->
  (lv <> [] -> (r + 1) mod top lv = 0 -> top lv mod 8 <> 0 -> (b - top lv) mod 8 = 0) ->
  exists e' p' b', cexec (jumps ls i (Ptr i) 1 1 (map lvl lv)) e s = Some (e', s) /\ e' (Ptr i) = VI p' /\ e' (Mask i) = VI (2 ^ b') /\ 0 <= b' < 8 /\
    8 * p' + b' = 8 * p + b + jump_sum 1 1 lv r /\ same_but (Ptr i) (Mask i) e e'.
Proof.
  intros Hi CH RO CO Hp Hb Hb8 AL. destruct lv as [|l lv].
  - exists e, p, b. cbn. split; [reflexivity|]. split; [exact Hp|]. split; [exact Hb|]. split; [exact Hb8|]. split; [lia|intros z _ _; reflexivity].
  - cbn [map jumps jump_sum]. unfold lvl at 1. cbn [chain room top] in *. destruct CH as (_ & _ & _ & _ & Hst & Hs & HC). destruct RO as [R1 R2]. rewrite Z.div_1_r, Z.mul_1_r in *. rewrite sub64_eq by lia. pose proof (chain_pos _ _ HC) as Hn.
    specialize (AL ltac:(discriminate)). set (rem := v_st l - v_n l) in *.
    assert (STEP : exists e1 p1 b1, cexec (if rem =? 0 then [] else if rem mod 8 =? 0 then advance_ptr (Ptr i) (v_id l) (v_n l) (rem / 8) else (if (i =? length ls)%nat then reset_null (v_id l) (v_n l) else reset_mask i (v_id l) (v_n l)) ++ advance_ptr (Ptr i) (v_id l) (v_n l) (rem / 8 + 1)) e s = Some (e1, s) /\
       e1 (Ptr i) = VI p1 /\ e1 (Mask i) = VI (2 ^ b1) /\ 0 <= b1 < 8 /\ 8 * p1 + b1 = 8 * p + b + (if (r + 1) mod v_n l =? 0 then rem else 0) /\ same_but (Ptr i) (Mask i) e e1).
    { destruct (Z.eqb_spec rem 0) as [E0|E0].
      - exists e, p, b. split; [reflexivity|]. split; [exact Hp|]. split; [exact Hb|]. split; [exact Hb8|]. split; [rewrite E0; destruct (_ =? _); lia|intros z _ _; reflexivity].
      - destruct (Z.eqb_spec (rem mod 8) 0) as [E8|E8].
        + destruct (advance_exec (Ptr i) (v_id l) (v_n l) (rem / 8) e s p r Hp eq_refl Hn (CO l (or_introl eq_refl))) as (e1 & A & B & C). exists e1. eexists. exists b. split; [exact A|]. split; [exact B|].
          split; [rewrite C by discriminate; exact Hb|]. split; [exact Hb8|]. split; [|intros z A' B'; apply C; assumption]. pose proof (Z.div_mod rem 8 ltac:(lia)). destruct (_ =? _); lia.
        + destruct (Nat.eqb_spec i (length ls)); [congruence|].
          destruct (reset_mask_exec i (v_id l) (v_n l) e s b r Hb Hn (CO l (or_introl eq_refl))) as (e0 & A0 & B0 & C0).
          destruct (advance_exec (Ptr i) (v_id l) (v_n l) (rem / 8 + 1) e0 s p r) as (e1 & A & B & C); auto.
          { rewrite C0 by discriminate. exact Hp. } { rewrite C0 by discriminate. apply CO. left; reflexivity. }
          exists e1. eexists. eexists. rewrite cexec_app, A0. split; [exact A|]. split; [exact B|]. split; [rewrite C by discriminate; exact B0|]. 
          assert (N8 : v_n l mod 8 <> 0).
          { intros E. apply E8. unfold rem. apply Z.mod_divide in E, Hs; try lia. apply Z.mod_divide; [lia|]. apply Z.divide_sub_r; assumption. }
          destruct (Z.eqb_spec ((r + 1) mod v_n l) 0) as [F|F].
          * split; [lia|]. split; [|intros z A' B'; rewrite C, C0 by assumption; reflexivity]. specialize (AL F N8).
            assert (T : (b + rem) mod 8 = 0).
            { unfold rem. apply Z.mod_divide in AL, Hs; try lia. apply Z.mod_divide; [lia|]. replace (b + (v_st l - v_n l)) with ((b - v_n l) + v_st l) by lia. apply Z.divide_add_r; assumption. }
            pose proof (Z.div_mod rem 8 ltac:(lia)) as D1. pose proof (Z.mod_pos_bound rem 8 ltac:(lia)). apply Z.mod_divide in T; [|lia]. destruct T as [q Hq]. lia.
          * split; [exact Hb8|]. split; [lia|]. intros z A' B'; rewrite C, C0 by assumption; reflexivity. }
    destruct STEP as (e1 & p1 & b1 & A & B & B' & Hb1 & X & C).
    assert (CO1 : counted e1 r lv) by (intros l' Hl'; rewrite C; [apply CO; right; exact Hl'|discriminate|discriminate]).
    destruct (jumps_aligned ls i (Ptr i) r lv eq_refl (v_n l) (v_st l) e1 s p1 HC R2 Hs CO1 B) as (e2 & A2 & M2 & B2 & C2).
    exists e2. eexists. exists b1. rewrite cexec_app, A. split; [exact A2|]. split; [exact B2|]. split; [rewrite C2 by discriminate; exact B'|]. split; [exact Hb1|]. split.
    + pose proof (Z.div_mod (jump_sum (v_n l) (v_st l) lv r) 8 ltac:(lia)). lia.
    + intros z Z1 Z2. rewrite C2, C by assumption. reflexivity.
Qed.

(** ** The NULL bitmap with stride *)
Lemma reset_null_exec c n e s o r : e NullOfs = VI o -> 0 < n -> e (Ctr c) = VI (r mod n + 1) ->
  exists e', cexec (reset_null c n) e s = Some (e', s) /\ e' NullOfs = VI (if (r + 1) mod n =? 0 then 0 else o) /\ same_but NullOfs NullOfs e e'.
Proof.
  intros Hb Hn Hc. exists (upd e NullOfs (VI (if (r + 1) mod n =? 0 then 0 else o))). split; [|split; [apply upd_same|intros z A _; apply upd_other; exact A]].
  destruct s as [st m t]. unfold reset_null. destruct (Z.eqb_spec n 1) as [->|N1].
  - rewrite fires_1. cbn -[upd Z.modulo Z.eqb Z.add Z.mul]. rewrite Z.mul_0_l. reflexivity.
  - cbn -[upd Z.modulo Z.eqb Z.add Z.mul]. rewrite Hc, Hb. cbn -[upd Z.modulo Z.eqb Z.add Z.mul]. rewrite fires by assumption. destruct ((r + 1) mod n =? 0); eqs.
Qed.
(** Before the jumps, [X] is the position after the stride of the bitmap. *)
Lemma jumps_null ls r lv e s p o st X : 0 < st -> chain 1 lv -> room 1 st lv -> counted e r lv ->
  e NullP = VI p -> e NullOfs = VI o -> 0 <= o ->
  (if match lv with [] => false | _ => (r + 1) mod top lv =? 0 end then p = X / 8 /\ o = 0 /\ (X - top lv * st) mod 8 = 0 else 8 * p + o = X) ->
  exists e' p' o', cexec (jumps ls (length ls) NullP 1 st (map lvl lv)) e s = Some (e', s) /\ e' NullP = VI p' /\ e' NullOfs = VI o' /\ 0 <= o' /\
    8 * p' + o' = X + jump_sum 1 st lv r /\ same_but NullP NullOfs e e'.
Proof.
  intros Hst CH RO CO Hp Ho Ho0 AL. destruct lv as [|l lv].
  - exists e, p, o. cbn in *. split; [reflexivity|]. split; [exact Hp|]. split; [exact Ho|]. split; [exact Ho0|]. split; [lia|intros z _ _; reflexivity].
  - cbn [map jumps jump_sum]. unfold lvl at 1. cbn [chain room top] in *. destruct CH as (_ & _ & _ & _ & Hb & Hs & HC). destruct RO as [R1 R2]. rewrite Z.div_1_r in *. rewrite sub64_eq by lia. pose proof (chain_pos _ _ HC) as Hn.
    set (rem := v_st l - v_n l * st) in *.
    assert (STEP : exists e1 p1 o1, cexec (if rem =? 0 then [] else if rem mod 8 =? 0 then advance_ptr NullP (v_id l) (v_n l) (rem / 8) else (if (length ls =? length ls)%nat then reset_null (v_id l) (v_n l) else reset_mask (length ls) (v_id l) (v_n l)) ++ advance_ptr NullP (v_id l) (v_n l) (rem / 8 + 1)) e s = Some (e1, s) /\
       e1 NullP = VI p1 /\ e1 NullOfs = VI o1 /\ 0 <= o1 /\ 8 * p1 + o1 = X + (if (r + 1) mod v_n l =? 0 then rem else 0) /\ same_but NullP NullOfs e e1).
    { assert (S8 : (X - v_n l * st) mod 8 = 0 -> (X + rem) mod 8 = 0).
      { intros E. unfold rem. apply Z.mod_divide in E, Hs; try lia. apply Z.mod_divide; [lia|]. replace (X + (v_st l - v_n l * st)) with ((X - v_n l * st) + v_st l) by lia. apply Z.divide_add_r; assumption. }
      pose proof (Z.div_mod X 8 ltac:(lia)) as DX. pose proof (Z.mod_pos_bound X 8 ltac:(lia)) as BX. pose proof (Z.div_mod rem 8 ltac:(lia)) as DR. pose proof (Z.mod_pos_bound rem 8 ltac:(lia)) as BR.
      destruct (Z.eqb_spec rem 0) as [E0|E0].
      - exists e, p, o. split; [reflexivity|]. split; [exact Hp|]. split; [exact Ho|]. split; [exact Ho0|]. split; [|intros z _ _; reflexivity].
        destruct (Z.eqb_spec ((r + 1) mod v_n l) 0); [|lia]. destruct AL as (A1 & A2 & A3). apply S8 in A3. rewrite E0, Z.add_0_r in *. lia.
      - destruct (Z.eqb_spec (rem mod 8) 0) as [E8|E8].
        + destruct (advance_exec NullP (v_id l) (v_n l) (rem / 8) e s p r Hp eq_refl Hn (CO l (or_introl eq_refl))) as (e1 & A & B & C). exists e1. eexists. exists o. split; [exact A|]. split; [exact B|].
          split; [rewrite C by discriminate; exact Ho|]. split; [exact Ho0|]. split; [|intros z A' B'; apply C; assumption]. destruct (Z.eqb_spec ((r + 1) mod v_n l) 0); [|lia].
          destruct AL as (A1 & A2 & A3). apply S8 in A3. apply Z.mod_divide in A3; [|lia]. destruct A3 as [q Hq]. lia.
        + rewrite Nat.eqb_refl. destruct (reset_null_exec (v_id l) (v_n l) e s o r Ho Hn (CO l (or_introl eq_refl))) as (e0 & A0 & B0 & C0).
          destruct (advance_exec NullP (v_id l) (v_n l) (rem / 8 + 1) e0 s p r) as (e1 & A & B & C); auto.
          { rewrite C0 by discriminate. exact Hp. } { rewrite C0 by discriminate. apply CO. left; reflexivity. }
          exists e1. eexists. eexists. rewrite cexec_app, A0. split; [exact A|]. split; [exact B|]. split; [rewrite C by discriminate; exact B0|].
          destruct (Z.eqb_spec ((r + 1) mod v_n l) 0) as [F|F].
          * split; [lia|]. split; [|intros z A' B'; rewrite C, C0 by assumption; reflexivity]. destruct AL as (A1 & A2 & A3). apply S8 in A3. apply Z.mod_divide in A3; [|lia]. destruct A3 as [q Hq]. lia.
          * split; [exact Ho0|]. split; [lia|]. intros z A' B'; rewrite C, C0 by assumption; reflexivity. }
    destruct STEP as (e1 & p1 & o1 & A & B & B' & Hb1 & XX & C).
    assert (CO1 : counted e1 r lv) by (intros l' Hl'; rewrite C; [apply CO; right; exact Hl'|discriminate|discriminate]).
    destruct (jumps_aligned ls (length ls) NullP r lv eq_refl (v_n l) (v_st l) e1 s p1 HC R2 Hs CO1 B) as (e2 & A2 & M2 & B2 & C2).
    exists e2. eexists. exists o1. rewrite cexec_app, A. split; [exact A2|]. split; [exact B2|]. split; [rewrite C2 by discriminate; exact B'|]. split; [exact Hb1|]. split.
    + pose proof (Z.div_mod (jump_sum (v_n l) (v_st l) lv r) 8 ltac:(lia)). lia.
    + intros z Z1 Z2. rewrite C2, C by assumption. reflexivity.
Qed.
