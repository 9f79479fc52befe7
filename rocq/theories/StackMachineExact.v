(** * C31: exactly when the evaluation of a compiled expression fails *)
From Coq Require Import List Bool ZArith QArith Lia.
From Verif Require Import StackMachine StackMachineProps.
Import ListNotations.
Local Open Scope Z_scope.

(** ** Specification: the stored representation of the value of every subexpression, computed with unbounded integers.
    The representation of a decimal of scale [s] is its [10^s]-fold; a NULL carries a representation as well, namely the one computed from
    the representations of the operands. *)
Definition shift (from to : nat) (x : Z) : Z := x * 10 ^ Z.of_nat (to - from).
Definition arith_rep (o : aop) (sl sr : nat) (x y : Z) : Z :=
  let s := Nat.max sl sr in
  match o with
  | APlus => shift sl s x + shift sr s y
  | AMinus => shift sl s x - shift sr s y
  | AMul => Z.quot (x * y) (10 ^ Z.of_nat (sl + sr - s))
  | ADiv => Z.quot (x * 10 ^ Z.of_nat (s + sr - sl)) y
  | AMod => Z.rem x y
  end.
Definition is_null_value (v : sval) : bool := match v with SNull => true | _ => false end.
Fixpoint rep (ts : list (list (val * bool))) (e : expr) : val * bool :=
  let i a := as_i (fst (rep ts a)) in
  let b a := as_b (fst (rep ts a)) in
  let n a := snd (rep ts a) in
  let k a := denote TBool (rep ts a) in
  match e with
  | EAttr t c _ => match nth_error ts t with Some tup => match nth_error tup c with Some x => x | None => (VNone, true) end | None => (VNone, true) end
  | EConst v _ => (v, false)
  | ENull => (VNone, true)
  | EIsNull a => (VB (n a), false)
  | ECastInt a => match type_of a with Some TBool => (VI (if b a then 1 else 0), n a) | _ => rep ts a end
  | EPos a => rep ts a
  | ENeg a => (VI (- i a), n a)
  | ETilde a => (VI (- i a - 1), n a)
  | ENot a => (VB (negb (b a)), n a)
  | EArith o l r => (VI (arith_rep o (scale_of (type_of l)) (scale_of (type_of r)) (i l) (i r)), n l || n r)
  | ECmp o l r =>
      (match type_of l with
       | Some TBool => VB (match o with CEq => eqb (b l) (b r) | _ => negb (eqb (b l) (b r)) end)
       | _ => let sl := scale_of (type_of l) in let sr := scale_of (type_of r) in
              VB (by_order o (Z.compare (shift sl (Nat.max sl sr) (i l)) (shift sr (Nat.max sl sr) (i r))))
       end, n l || n r)
  | EAnd l r => (VB (b l && b r), is_null_value (k_and (k l) (k r)))
  | EOr l r => (VB (b l || b r), is_null_value (k_or (k l) (k r)))
  end.
(** Everything computed on the way fits into 64 bits, and no divisor is zero. *)
Definition int64 (z : Z) : bool := (- 9223372036854775808 <=? z) && (z <=? 9223372036854775807).
Definition shift_fits (from to : nat) (x : Z) : bool := Nat.eqb from to || int64 (shift from to x).
Fixpoint fits (ts : list (list (val * bool))) (e : expr) : bool :=
  let i a := as_i (fst (rep ts a)) in
  match e with
  | EAttr _ _ _ | EConst _ _ | ENull => true
  | EIsNull a | ECastInt a | EPos a | ETilde a | ENot a => fits ts a
  | ENeg a => fits ts a && int64 (- i a)
  | EAnd l r | EOr l r => fits ts l && fits ts r
  | ECmp _ l r =>
      let sl := scale_of (type_of l) in let sr := scale_of (type_of r) in let s := Nat.max sl sr in
      fits ts l && fits ts r && shift_fits sl s (i l) && shift_fits sr s (i r)
  | EArith o l r =>
      let sl := scale_of (type_of l) in let sr := scale_of (type_of r) in let s := Nat.max sl sr in
      fits ts l && fits ts r &&
      match o with
      | APlus | AMinus => shift_fits sl s (i l) && shift_fits sr s (i r) && int64 (arith_rep o sl sr (i l) (i r))
      | AMul => int64 (i l * i r)
      | ADiv => (Nat.eqb (s + sr) sl || int64 (i l * 10 ^ Z.of_nat (s + sr - sl))) && negb (i r =? 0) && int64 (arith_rep o sl sr (i l) (i r))
      | AMod => negb (i r =? 0) && int64 (Z.quot (i l) (i r))
      end
  end.

(** ** Proof *)
Lemma in64_int64 z : in64 z = int64 z.
Proof. unfold in64, int64. change (2 ^ 63) with 9223372036854775808. f_equal. destruct (Z.ltb_spec z 9223372036854775808), (Z.leb_spec z 9223372036854775807); lia. Qed.
Section Exact.
Variable ts : list (list (val * bool)).
Definition Ex (m m' : sm) (r : val * bool) (f : bool) : Prop := Good ts (f = false) m m' (fun x => x = r /\ f = true).
Lemma ex_eq m m' r f r' f' : Ex m m' r f -> r = r' -> f = f' -> Ex m m' r' f'. Proof. intros H <- <-. exact H. Qed.
Lemma ex_load m v : Ex m (add_load v m) (v, false) true.
Proof. eapply good_weaken; [|intros r Hr|apply good_load]; [intros []|auto]. Qed.
Lemma ex_unary m m1 m' o a fa c fc : Ex m m1 a fa -> ops m' = ops m1 ++ [mkI o []] -> ctx m' = ctx m1 -> req m1 <= req m' -> cur m1 <= cur m' ->
  (forall cap cx st, step cap cx ts (mkI o []) (a :: st) = if fc : bool then Ok (c :: st) else Trap) -> Ex m m' c (fa && fc).
Proof.
  intros G E1 E2 E3 E4 H. unfold Ex in *. eapply (good_unary ts (fa && fc = false) m m1 m' o (fun x => x = a /\ fa = true)); eauto.
  - eapply good_weaken; [|intros r Hr; exact Hr|exact G]. intros ->. reflexivity.
  - intros cap cx st r [-> ->]. rewrite H. destruct fc; [left; eauto|right; auto].
Qed.
Lemma ex_binary m m1 m2 m' o a fa b fb c fc : Ex m m1 a fa -> Ex m1 m2 b fb -> ops m' = ops m2 ++ [mkI o []] -> ctx m' = ctx m2 -> req m2 <= req m' -> cur m2 - 1 <= cur m' ->
  (forall cap cx st, step cap cx ts (mkI o []) (b :: a :: st) = if fc : bool then Ok (c :: st) else Trap) -> Ex m m' c (fa && fb && fc).
Proof.
  intros G G' E1 E2 E3 E4 H. unfold Ex in *. eapply (good_binary ts (fa && fb && fc = false) m m1 m2 m' o (fun x => x = a /\ fa = true) (fun x => x = b /\ fb = true)); eauto.
  - eapply good_weaken; [|intros r Hr; exact Hr|exact G]. intros ->. reflexivity.
  - eapply good_weaken; [|intros r Hr; exact Hr|exact G']. intros ->. rewrite andb_false_r. reflexivity.
  - intros cap cx st r r' [-> ->] [-> ->]. rewrite H. destruct fc; [left; eauto|right; auto].
Qed.
Lemma step_mul cap cx st a n b n' : step cap cx ts (mkI Mul_i []) ((b, n') :: (a, n) :: st) = if int64 (as_i a * as_i b) then Ok ((VI (as_i a * as_i b), n || n') :: st) else Trap.
Proof. cbn [step code args binary]. unfold arith. rewrite in64_int64. destruct (int64 (as_i a * as_i b)); reflexivity. Qed.
Lemma step_div cap cx st a n b n' : step cap cx ts (mkI Div_i []) ((b, n') :: (a, n) :: st) =
  if negb (as_i b =? 0) && int64 (Z.quot (as_i a) (as_i b)) then Ok ((VI (Z.quot (as_i a) (as_i b)), n || n') :: st) else Trap.
Proof. cbn [step code args binary]. unfold divide. rewrite in64_int64. destruct (as_i b =? 0), (int64 (Z.quot (as_i a) (as_i b))); reflexivity. Qed.
Lemma step_mod cap cx st a n b n' : step cap cx ts (mkI Mod_i []) ((b, n') :: (a, n) :: st) =
  if negb (as_i b =? 0) && int64 (Z.quot (as_i a) (as_i b)) then Ok ((VI (Z.rem (as_i a) (as_i b)), n || n') :: st) else Trap.
Proof. cbn [step code args binary]. unfold divide. rewrite in64_int64. destruct (as_i b =? 0), (int64 (Z.quot (as_i a) (as_i b))); reflexivity. Qed.
(** rescaling: the representation is shifted; if nothing is emitted the value on the stack is the old one *)
Definition rescaled (from to : nat) (r : val * bool) : val * bool := if Nat.eqb from to then r else (VI (shift from to (as_i (fst r))), snd r).
Lemma rescaled_i from to r : (from <= to)%nat -> as_i (fst (rescaled from to r)) = shift from to (as_i (fst r)).
Proof. intros H. unfold rescaled, shift. destruct (Nat.eqb_spec from to) as [->|]; [|reflexivity]. rewrite Nat.sub_diag. cbn. lia. Qed.
Lemma rescaled_n from to r : snd (rescaled from to r) = snd r.
Proof. unfold rescaled. destruct (Nat.eqb from to); reflexivity. Qed.
Lemma ex_scale m m1 sl s r f : (sl <= s)%nat -> (s <= 18)%nat -> Ex m m1 r f -> Ex m (c_scale sl s m1) (rescaled sl s r) (f && shift_fits sl s (as_i (fst r))).
Proof.
  intros L1 L2 G. unfold c_scale, rescaled, shift_fits. destruct (Nat.eqb_spec sl s) as [->|N].
  - rewrite (proj2 (Nat.ltb_ge s s)) by lia. eapply ex_eq; [exact G|reflexivity|]. rewrite andb_true_r. reflexivity.
  - replace (Nat.ltb sl s) with true by (symmetry; apply Nat.ltb_lt; lia). cbn [orb]. destruct r as [v n]. cbn [fst snd]. rewrite <- (andb_true_r f).
    eapply (ex_binary _ _ _ _ Mul_i _ _ _ _ _ _ G (ex_load _ _)); try (emitted; fail).
    intros cap cx st. rewrite step_mul. cbn [as_i]. unfold shift. rewrite pow10_small by lia. rewrite orb_false_r. reflexivity.
Qed.
Lemma null_and a n b n' : ((as_b a || n) && (as_b b || n') && (n || n'))%bool = is_null_value (k_and (denote TBool (a, n)) (denote TBool (b, n'))).
Proof. unfold denote. cbn [fst snd]. destruct n, n', (as_b a), (as_b b); reflexivity. Qed.
Lemma null_or a n b n' : ((negb (as_b a) || n) && (negb (as_b b) || n') && (n || n'))%bool = is_null_value (k_or (denote TBool (a, n)) (denote TBool (b, n'))).
Proof. unfold denote. cbn [fst snd]. destruct n, n', (as_b a), (as_b b); reflexivity. Qed.
Lemma quot_int64 z n : int64 z = true -> int64 (Z.quot z (10 ^ Z.of_nat n)) = true.
Proof.
  unfold int64. intros H. apply andb_prop in H. destruct H as [H1 H2]. apply Z.leb_le in H1, H2. apply andb_true_intro.
  pose proof (p10_pos n) as P. pose proof (Z.quot_abs z (10 ^ Z.of_nat n) ltac:(lia)) as A. assert (Z.abs (Z.quot z (10 ^ Z.of_nat n)) <= Z.abs z).
  { rewrite <- A. rewrite (Z.abs_eq (10 ^ _)) by lia. apply Z.quot_le_upper_bound; [lia|]. nia. }
  assert (B : 0 <= Z.abs z - Z.abs (Z.quot z (10 ^ Z.of_nat n))) by lia. clear A.
  destruct (Z.le_gt_cases 0 z).
  - pose proof (Z.quot_pos z (10 ^ Z.of_nat n) ltac:(lia) P). split; apply Z.leb_le; lia.
  - assert (Z.quot z (10 ^ Z.of_nat n) <= 0). { rewrite <- (Z.opp_involutive z), Z.quot_opp_l by lia. pose proof (Z.quot_pos (- z) (10 ^ Z.of_nat n) ltac:(lia) P). lia. }
    split; apply Z.leb_le; lia.
Qed.
Lemma compile_exact e : forall t m, type_of e = Some t -> indices_small e -> slots_present ts e -> scales_ok e -> Ex m (compile e m) (rep ts e) (fits ts e).
Proof.
  induction e as [tp c t0|v t0| |a IH|a IH|a IH|a IH|a IH|a IH|o l IHl r IHr|o l IHl r IHr|l IHl r IHr|l IHl r IHr]; intros t m Ht Hi Hp Hs;
    cbn [compile rep fits]; cbn [indices_small slots_present] in Hi, Hp.
  - destruct Hp as [tup [x [E1 E2]]]. destruct Hi as [I1 I2]. rewrite E1, E2. eapply good_weaken; [|intros r Hr|exact (good_attr ts m tp c tup x I1 I2 E1 E2)]; [intros []|auto].
  - apply ex_load.
  - unfold Ex, emit_op. cbn [delta map]. constructor; cbn [ops ctx req cur]; [lia|lia|].
    exists [mkI Push_Null []], []. split; [reflexivity|]. split; [symmetry; apply app_nil_r|].
    intros cap cx st k' H1 -> H3 H4. left. exists (VNone, true). split; [|auto].
    cbn [exec step code args]. unfold push. replace (Z.of_nat (length st) <? cap) with true by (symmetry; apply Z.ltb_lt; lia). reflexivity.
  - cbn [type_of scales_ok] in *. destruct (type_of a) as [ta|] eqn:Ea; [|discriminate].
    eapply ex_eq; [eapply (ex_unary _ _ _ Is_Null _ _ _ true (IH _ m eq_refl Hi Hp Hs))|reflexivity|apply andb_true_r]; try (emitted; fail).
    intros cap cx st. destruct (rep ts a) as [w n]. reflexivity.
  - cbn [type_of scales_ok] in *. destruct (type_of a) as [[| |k s|]|] eqn:Ea; try discriminate; [|exact (IH _ m eq_refl Hi Hp Hs)].
    eapply ex_eq; [eapply (ex_unary _ _ _ Cast_i_b _ _ _ true (IH _ m eq_refl Hi Hp Hs))|reflexivity|apply andb_true_r]; try (emitted; fail).
    intros cap cx st. destruct (rep ts a) as [w n]. reflexivity.
  - cbn [type_of scales_ok] in *. destruct (type_of a) as [[| |k s|]|] eqn:Ea; try discriminate. exact (IH _ m eq_refl Hi Hp Hs).
  - cbn [type_of scales_ok] in *. destruct (type_of a) as [[| |k s|]|] eqn:Ea; try discriminate.
    eapply (ex_unary _ _ _ Minus_i _ _ _ _ (IH _ m eq_refl Hi Hp Hs)); try (emitted; fail).
    intros cap cx st. destruct (rep ts a) as [w n]. cbn [step code args unary fst snd]. cbv zeta. rewrite in64_int64. destruct (int64 (- as_i w)); reflexivity.
  - cbn [type_of scales_ok] in *. destruct (type_of a) as [[| |k s|]|] eqn:Ea; try discriminate.
    eapply ex_eq; [eapply (ex_unary _ _ _ Neg_i _ _ _ true (IH _ m eq_refl Hi Hp Hs))|reflexivity|apply andb_true_r]; try (emitted; fail).
    intros cap cx st. destruct (rep ts a) as [w n]. reflexivity.
  - cbn [type_of scales_ok] in *. destruct (type_of a) as [[| |k s|]|] eqn:Ea; try discriminate.
    eapply ex_eq; [eapply (ex_unary _ _ _ Not_b _ _ _ true (IH _ m eq_refl Hi Hp Hs))|reflexivity|apply andb_true_r]; try (emitted; fail).
    intros cap cx st. destruct (rep ts a) as [w n]. reflexivity.
  - (* arithmetic *)
    assert (Hst : scale_of (type_of (EArith o l r)) = Nat.max (scale_of (type_of l)) (scale_of (type_of r))).
    { cbn [type_of] in *. destruct (type_of l) as [tl|] eqn:El; [|discriminate]. destruct (type_of r) as [tr|] eqn:Er; [|discriminate]. rewrite Ht. destruct (num_join_num _ _ _ Ht) as [k [s ->]]. destruct (type_arith _ _ _ _ Ht) as [k1 [s1 [k2 [s2 [-> [-> [-> _]]]]]]]. reflexivity. }
    rewrite Hst. clear Hst. cbn [type_of scales_ok] in *. destruct (type_of l) as [tl|] eqn:El; [|discriminate]. destruct (type_of r) as [tr|] eqn:Er; [|discriminate].
    destruct Hs as [Hsl [Hsr [Hm Ho]]]. destruct Hi as [Hil Hir]. destruct Hp as [Hpl Hpr].
    assert (Gl : forall m, Ex m (compile l m) (rep ts l) (fits ts l)) by (intros m0; exact (IHl _ m0 eq_refl Hil Hpl Hsl)).
    assert (Gr : forall m, Ex m (compile r m) (rep ts r) (fits ts r)) by (intros m0; exact (IHr _ m0 eq_refl Hir Hpr Hsr)).
    clear IHl IHr. set (sl := scale_of (Some tl)) in *. set (sr := scale_of (Some tr)) in *. clearbody sl sr. clear Ht El Er tl tr. set (s := Nat.max sl sr) in *.
    assert (Add : forall op (f : Z -> Z -> Z), (forall cap cx st a n b n', step cap cx ts (mkI op []) ((b, n') :: (a, n) :: st) = if int64 (f (as_i a) (as_i b)) then Ok ((VI (f (as_i a) (as_i b)), n || n') :: st) else Trap) ->
      delta op = -1 ->
      Ex m (emit_raw op (c_scale sr s (compile r (c_scale sl s (compile l m))))) (VI (f (shift sl s (as_i (fst (rep ts l)))) (shift sr s (as_i (fst (rep ts r))))), (snd (rep ts l) || snd (rep ts r))%bool)
        (fits ts l && fits ts r && (shift_fits sl s (as_i (fst (rep ts l))) && shift_fits sr s (as_i (fst (rep ts r))) && int64 (f (shift sl s (as_i (fst (rep ts l)))) (shift sr s (as_i (fst (rep ts r)))))))).
    { intros op f Hop Hd. pose proof (ex_scale _ _ sl s _ _ ltac:(unfold s; lia) Hm (Gl m)) as G1. pose proof (ex_scale _ _ sr s _ _ ltac:(unfold s; lia) Hm (Gr (c_scale sl s (compile l m)))) as G2.
      eapply ex_eq; [eapply (ex_binary _ _ _ _ op _ _ _ _ _ (int64 (f (shift sl s (as_i (fst (rep ts l)))) (shift sr s (as_i (fst (rep ts r)))))) G1 G2)|reflexivity|]; try (emitted; fail).
      - intros cap cx st. pose proof (rescaled_i sl s (rep ts l) ltac:(unfold s; lia)) as R1. pose proof (rescaled_i sr s (rep ts r) ltac:(unfold s; lia)) as R2.
        rewrite <- (rescaled_n sl s (rep ts l)), <- (rescaled_n sr s (rep ts r)). rewrite <- R1, <- R2. destruct (rescaled sl s (rep ts l)) as [a n], (rescaled sr s (rep ts r)) as [b n']. cbn [fst snd]. apply Hop.
      - generalize (fits ts l) (fits ts r) (shift_fits sl s (as_i (fst (rep ts l)))) (shift_fits sr s (as_i (fst (rep ts r)))). intros [] [] [] []; reflexivity. }
    destruct o.
    + apply (Add Add_i Z.add); [|reflexivity]. intros cap cx st a n b n'. cbn [step code args binary]. unfold arith. rewrite in64_int64. destruct (int64 (as_i a + as_i b)); reflexivity.
    + apply (Add Sub_i Z.sub); [|reflexivity]. intros cap cx st a n b n'. cbn [step code args binary]. unfold arith. rewrite in64_int64. destruct (int64 (as_i a - as_i b)); reflexivity.
    + clear Add. cbn [arith_rep]. change (Nat.max sl sr) with s.
      assert (GM : Ex m (emit_raw Mul_i (compile r (compile l m))) (VI (as_i (fst (rep ts l)) * as_i (fst (rep ts r))), (snd (rep ts l) || snd (rep ts r))%bool) (fits ts l && fits ts r && int64 (as_i (fst (rep ts l)) * as_i (fst (rep ts r))))).
      { eapply (ex_binary _ _ _ _ Mul_i _ _ _ _ _ _ (Gl m) (Gr _)); try (emitted; fail). intros cap cx st. destruct (rep ts l) as [a n], (rep ts r) as [b n']. apply step_mul. }
      destruct (Nat.eqb_spec (sl + sr - s) 0) as [E0|N0].
      * eapply ex_eq; [exact GM| |reflexivity]. rewrite E0. cbn [Z.of_nat]. change (10 ^ 0) with 1. rewrite Z.quot_1_r. reflexivity.
      * set (x := as_i (fst (rep ts l)) * as_i (fst (rep ts r))) in *. set (d := 10 ^ Z.of_nat (sl + sr - s)).
        assert (Gd : Ex m (emit_op Div_i [] (add_load (VI (pow10 (sl + sr - s))) (emit_raw Mul_i (compile r (compile l m))))) (VI (Z.quot x d), (snd (rep ts l) || snd (rep ts r))%bool)
          (fits ts l && fits ts r && int64 x && true && (negb (d =? 0) && int64 (Z.quot x d)))).
        { eapply (ex_binary _ _ _ _ Div_i _ _ _ _ _ _ GM (ex_load _ _)); try (emitted; fail).
          intros cap cx st. rewrite step_div. cbn [as_i]. rewrite pow10_small by (unfold s; lia). rewrite orb_false_r. reflexivity. }
        eapply ex_eq; [exact Gd|reflexivity|]. pose proof (p10_pos (sl + sr - s)) as Pd. fold d in Pd. replace (d =? 0) with false by (symmetry; apply Z.eqb_neq; lia).
        cbn [negb andb]. rewrite andb_true_r. destruct (int64 x) eqn:Ei; [|rewrite !andb_false_r; reflexivity]. unfold d. rewrite (quot_int64 _ _ Ei). rewrite !andb_true_r. reflexivity.
    + clear Add. cbn [arith_rep]. change (Nat.max sl sr) with s. replace (Z.of_nat s <? Z.of_nat sl - Z.of_nat sr) with false by (symmetry; apply Z.ltb_ge; unfold s; lia).
      replace (Z.to_nat (Z.of_nat s - (Z.of_nat sl - Z.of_nat sr))) with (s + sr - sl)%nat by (unfold s; lia). set (k := (s + sr - sl)%nat) in *.
      set (m1 := if Z.of_nat sl - Z.of_nat sr <? Z.of_nat s then _ else _). set (x := as_i (fst (rep ts l))). set (y := as_i (fst (rep ts r))).
      assert (GL : exists v, as_i v = x * 10 ^ Z.of_nat k /\ Ex m m1 (v, snd (rep ts l)) (fits ts l && (Nat.eqb (s + sr) sl || int64 (x * 10 ^ Z.of_nat k)))).
      { unfold m1. destruct (Z.ltb_spec (Z.of_nat sl - Z.of_nat sr) (Z.of_nat s)) as [L|L].
        - exists (VI (x * 10 ^ Z.of_nat k)). split; [reflexivity|]. destruct (Nat.eqb_spec (s + sr) sl) as [|Nk]; [lia|]. cbn [orb]. rewrite <- (andb_true_r (fits ts l)).
          eapply (ex_binary _ _ _ _ Mul_i _ _ _ _ _ _ (Gl m) (ex_load _ _)); try (emitted; fail).
          intros cap cx st. unfold x. destruct (rep ts l) as [a n]. rewrite step_mul. cbn [as_i fst snd]. rewrite pow10_small by exact Ho. rewrite orb_false_r. reflexivity.
        - exists (fst (rep ts l)). assert (k = O) by (unfold k; lia). split; [rewrite H; cbn [Z.of_nat]; change (10 ^ 0) with 1; fold x; lia|].
          eapply ex_eq; [exact (Gl m)|destruct (rep ts l); reflexivity|]. destruct (Nat.eqb_spec (s + sr) sl); [|unfold s in *; lia]. rewrite andb_true_r. reflexivity. }
      destruct GL as [v [Ev GL]]. eapply ex_eq; [eapply (ex_binary _ _ _ _ Div_i _ _ _ _ _ (negb (y =? 0) && int64 (Z.quot (x * 10 ^ Z.of_nat k) y)) GL (Gr _))|reflexivity|]; try (emitted; fail).
      * intros cap cx st. rewrite <- Ev. unfold y. destruct (rep ts r) as [b n']. rewrite step_div. reflexivity.
      * generalize (fits ts l) (fits ts r) (Nat.eqb (s + sr) sl || int64 (x * 10 ^ Z.of_nat k))%bool. intros [] [] []; reflexivity.
    + clear Add. cbn [arith_rep]. eapply (ex_binary _ _ _ _ Mod_i _ _ _ _ _ _ (Gl m) (Gr _)); try (emitted; fail).
      intros cap cx st. destruct (rep ts l) as [a n], (rep ts r) as [b n']. apply step_mod.
  - (* comparison *) cbn [type_of scales_ok] in *. destruct (type_of l) as [tl|] eqn:El; [|discriminate]. destruct (type_of r) as [tr|] eqn:Er; [|destruct tl; discriminate].
    destruct Hs as [Hsl [Hsr Hm]]. destruct Hi as [Hil Hir]. destruct Hp as [Hpl Hpr].
    assert (Gl : forall m, Ex m (compile l m) (rep ts l) (fits ts l)) by (intros m0; exact (IHl _ m0 eq_refl Hil Hpl Hsl)).
    assert (Gr : forall m, Ex m (compile r m) (rep ts r) (fits ts r)) by (intros m0; exact (IHr _ m0 eq_refl Hir Hpr Hsr)).
    assert (S0 : forall z, shift 0 0 z = z) by (intros z; unfold shift; cbn; lia).
    destruct tl as [| |k1 sl|]; [discriminate| | |].
    + destruct tr; try discriminate. assert (Eo : o = CEq \/ o = CNE) by (destruct o; try discriminate; auto). cbn [scale_of Nat.max]. cbn [shift_fits Nat.eqb orb]. rewrite !andb_true_r.
      eapply ex_eq; [eapply (ex_binary _ _ _ _ (cmp_b o) _ _ _ _ _ true (Gl m) (Gr _))|reflexivity|apply andb_true_r]; try (emitted; fail).
      intros cap cx st. destruct (rep ts l) as [a n], (rep ts r) as [b n']. exact (cmp_b_step _ _ _ _ _ _ _ _ _ Eo).
    + destruct tr as [| |k2 sr|]; try (destruct o; discriminate). cbn [scale_of] in *. set (s := Nat.max sl sr) in *.
      pose proof (ex_scale _ _ sl s _ _ ltac:(unfold s; lia) Hm (Gl m)) as G1. pose proof (ex_scale _ _ sr s _ _ ltac:(unfold s; lia) Hm (Gr (c_scale sl s (compile l m)))) as G2.
      eapply ex_eq; [eapply (ex_binary _ _ _ _ (cmp_i o) _ _ _ _ _ true G1 G2)|reflexivity|]; try (emitted; fail).
      * intros cap cx st. pose proof (rescaled_i sl s (rep ts l) ltac:(unfold s; lia)) as R1. pose proof (rescaled_i sr s (rep ts r) ltac:(unfold s; lia)) as R2.
        rewrite <- (rescaled_n sl s (rep ts l)), <- (rescaled_n sr s (rep ts r)). rewrite <- R1, <- R2. destruct (rescaled sl s (rep ts l)) as [a n], (rescaled sr s (rep ts r)) as [b n']. cbn [fst snd].
        destruct (cmp_i_step cap cx ts o a n b n' st) as [x [-> ->]]. reflexivity.
      * generalize (fits ts l) (fits ts r) (shift_fits sl s (as_i (fst (rep ts l)))) (shift_fits sr s (as_i (fst (rep ts r)))). intros [] [] [] []; reflexivity.
    + destruct tr; try (destruct o; discriminate). cbn [scale_of Nat.max]. cbn [shift_fits Nat.eqb orb]. rewrite !andb_true_r, !S0.
      eapply ex_eq; [eapply (ex_binary _ _ _ _ (cmp_i o) _ _ _ _ _ true (Gl m) (Gr _))|reflexivity|apply andb_true_r]; try (emitted; fail).
      intros cap cx st. destruct (rep ts l) as [a n], (rep ts r) as [b n']. destruct (cmp_i_step cap cx ts o a n b n' st) as [x [-> ->]]. reflexivity.
  - cbn [type_of scales_ok] in *. destruct (type_of l) as [[| |k s|]|] eqn:El; try discriminate. destruct (type_of r) as [[| |k s|]|] eqn:Er; try discriminate.
    destruct Hs as [Hsl Hsr]. destruct Hi as [Hil Hir]. destruct Hp as [Hpl Hpr].
    eapply ex_eq; [eapply (ex_binary _ _ _ _ And_b _ _ _ _ _ true (IHl _ m eq_refl Hil Hpl Hsl) (IHr _ _ eq_refl Hir Hpr Hsr))|reflexivity|apply andb_true_r]; try (emitted; fail).
    intros cap cx st. destruct (rep ts l) as [a n], (rep ts r) as [b n']. cbn [step code args fst snd]. cbv zeta. rewrite null_and. reflexivity.
  - cbn [type_of scales_ok] in *. destruct (type_of l) as [[| |k s|]|] eqn:El; try discriminate. destruct (type_of r) as [[| |k s|]|] eqn:Er; try discriminate.
    destruct Hs as [Hsl Hsr]. destruct Hi as [Hil Hir]. destruct Hp as [Hpl Hpr].
    eapply ex_eq; [eapply (ex_binary _ _ _ _ Or_b _ _ _ _ _ true (IHl _ m eq_refl Hil Hpl Hsl) (IHr _ _ eq_refl Hir Hpr Hsr))|reflexivity|apply andb_true_r]; try (emitted; fail).
    intros cap cx st. destruct (rep ts l) as [a n], (rep ts r) as [b n']. cbn [step code args fst snd]. cbv zeta. rewrite null_or. reflexivity.
Qed.
End Exact.
(** Evaluation succeeds exactly if everything computed fits into 64 bits and no divisor is zero; it then yields that representation. *)
Theorem C31_evaluation_exact : forall ts e t, type_of e = Some t -> well_formed ts e ->
  run (compile e empty_sm) ts = if fits ts e then Ok [rep ts e] else Trap.
Proof.
  intros ts e t Ht [H1 [H2 [H3 H4]]]. destruct (good_run _ _ _ _ (compile_exact ts e t empty_sm Ht H1 H2 H3) H4) as [[r [-> [-> ->]]]|[-> ->]]; reflexivity.
Qed.
(** In particular, an expression that fits has its SQL value. *)
Theorem C31_fitting_expression_has_its_value : forall ts e t, type_of e = Some t -> well_formed ts e -> fits ts e = true ->
  exists sv, sem ts e = Some sv /\ sv_eq (denote t (rep ts e)) sv.
Proof.
  intros ts e t Ht W F. pose proof (C31_compiled_expression_correct ts e t Ht W) as H. rewrite (C31_evaluation_exact ts e t Ht W), F in H.
  destruct H as [r [sv [E H]]]. injection E as <-. exists sv. exact H.
Qed.
(** ** Filters *)
Section ExactFilter.
Variable ts : list (list (val * bool)).
Lemma ex_logic o m m1 m2 a fa b fb : (o = Or_b \/ o = And_b) -> Ex ts m m1 a fa -> Ex ts m1 m2 b fb -> exists c, Ex ts m (emit_raw o m2) c (fa && fb).
Proof.
  intros Ho G1 G2. destruct a as [v n], b as [w n'].
  destruct Ho as [->| ->]; eexists; rewrite <- (andb_true_r (fa && fb)); (eapply (ex_binary ts _ _ _ _ _ _ _ _ _ _ true G1 G2); [emitted|emitted|emitted|emitted|]; intros cap cx st; reflexivity).
Qed.
Lemma ex_literal p m : lit_ok ts p -> exists c, Ex ts m (let m1 := compile (snd p) m in if fst p then emit_raw Not_b m1 else m1) c (fits ts (snd p)).
Proof.
  destruct p as [neg e]. intros [H1 [H2 [H3 H4]]]. cbn [fst snd] in *. cbn zeta. pose proof (compile_exact ts e _ m H1 H2 H3 H4) as G. destruct neg; [|eauto].
  destruct (rep ts e) as [v n]. eexists. rewrite <- (andb_true_r (fits ts e)). eapply (ex_unary ts _ _ _ Not_b _ _ _ true G); [emitted|emitted|emitted|emitted|]. intros cap cx st. reflexivity.
Qed.
Lemma ex_clause_rest c : forall m0 m a fa, Forall (lit_ok ts) c -> Ex ts m0 m a fa -> exists r, Ex ts m0 (compile_clause false c m) r (fa && forallb (fun p => fits ts (snd p)) c).
Proof.
  induction c as [|[neg e] c IH]; intros m0 m a fa F G; cbn [compile_clause forallb]; [exists a; eapply ex_eq; [exact G|reflexivity|symmetry; apply andb_true_r]|].
  inversion F as [|? ? F1 F2]; subst. destruct (ex_literal (neg, e) m F1) as [b Gb]. cbn [fst snd] in Gb. cbn zeta in Gb.
  destruct (ex_logic Or_b _ _ _ _ _ _ _ (or_introl eq_refl) G Gb) as [d Gd]. destruct (IH _ _ _ _ F2 Gd) as [r Gr]. exists r. rewrite andb_assoc. exact Gr.
Qed.
Lemma ex_clause c m : c <> [] -> Forall (lit_ok ts) c -> exists r, Ex ts m (compile_clause true c m) r (forallb (fun p => fits ts (snd p)) c).
Proof.
  destruct c as [|[neg e] c]; [congruence|]. intros _ F. inversion F as [|? ? F1 F2]; subst. cbn [compile_clause forallb].
  destruct (ex_literal (neg, e) m F1) as [b Gb]. cbn [fst snd] in Gb. cbn zeta in Gb. destruct (ex_clause_rest c _ _ _ _ F2 Gb) as [r Gr]. exists r. exact Gr.
Qed.
Definition all_fit (f : list (list (bool * expr))) : bool := forallb (forallb (fun p => fits ts (snd p))) f.
Lemma ex_cnf_rest f : forall m0 m a fa, Forall (clause_ok ts) f -> Ex ts m0 m a fa -> exists r, Ex ts m0 (compile_cnf false f m) r (fa && all_fit f).
Proof.
  unfold all_fit. induction f as [|c f IH]; intros m0 m a fa F G; cbn [compile_cnf forallb]; [exists a; eapply ex_eq; [exact G|reflexivity|symmetry; apply andb_true_r]|].
  inversion F as [|? ? [F1 F1'] F2]; subst. destruct (ex_clause c m F1 F1') as [b Gb].
  destruct (ex_logic And_b _ _ _ _ _ _ _ (or_intror eq_refl) G Gb) as [d Gd]. destruct (IH _ _ _ _ F2 Gd) as [r Gr]. exists r. rewrite andb_assoc. exact Gr.
Qed.
Lemma ex_cnf f m : f <> [] -> Forall (clause_ok ts) f -> exists r, Ex ts m (compile_cnf true f m) r (all_fit f).
Proof.
  destruct f as [|c f]; [congruence|]. intros _ F. inversion F as [|? ? [F1 F1'] F2]; subst. unfold all_fit. cbn [compile_cnf forallb].
  destruct (ex_clause c m F1 F1') as [b Gb]. exact (ex_cnf_rest f _ _ _ _ F2 Gb).
Qed.
End ExactFilter.
(** A filter fails exactly if one of its literals does not fit: there is no short-cut evaluation. *)
Theorem C31_filter_exact : forall ts f, f <> [] ->
  Forall (fun c => c <> [] /\ Forall (fun p => type_of (snd p) = Some TBool /\ indices_small (snd p) /\ slots_present ts (snd p) /\ scales_ok (snd p)) c) f ->
  (length (ctx (compile_cnf true f empty_sm)) <= 256)%nat ->
  ((forall c p, In c f -> In p c -> fits ts (snd p) = true) -> exists r, run (compile_cnf true f empty_sm) ts = Ok [r] /\ filter_value ts f = Some (denote TBool r)) /\
  ((exists c p, In c f /\ In p c /\ fits ts (snd p) = false) -> run (compile_cnf true f empty_sm) ts = Trap).
Proof.
  intros ts f N F L. destruct (ex_cnf ts f empty_sm N F) as [r G]. pose proof (C31_compiled_filter_correct ts f N F L) as C.
  destruct (good_run _ _ _ _ G L) as [[r' [E [-> Ef]]]|[E Ef]]; rewrite E in *.
  - destruct C as [r2 [E2 C]]. injection E2 as <-. split; [intros _; eauto|]. intros [c [p [H1 [H2 H3]]]]. exfalso.
    unfold all_fit in Ef. rewrite forallb_forall in Ef. specialize (Ef c H1). rewrite forallb_forall in Ef. specialize (Ef p H2). congruence.
  - split; [|auto]. intros H. exfalso. assert (all_fit ts f = true); [|congruence].
    apply forallb_forall. intros c Hc. apply forallb_forall. intros p Hp. exact (H c p Hc Hp).
Qed.
(** Non-vacuity: 3.50 * 2 - 1.25 fits; the sum of two large numbers and a division by zero do not. *)
Example C31_fits_example :
  let price := EAttr 0 0 (TNum NDec 2) in let qty := EAttr 0 1 (TNum NInt 0) in
  let e := EArith AMinus (EArith AMul price qty) (EAttr 0 2 (TNum NDec 2)) in
  let ts := [[(VI 350, false); (VI 2, false); (VI 125, false)]] in
  well_formed ts e /\ fits ts e = true /\ rep ts e = (VI 575, false) /\
  fits [[(VI 1, false); (VI (2 ^ 62), false)]] (EArith APlus (EAttr 0 1 (TNum NInt 0)) (EAttr 0 1 (TNum NInt 0))) = false /\
  fits [[(VI 1, false); (VI 0, false)]] (EArith ADiv (EAttr 0 0 (TNum NInt 0)) (EAttr 0 1 (TNum NInt 0))) = false.
Proof.
  cbn zeta. split; [|repeat split; reflexivity]. split; [cbn; lia|]. split; [cbn [slots_present]; split; [split|]; do 2 eexists; split; reflexivity|]. split; [cbn; lia|]. cbn. lia.
Qed.
