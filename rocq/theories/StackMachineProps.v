(** * C31, C32, C33: compiled expressions *)
From Coq Require Import List Bool ZArith QArith Qfield Lia.
From Verif Require Import StackMachine.
Import ListNotations.
Local Open Scope Z_scope.

(** ** Specification: SQL semantics of expressions over rational numbers, independent of any machine *)
Inductive sval : Set := SNull | SBool (b : bool) | SNum (q : Q) | SDate (z : Z).
Definition p10 (n : nat) : positive := Z.to_pos (10 ^ Z.of_nat n).
(** The value in a slot of type [t]: a decimal of scale [s] is stored as an integer multiple of [10^-s]. *)
Definition denote (t : ty) (e : val * bool) : sval :=
  if snd e then SNull
  else match t with TBool => SBool (as_b (fst e)) | TNum _ s => SNum (as_i (fst e) # p10 s) | TDate => SDate (as_i (fst e)) | TNone => SNull end.
(** truncation towards zero to [s] decimal places *)
Definition trunc (s : nat) (q : Q) : Q := Z.quot (Qnum q * 10 ^ Z.of_nat s) (QDen q) # p10 s.
(** three-valued logic *)
Definition k_not (a : sval) : sval := match a with SBool b => SBool (negb b) | _ => SNull end.
Definition k_and (a b : sval) : sval :=
  match a, b with SBool false, _ | _, SBool false => SBool false | SBool true, SBool true => SBool true | _, _ => SNull end.
Definition k_or (a b : sval) : sval :=
  match a, b with SBool true, _ | _, SBool true => SBool true | SBool false, SBool false => SBool false | _, _ => SNull end.
Definition s_arith (o : aop) (s : nat) (a b : sval) : option sval :=
  match a, b with
  | SNum x, SNum y =>
      match o with
      | APlus => Some (SNum (x + y)%Q)
      | AMinus => Some (SNum (x - y)%Q)
      | AMul => Some (SNum (trunc s (x * y)%Q))
      | ADiv => if Qeq_bool y 0 then None else Some (SNum (trunc s (x / y)%Q))
      | AMod => if Qeq_bool y 0 then None else Some (SNum (x - y * trunc 0 (x / y))%Q)
      end
  | _, _ => Some SNull
  end.
Definition by_order (o : cop) (c : comparison) : bool :=
  match o, c with
  | CEq, Eq | CNE, Lt | CNE, Gt | CLT, Lt | CGT, Gt | CLE, Lt | CLE, Eq | CGE, Gt | CGE, Eq => true
  | _, _ => false
  end.
Definition s_cmp (o : cop) (a b : sval) : sval :=
  match a, b with
  | SNum x, SNum y => SBool (by_order o (Qcompare x y))
  | SDate x, SDate y => SBool (by_order o (Z.compare x y))
  | SBool x, SBool y => SBool (match o with CEq => eqb x y | _ => negb (eqb x y) end)
  | _, _ => SNull
  end.
(** The value of an expression; [None] if it divides by zero (or is ill-typed). *)
Fixpoint sem (ts : list (list (val * bool))) (e : expr) : option sval :=
  let bin l r (f : sval -> sval -> option sval) := match sem ts l, sem ts r with Some a, Some b => f a b | _, _ => None end in
  match e with
  | EAttr t k y => match nth_error ts t with Some tup => option_map (denote y) (nth_error tup k) | None => None end
  | EConst v y => Some (denote y (v, false))
  | ENull => Some SNull
  | EIsNull a => option_map (fun x => SBool (match x with SNull => true | _ => false end)) (sem ts a)
  | ECastInt a => option_map (fun x => match x with SBool b => SNum (if b then 1 else 0) | _ => x end) (sem ts a)
  | EPos a => sem ts a
  | ENeg a => option_map (fun x => match x with SNum q => SNum (- q)%Q | _ => x end) (sem ts a)
  | ETilde a => option_map (fun x => match x with SNum q => SNum (- q - 1)%Q | _ => x end) (sem ts a)
  | ENot a => option_map k_not (sem ts a)
  | EArith o l r => bin l r (s_arith o (scale_of (type_of e)))
  | ECmp o l r => bin l r (fun a b => Some (s_cmp o a b))
  | EAnd l r => bin l r (fun a b => Some (k_and a b))
  | EOr l r => bin l r (fun a b => Some (k_or a b))
  end.
Definition sv_eq (a b : sval) : Prop := match a, b with SNum x, SNum y => Qeq x y | _, _ => a = b end.

(** Limits within which the machine's argument bytes, constants and scale factors are exact. *)
Fixpoint indices_small (e : expr) : Prop :=
  match e with
  | EAttr t k _ => (t < 256 /\ k < 256)%nat
  | EConst _ _ | ENull => True
  | EIsNull a | ECastInt a | EPos a | ENeg a | ETilde a | ENot a => indices_small a
  | EArith _ l r | ECmp _ l r | EAnd l r | EOr l r => indices_small l /\ indices_small r
  end.
Fixpoint slots_present (ts : list (list (val * bool))) (e : expr) : Prop :=
  match e with
  | EAttr t k _ => exists tup x, nth_error ts t = Some tup /\ nth_error tup k = Some x
  | EConst _ _ | ENull => True
  | EIsNull a | ECastInt a | EPos a | ENeg a | ETilde a | ENot a => slots_present ts a
  | EArith _ l r | ECmp _ l r | EAnd l r | EOr l r => slots_present ts l /\ slots_present ts r
  end.
(** Scale factors up to [10^18]; [%] on operands of equal scale only. *)
Fixpoint scales_ok (e : expr) : Prop :=
  match e with
  | EAttr _ _ _ | EConst _ _ | ENull => True
  | EIsNull a | ECastInt a | EPos a | ENeg a | ETilde a | ENot a => scales_ok a
  | EAnd l r | EOr l r => scales_ok l /\ scales_ok r
  | ECmp _ l r => scales_ok l /\ scales_ok r /\ (Nat.max (scale_of (type_of l)) (scale_of (type_of r)) <= 18)%nat
  | EArith o l r =>
      let sl := scale_of (type_of l) in let sr := scale_of (type_of r) in
      scales_ok l /\ scales_ok r /\ (Nat.max sl sr <= 18)%nat /\
      match o with ADiv => (Nat.max sl sr + sr - sl <= 18)%nat | AMod => sl = sr | _ => True end
  end.
(** No arithmetic: comparisons (without rescaling), logic, IS NULL, casts of booleans *)
Fixpoint plain (e : expr) : bool :=
  match e with
  | EAttr _ _ _ | EConst _ _ | ENull => true
  | EIsNull a | ECastInt a | EPos a | ETilde a | ENot a => plain a
  | ENeg _ | EArith _ _ _ => false
  | ECmp _ l r => plain l && plain r && Nat.eqb (scale_of (type_of l)) (scale_of (type_of r))
  | EAnd l r | EOr l r => plain l && plain r
  end.

(** ** Lemmas on scaling *)
Lemma p10_spec s : Zpos (p10 s) = 10 ^ Z.of_nat s.
Proof. unfold p10. apply Z2Pos.id. apply Z.pow_pos_nonneg; lia. Qed.
Lemma p10_pos s : 0 < 10 ^ Z.of_nat s. Proof. apply Z.pow_pos_nonneg; lia. Qed.
Lemma pow10_small n : (n <= 18)%nat -> pow10 n = 10 ^ Z.of_nat n.
Proof.
  intros H. unfold pow10, wrap64. assert (0 < 10 ^ Z.of_nat n <= 10 ^ 18) by (split; [apply p10_pos|apply Z.pow_le_mono_r; lia]).
  assert (10 ^ 18 < 2 ^ 63) by reflexivity. rewrite Z.mod_small by lia. lia.
Qed.
Lemma rescale z sl s : (sl <= s)%nat -> Qeq (z * 10 ^ Z.of_nat (s - sl) # p10 s) (z # p10 sl).
Proof.
  intros H. unfold Qeq. cbn [Qnum Qden]. rewrite !p10_spec, <- Z.mul_assoc, <- Z.pow_add_r by lia. do 2 f_equal. lia.
Qed.
Lemma trunc_frac s q n d : d <> 0 -> Qeq (q * inject_Z d) (inject_Z n) -> Qeq (trunc s q) (Z.quot (n * 10 ^ Z.of_nat s) d # p10 s).
Proof.
  intros Hd H. unfold trunc. destruct q as [a b]. unfold Qeq in H. cbn in H. rewrite !Z.mul_1_r in H. cbn [Qnum Qden].
  replace (Z.quot (a * 10 ^ Z.of_nat s) (Z.pos b)) with (Z.quot (n * 10 ^ Z.of_nat s) d); [reflexivity|].
  rewrite <- (Z.quot_mul_cancel_r (a * 10 ^ Z.of_nat s) (Z.pos b) d) by lia. rewrite <- (Z.quot_mul_cancel_l (n * 10 ^ Z.of_nat s) d (Z.pos b)) by lia.
  f_equal. rewrite Pos2Z.inj_mul in H || idtac. nia.
Qed.
Lemma Qmake_frac z s : Qeq ((z # p10 s) * inject_Z (10 ^ Z.of_nat s)) (inject_Z z).
Proof. unfold Qeq. cbn [Qnum Qden inject_Z Qmult]. rewrite Z.mul_1_r, Pos.mul_1_r, p10_spec. reflexivity. Qed.
Lemma sv_eq_refl a : sv_eq a a. Proof. destruct a; cbn; try reflexivity. Qed.

(** ** Code generation *)
Lemma exec_app cap cx ts c1 c2 st : exec cap cx ts (c1 ++ c2) st = match exec cap cx ts c1 st with Ok st' => exec cap cx ts c2 st' | o => o end.
Proof. revert st. induction c1 as [|i c1 IH]; intros st; cbn [app exec]; [reflexivity|]. destruct (step cap cx ts i st); auto. Qed.

Record Good (ts : list (list (val * bool))) (A : Prop) (m m' : sm) (P : val * bool -> Prop) : Prop := {
  g_req : req m <= req m';
  g_cur : cur m + 1 <= cur m';
  g_ext : exists c k, ops m' = ops m ++ c /\ ctx m' = ctx m ++ k /\
    forall cap cx st k', req m' <= cap -> cx = ctx m' ++ k' -> (length (ctx m') <= 256)%nat -> Z.of_nat (length st) <= cur m ->
      (exists r, exec cap cx ts c st = Ok (r :: st) /\ P r) \/ (exec cap cx ts c st = Trap /\ A)
}.
Lemma good_weaken ts (A A' : Prop) m m' (P Q : val * bool -> Prop) : (A -> A') -> (forall r, P r -> Q r) -> Good ts A m m' P -> Good ts A' m m' Q.
Proof.
  intros HA H G. constructor; try apply G. destruct (g_ext _ _ _ _ _ G) as [c [k [E1 [E2 E3]]]]. exists c, k. split; [exact E1|]. split; [exact E2|].
  intros cap cx st k' H1 H2 H3 H4. destruct (E3 cap cx st k' H1 H2 H3 H4) as [[r [X Y]]|[X Y]]; [left; exists r; auto|right; auto].
Qed.
Lemma good_load ts m v : Good ts False m (add_load v m) (fun r => r = (v, false)).
Proof.
  unfold add_load, emit_op. cbn [ops ctx req cur delta]. constructor; cbn [ops ctx req cur]; [lia|lia|].
  exists [mkI Ld_Ctx [Nat.modulo (length (ctx m)) 256]], [v]. split; [reflexivity|]. split; [reflexivity|].
  intros cap cx st k' H1 -> H3 H4. left. exists (v, false). split; [|reflexivity]. rewrite app_length in H3. cbn [length] in H3.
  cbn [exec step code args]. rewrite Nat.mod_small by lia. rewrite <- app_assoc, nth_error_app2 by lia. rewrite Nat.sub_diag. cbn [app nth_error].
  unfold push. replace (Z.of_nat (length st) <? cap) with true by (symmetry; apply Z.ltb_lt; lia). reflexivity.
Qed.
Lemma good_null ts m : Good ts False m (emit_op Push_Null [] m) (fun r => snd r = true).
Proof.
  unfold emit_op. cbn [delta map]. constructor; cbn [ops ctx req cur]; [lia|lia|].
  exists [mkI Push_Null []], []. split; [reflexivity|]. split; [symmetry; apply app_nil_r|].
  intros cap cx st k' H1 -> H3 H4. left. exists (VNone, true). split; [|reflexivity].
  cbn [exec step code args]. unfold push. replace (Z.of_nat (length st) <? cap) with true by (symmetry; apply Z.ltb_lt; lia). reflexivity.
Qed.
Lemma good_attr ts m t k tup x : (t < 256)%nat -> (k < 256)%nat -> nth_error ts t = Some tup -> nth_error tup k = Some x -> Good ts False m (emit_op Ld_Tup [t; k] m) (fun r => r = x).
Proof.
  intros Ht Hk E1 E2. unfold emit_op. cbn [delta map]. constructor; cbn [ops ctx req cur]; [lia|lia|]. rewrite !Nat.mod_small by assumption.
  exists [mkI Ld_Tup [t; k]], []. split; [reflexivity|]. split; [symmetry; apply app_nil_r|].
  intros cap cx st k' H1 -> H3 H4. left. exists x. split; [|reflexivity].
  cbn [exec step code args]. rewrite E1, E2. unfold push. replace (Z.of_nat (length st) <? cap) with true by (symmetry; apply Z.ltb_lt; lia). reflexivity.
Qed.
(** one-operand opcodes *)
Lemma good_unary ts (A : Prop) m m1 m' o P Q : Good ts A m m1 P -> ops m' = ops m1 ++ [mkI o []] -> ctx m' = ctx m1 -> req m1 <= req m' -> cur m1 <= cur m' ->
  (forall cap cx st r, P r -> (exists r', step cap cx ts (mkI o []) (r :: st) = Ok (r' :: st) /\ Q r') \/ (step cap cx ts (mkI o []) (r :: st) = Trap /\ A)) ->
  Good ts A m m' Q.
Proof.
  intros G E1 E2 E3 E4 H. pose proof (g_req _ _ _ _ _ G) as Rq. pose proof (g_cur _ _ _ _ _ G) as Cu. destruct (g_ext _ _ _ _ _ G) as [c [k [F1 [F2 F3]]]].
  constructor; [lia|lia|]. exists (c ++ [mkI o []]), k. split; [rewrite E1, F1; symmetry; apply app_assoc|]. split; [congruence|].
  intros cap cx st k' H1 H2 H3 H4. rewrite E2 in H2, H3. rewrite exec_app.
  destruct (F3 cap cx st k' ltac:(lia) H2 H3 H4) as [[r [X Y]]|[X Y]]; rewrite X; [|right; auto].
  cbn [exec]. destruct (H cap cx st r Y) as [[r' [Z1 Z2]]|[Z1 Z2]]; rewrite Z1; [left; exists r'; auto|right; auto].
Qed.
(** two-operand opcodes *)
Lemma good_binary ts (A : Prop) m m1 m2 m' o P Q R : Good ts A m m1 P -> Good ts A m1 m2 Q ->
  ops m' = ops m2 ++ [mkI o []] -> ctx m' = ctx m2 -> req m2 <= req m' -> cur m2 - 1 <= cur m' ->
  (forall cap cx st a b, P a -> Q b -> (exists r, step cap cx ts (mkI o []) (b :: a :: st) = Ok (r :: st) /\ R r) \/ (step cap cx ts (mkI o []) (b :: a :: st) = Trap /\ A)) ->
  Good ts A m m' R.
Proof.
  intros G G' E1 E2 E3 E4 H. pose proof (g_req _ _ _ _ _ G) as Rq. pose proof (g_cur _ _ _ _ _ G) as Cu. pose proof (g_req _ _ _ _ _ G') as Rq'. pose proof (g_cur _ _ _ _ _ G') as Cu'.
  destruct (g_ext _ _ _ _ _ G) as [c [k [F1 [F2 F3]]]]. destruct (g_ext _ _ _ _ _ G') as [d [l [D1 [D2 D3]]]].
  constructor; [lia|lia|]. exists (c ++ d ++ [mkI o []]), (k ++ l). split; [rewrite E1, D1, F1, <- !app_assoc; reflexivity|]. split; [rewrite E2, D2, F2, <- app_assoc; reflexivity|].
  intros cap cx st k' H1' H2' H3' H4'. rewrite E2 in H2', H3'. rewrite exec_app. assert (L : (length (ctx m1) <= 256)%nat) by (rewrite D2, app_length in H3'; lia).
  destruct (F3 cap cx st (l ++ k') ltac:(lia) ltac:(rewrite H2', D2, <- app_assoc; reflexivity) L H4') as [[a [X Y]]|[X Y]]; rewrite X; [|right; auto].
  rewrite exec_app. destruct (D3 cap cx (a :: st) k' ltac:(lia) H2' H3' ltac:(cbn [length]; lia)) as [[b [X' Y']]|[X' Y']]; rewrite X'; [|right; auto].
  cbn [exec]. destruct (H cap cx st a b Y Y') as [[r' [Z1 Z2]]|[Z1 Z2]]; rewrite Z1; [left; exists r'; auto|right; auto].
Qed.
Ltac emitted := cbn [emit_op emit_raw ops ctx req cur map]; first [reflexivity | cbn [delta]; lia | lia].

(** ** Values *)
Definition Pe (t : ty) (sv : sval) (r : val * bool) : Prop := sv_eq (denote t r) sv /\ (t = TNone -> snd r = true).
Lemma pe_null t sv v : Pe t sv (v, true) -> sv = SNull.
Proof. intros [H _]. cbn in H. destruct sv; auto; discriminate. Qed.
Lemma pe_num k s sv v : Pe (TNum k s) sv (v, false) -> exists q, sv = SNum q /\ Qeq (as_i v # p10 s) q.
Proof. intros [H _]. cbn in H. destruct sv; try discriminate. exists q. auto. Qed.
Lemma pe_bool sv v : Pe TBool sv (v, false) -> sv = SBool (as_b v).
Proof. intros [H _]. cbn in H. destruct sv; try discriminate. symmetry. exact H. Qed.
Lemma pe_date sv v : Pe TDate sv (v, false) -> sv = SDate (as_i v).
Proof. intros [H _]. cbn in H. destruct sv; try discriminate. symmetry. exact H. Qed.
Lemma pe_mk_null t v : Pe t SNull (v, true). Proof. split; reflexivity. Qed.
Lemma pe_mk_num k s q v : Qeq (as_i v # p10 s) q -> Pe (TNum k s) (SNum q) (v, false).
Proof. intros H. split; [exact H|discriminate]. Qed.
Lemma pe_mk_bool b v : as_b v = b -> Pe TBool (SBool b) (v, false).
Proof. intros <-. split; [reflexivity|discriminate]. Qed.
Lemma int_scale e : forall s, type_of e = Some (TNum NInt s) -> s = O.
Proof.
  induction e; intros s H; cbn [type_of] in H; try discriminate;
    repeat match type of H with
    | context [match ?x with _ => _ end] => destruct x eqn:?; try discriminate
    end; try (injection H as <-; auto; fail); try (injection H as <- <-; auto; fail); auto.
  unfold num_join in H. destruct t as [| |k1 s1|]; try discriminate. destruct t0 as [| |k2 s2|]; try discriminate. injection H as Hk <-.
  destruct k1, k2; try discriminate. rewrite (IHe1 s1 eq_refl), (IHe2 s2 eq_refl). reflexivity.
Qed.

Definition Ph (t : ty) (S : option sval) (r : val * bool) : Prop := exists sv, S = Some sv /\ Pe t sv r.
(** rescaling code *)
Lemma good_scale ts (A : Prop) m m1 k sl s S : (sl <= s)%nat -> (s <= 18)%nat -> (sl <> s -> A) ->
  Good ts A m m1 (Ph (TNum k sl) S) -> Good ts A m (c_scale sl s m1) (Ph (TNum k s) S).
Proof.
  intros L1 L2 HA G. unfold c_scale. destruct (Nat.ltb_spec sl s) as [L|L].
  - eapply good_binary; [exact G|eapply good_weaken; [|intros r Hr; exact Hr|apply good_load]; intros []| | | | |]; try (emitted; fail).
    intros cap cx st [v n] b [sv [ES Pa]] ->. cbn [step code args binary]. unfold arith. cbn [as_i]. rewrite orb_false_r. rewrite pow10_small by lia.
    destruct (in64 (as_i v * 10 ^ Z.of_nat (s - sl))); [left|right; split; [reflexivity|apply HA; lia]]. eexists. split; [reflexivity|]. exists sv. split; [exact ES|].
    destruct n; [rewrite (pe_null _ _ _ Pa); apply pe_mk_null|]. destruct (pe_num _ _ _ _ Pa) as [q [-> Hq]]. apply pe_mk_num. cbn [as_i]. rewrite rescale by exact L1. exact Hq.
  - assert (sl = s) by lia. subst s. rewrite (proj2 (Nat.ltb_ge sl sl)) by lia. exact G.
Qed.
Lemma ph_null_l t S v : Ph t S (v, true) -> S = Some SNull. Proof. intros [sv [-> H]]. rewrite (pe_null _ _ _ H). reflexivity. Qed.
Lemma ph_num k s S v : Ph (TNum k s) S (v, false) -> exists q, S = Some (SNum q) /\ Qeq (as_i v # p10 s) q.
Proof. intros [sv [-> H]]. destruct (pe_num _ _ _ _ H) as [q [-> E]]. exists q. auto. Qed.
Lemma ph_bool S v : Ph TBool S (v, false) -> S = Some (SBool (as_b v)). Proof. intros [sv [-> H]]. rewrite (pe_bool _ _ H). reflexivity. Qed.
Lemma ph_date S v : Ph TDate S (v, false) -> S = Some (SDate (as_i v)). Proof. intros [sv [-> H]]. rewrite (pe_date _ _ H). reflexivity. Qed.
Lemma ph_null t S v : S = Some SNull -> Ph t S (v, true). Proof. intros ->. exists SNull. split; [reflexivity|apply pe_mk_null]. Qed.
Lemma ph_mk_num k s S q v : S = Some (SNum q) -> Qeq (as_i v # p10 s) q -> Ph (TNum k s) S (v, false).
Proof. intros -> H. exists (SNum q). split; [reflexivity|apply pe_mk_num; exact H]. Qed.
Lemma ph_mk_bool S b v : S = Some (SBool b) -> as_b v = b -> Ph TBool S (v, false).
Proof. intros -> H. exists (SBool b). split; [reflexivity|apply pe_mk_bool; exact H]. Qed.

(** a NULL operand of a strict operator *)
Lemma s_arith_null o s a b : a = SNull \/ b = SNull -> s_arith o s a b = Some SNull.
Proof. intros [->| ->]; [reflexivity|destruct a; reflexivity]. Qed.
Lemma s_cmp_null o a b : a = SNull \/ b = SNull -> s_cmp o a b = SNull.
Proof. intros [->| ->]; [reflexivity|destruct a; reflexivity]. Qed.
(** A pair of operands of a strict operator: both present, or the result is NULL *)
Lemma ph_pair t t' S T v n w n' : Ph t S (v, n) -> Ph t' T (w, n') ->
  exists a b, S = Some a /\ T = Some b /\ ((n || n' = true /\ (a = SNull \/ b = SNull)) \/ (n = false /\ n' = false)).
Proof.
  intros [a [-> Pa]] [b [-> Pb]]. exists a, b. split; [reflexivity|]. split; [reflexivity|].
  destruct n; [left; split; [reflexivity|left; exact (pe_null _ _ _ Pa)]|]. destruct n'; [left; split; [reflexivity|right; exact (pe_null _ _ _ Pb)]|]. right. auto.
Qed.
Lemma cmp_i_step cap cx ts o a n b n' st : exists r, step cap cx ts (mkI (cmp_i o) []) ((b, n') :: (a, n) :: st) = Ok ((VB r, n || n') :: st) /\ r = by_order o (Z.compare (as_i a) (as_i b)).
Proof.
  destruct o; cbn [cmp_i step code args binary]; unfold compare_i; eexists; (split; [reflexivity|]).
  - rewrite Z.eqb_compare. destruct (as_i a ?= as_i b); reflexivity.
  - rewrite Z.eqb_compare. destruct (as_i a ?= as_i b); reflexivity.
  - unfold Z.ltb. destruct (as_i a ?= as_i b); reflexivity.
  - unfold Z.gtb. destruct (as_i a ?= as_i b); reflexivity.
  - unfold Z.leb. destruct (as_i a ?= as_i b); reflexivity.
  - unfold Z.geb. destruct (as_i a ?= as_i b); reflexivity.
Qed.
Lemma Qcompare_same a b s : Qcompare (a # p10 s) (b # p10 s) = Z.compare a b.
Proof. unfold Qcompare. cbn [Qnum Qden]. symmetry. apply Zmult_compare_compat_r. reflexivity. Qed.
Lemma cmp_b_step cap cx ts o a n b n' st : o = CEq \/ o = CNE ->
  step cap cx ts (mkI (cmp_b o) []) ((b, n') :: (a, n) :: st) = Ok ((VB (match o with CEq => eqb (as_b a) (as_b b) | _ => negb (eqb (as_b a) (as_b b)) end), n || n') :: st).
Proof. intros [->| ->]; cbn [cmp_b step code args binary]; unfold compare_b; [reflexivity|]. destruct (as_b a), (as_b b); reflexivity. Qed.

(** arithmetic on raw representations against arithmetic on rationals *)
Lemma q_mul a b sl sr : let s := Nat.max sl sr in Qeq (trunc s ((a # p10 sl) * (b # p10 sr))) (Z.quot (a * b) (10 ^ Z.of_nat (sl + sr - s)) # p10 s).
Proof.
  intros s. rewrite (trunc_frac s _ (a * b) (10 ^ Z.of_nat sl * 10 ^ Z.of_nat sr)).
  - replace (10 ^ Z.of_nat sl * 10 ^ Z.of_nat sr) with (10 ^ Z.of_nat (sl + sr - s) * 10 ^ Z.of_nat s) by (rewrite <- !Z.pow_add_r by lia; f_equal; lia).
    rewrite Z.quot_mul_cancel_r; [reflexivity| |]; pose proof (p10_pos s); pose proof (p10_pos (sl + sr - s)); lia.
  - pose proof (p10_pos sl); pose proof (p10_pos sr); nia.
  - rewrite inject_Z_mult. transitivity (((a # p10 sl) * inject_Z (10 ^ Z.of_nat sl)) * ((b # p10 sr) * inject_Z (10 ^ Z.of_nat sr)))%Q; [ring|].
    rewrite !Qmake_frac, inject_Z_mult. reflexivity.
Qed.
Lemma q_div a b sl sr : let s := Nat.max sl sr in b <> 0 -> Qeq (trunc s ((a # p10 sl) / (b # p10 sr))) (Z.quot (a * 10 ^ Z.of_nat (s + sr - sl)) b # p10 s).
Proof.
  intros s Hb. rewrite (trunc_frac s _ (a * 10 ^ Z.of_nat sr) (b * 10 ^ Z.of_nat sl)).
  - replace (a * 10 ^ Z.of_nat sr * 10 ^ Z.of_nat s) with ((a * 10 ^ Z.of_nat (s + sr - sl)) * 10 ^ Z.of_nat sl) by (rewrite <- !Z.mul_assoc, <- !Z.pow_add_r by lia; do 2 f_equal; lia).
    rewrite Z.quot_mul_cancel_r; [reflexivity|exact Hb|]. pose proof (p10_pos sl). lia.
  - pose proof (p10_pos sl). nia.
  - rewrite !inject_Z_mult. assert (Hy : ~ (b # p10 sr == 0)%Q) by (unfold Qeq; cbn; lia).
    rewrite <- (Qmake_frac a sl), <- (Qmake_frac b sr). field. exact Hy.
Qed.
Lemma q_rem a b s : b <> 0 -> Qeq ((a # p10 s) - (b # p10 s) * trunc 0 ((a # p10 s) / (b # p10 s))) (Z.rem a b # p10 s).
Proof.
  intros Hb. rewrite (trunc_frac 0 _ a b); [|exact Hb|].
  - cbn [Z.of_nat]. change (10 ^ 0) with 1. rewrite Z.mul_1_r. change (p10 0) with 1%positive. rewrite (Z.rem_eq a b Hb).
    unfold Qeq, Qminus, Qopp, Qplus, Qmult. cbn [Qnum Qden]. rewrite !Pos.mul_1_r, !Pos2Z.inj_mul. ring.
  - assert (Hy : ~ (b # p10 s == 0)%Q) by (unfold Qeq; cbn; lia). transitivity ((a # p10 s) / (b # p10 s) * ((b # p10 s) * inject_Z (10 ^ Z.of_nat s)))%Q.
    + rewrite Qmake_frac. reflexivity.
    + transitivity ((a # p10 s) * inject_Z (10 ^ Z.of_nat s))%Q; [field; exact Hy|apply Qmake_frac].
Qed.
Lemma q_zero b s : b <> 0 <-> Qeq_bool (b # p10 s) 0 = false.
Proof.
  split.
  - intros H. apply not_true_is_false. intros E. apply Qeq_bool_iff in E. unfold Qeq in E. cbn in E. lia.
  - intros H ->. unfold Qeq_bool in H. cbn in H. discriminate.
Qed.
Lemma Qeq_bool_comp x y : Qeq x y -> Qeq_bool x 0 = Qeq_bool y 0.
Proof. intros H. apply eq_true_iff_eq. rewrite !Qeq_bool_iff. rewrite H. reflexivity. Qed.
Lemma trunc_comp s x y : Qeq x y -> Qeq (trunc s x) (trunc s y).
Proof.
  intros H. destruct y as [n d]. rewrite (trunc_frac s x n (Zpos d)); [reflexivity|discriminate|]. rewrite H. unfold Qeq, Qmult, inject_Z. cbn [Qnum Qden]. rewrite Pos.mul_1_r. lia.
Qed.

Lemma binary_step cap cx ts f b n' a n st o : (forall st, step cap cx ts (mkI o []) st = binary f st) ->
  step cap cx ts (mkI o []) ((b, n') :: (a, n) :: st) = match f a b with Some r => Ok ((r, n || n') :: st) | None => Trap end.
Proof. intros H. rewrite H. reflexivity. Qed.
Lemma type_arith l r k s : num_join l r = Some (TNum k s) -> exists k1 s1 k2 s2, l = TNum k1 s1 /\ r = TNum k2 s2 /\ s = Nat.max s1 s2 /\ k = kind_join k1 k2.
Proof. unfold num_join. destruct l as [| |k1 s1|]; try discriminate. destruct r as [| |k2 s2|]; try discriminate. intros H. injection H as <- <-. exists k1, s1, k2, s2. auto. Qed.
Lemma num_join_num l r t : num_join l r = Some t -> exists k s, t = TNum k s.
Proof. unfold num_join. destruct l as [| |k1 s1|]; try discriminate. destruct r as [| |k2 s2|]; try discriminate. intros H. injection H as <-. eauto. Qed.
Lemma pow10_0 : 10 ^ Z.of_nat 0 = 1. Proof. reflexivity. Qed.

Section Main.
Variable ts : list (list (val * bool)).
Let G (e : expr) := forall t m, type_of e = Some t -> indices_small e -> slots_present ts e -> scales_ok e ->
  Good ts (plain e = false) m (compile e m) (Ph t (sem ts e)).

Lemma good_unop (A : Prop) m e0 t0 (o : opcode) m' t S (f : val -> option val) :
  Good ts A m (compile e0 m) (Ph t0 (sem ts e0)) -> ops m' = ops (compile e0 m) ++ [mkI o []] -> ctx m' = ctx (compile e0 m) -> req (compile e0 m) <= req m' -> cur (compile e0 m) <= cur m' ->
  (forall cap cx st, step cap cx ts (mkI o []) st = unary f st) ->
  (sem ts e0 = Some SNull -> S = Some SNull) -> (forall v, f v = None -> A) ->
  (forall v w, Ph t0 (sem ts e0) (v, false) -> f v = Some w -> Ph t S (w, false)) -> Good ts A m m' (Ph t S).
Proof.
  intros H E1 E2 E3 E4 Hs Hn Ht Hf. eapply good_unary; [exact H|exact E1|exact E2|exact E3|exact E4|]. intros cap cx st [v n] P. rewrite Hs. cbn [unary].
  destruct (f v) as [w|] eqn:Ef; [left; eexists; split; [reflexivity|]|right; split; [reflexivity|exact (Ht v Ef)]].
  destruct n; [apply ph_null; apply Hn; exact (ph_null_l _ _ _ P)|]. eapply Hf; eauto.
Qed.
Lemma good_binop (A : Prop) m m1 m2 m' (o : opcode) tl tr t L R S (f : val -> val -> option val) :
  Good ts A m m1 (Ph tl L) -> Good ts A m1 m2 (Ph tr R) -> ops m' = ops m2 ++ [mkI o []] -> ctx m' = ctx m2 -> req m2 <= req m' -> cur m2 - 1 <= cur m' ->
  (forall cap cx st, step cap cx ts (mkI o []) st = binary f st) ->
  (forall a b, L = Some a -> R = Some b -> a = SNull \/ b = SNull -> S = Some SNull) -> (forall v w, f v w = None -> A) ->
  (forall v w r, Ph tl L (v, false) -> Ph tr R (w, false) -> f v w = Some r -> Ph t S (r, false)) -> Good ts A m m' (Ph t S).
Proof.
  intros H H' E1 E2 E3 E4 Hs Hn Ht Hf. eapply good_binary; [exact H|exact H'|exact E1|exact E2|exact E3|exact E4|]. intros cap cx st [v n] [w n'] P Q. rewrite (binary_step _ _ _ f) by apply Hs.
  destruct (f v w) as [r|] eqn:Ef; [left; eexists; split; [reflexivity|]|right; split; [reflexivity|exact (Ht v w Ef)]].
  destruct (ph_pair _ _ _ _ _ _ _ _ P Q) as [a [b [Ea [Eb [[En Hx]|[-> ->]]]]]]; [rewrite En; apply ph_null; eapply Hn; eauto|]. eapply Hf; eauto.
Qed.
Lemma arith_val f v w r : arith f v w = Some r -> r = VI (f (as_i v) (as_i w)).
Proof. unfold arith. destruct (in64 _); [intros E; injection E as <-; reflexivity|discriminate]. Qed.
Lemma divide_val f v w r : divide f v w = Some r -> r = VI (f (as_i v) (as_i w)) /\ as_i w <> 0.
Proof. unfold divide. destruct (Z.eqb_spec (as_i w) 0); cbn [orb]; [discriminate|]. destruct (in64 _); [intros E; injection E as <-; auto|discriminate]. Qed.
Lemma good_const (A : Prop) m v t : type_of (EConst v t) = Some t -> Good ts A m (add_load v m) (Ph t (Some (denote t (v, false)))).
Proof.
  intros Ht. eapply good_weaken; [| |apply good_load]; [intros []|]. cbn beta. intros r ->. exists (denote t (v, false)). split; [reflexivity|]. split; [apply sv_eq_refl|].
  intros ->. cbn in Ht. destruct v; discriminate.
Qed.
Lemma compile_good e : G e.
Proof.
  induction e as [tp ix t0|v t0| |e IH|e IH|e IH|e IH|e IH|e IH|o l IHl r IHr|o l IHl r IHr|l IHl r IHr|l IHl r IHr]; intros t m Ht Hi Hp Hs; cbn [compile sem].
  - destruct Hi as [Hi1 Hi2], Hp as [tup [x [Hp1 Hp2]]]. eapply good_weaken; [| |apply (good_attr ts m tp ix tup x Hi1 Hi2 Hp1 Hp2)]; [intros []|].
    cbn beta. intros r ->. rewrite Hp1, Hp2. cbn [option_map]. assert (E : t0 = t /\ t <> TNone) by (cbn [type_of] in Ht; destruct t0 as [| |[] []|]; try discriminate; injection Ht as <-; split; congruence).
    destruct E as [<- En]. exists (denote t0 x). split; [reflexivity|]. split; [apply sv_eq_refl|]. intros E; congruence.
  - assert (t0 = t) by (cbn [type_of] in Ht; destruct v, t0 as [| |[] []|]; try discriminate; injection Ht as <-; reflexivity). subst t0. apply good_const. exact Ht.
  - eapply good_weaken; [| |apply good_null]; [intros []|]. cbn beta. intros [v n] E. cbn [snd] in E. subst n. apply ph_null. reflexivity.
  - (* IS NULL *) cbn [type_of plain indices_small slots_present scales_ok] in *. destruct (type_of e) as [t1|] eqn:E1; [|discriminate]. injection Ht as <-.
    specialize (IH t1 m E1 Hi Hp Hs). eapply good_unary; [exact IH| | | | |]; try (emitted; fail). intros cap cx st [v n] [sv [Es Pv]]. left. eexists. split; [reflexivity|].
    rewrite Es. cbn [option_map]. eapply ph_mk_bool; [reflexivity|]. cbn [as_b]. destruct n; [rewrite (pe_null _ _ _ Pv); reflexivity|].
    destruct Pv as [Pv Pn]. destruct t1; cbn in Pv; [specialize (Pn eq_refl); discriminate| | |]; destruct sv; try discriminate; reflexivity.
  - (* INT *) cbn [type_of plain indices_small slots_present scales_ok] in *. destruct (type_of e) as [[| |[] s|]|] eqn:E1; try discriminate; injection Ht as <-.
    + specialize (IH TBool m E1 Hi Hp Hs). eapply (good_unop _ _ _ _ Cast_i_b); [exact IH|..]; try (emitted; fail); try (intros; reflexivity).
      * intros ->. reflexivity.
      * cbn beta. discriminate.
      * cbn beta. intros v w Pv E. injection E as <-. rewrite (ph_bool _ _ Pv). cbn [option_map]. eapply ph_mk_num; [reflexivity|]. cbn [as_i]. destruct (as_b v); reflexivity.
    + assert (s = O) by (eapply int_scale; eauto). subst s. specialize (IH _ m E1 Hi Hp Hs). eapply good_weaken; [intros H; exact H| |exact IH]. cbn beta.
      intros [v n] P. destruct n; [rewrite (ph_null_l _ _ _ P); apply ph_null; reflexivity|]. destruct (ph_num _ _ _ _ P) as [q [-> Hq]]. eapply ph_mk_num; [reflexivity|exact Hq].
  - (* + *) cbn [type_of plain indices_small slots_present scales_ok] in *. destruct (type_of e) as [[| |k s|]|] eqn:E1; try discriminate; injection Ht as <-. apply IH; auto.
  - (* - *) cbn [type_of plain indices_small slots_present scales_ok] in *. destruct (type_of e) as [[| |k s|]|] eqn:E1; try discriminate; injection Ht as <-.
    specialize (IH _ m E1 Hi Hp Hs). eapply (good_unop _ _ _ _ Minus_i); [eapply good_weaken; [|intros r Hr; exact Hr|exact IH]; auto|..]; try (emitted; fail); try (intros; reflexivity).
    * intros ->. reflexivity.
    * cbn beta zeta. intros v w Pv E. destruct (in64 (- as_i v)); [|discriminate]. injection E as <-. destruct (ph_num _ _ _ _ Pv) as [q [-> Hq]]. cbn [option_map]. eapply ph_mk_num; [reflexivity|].
      cbn [as_i]. rewrite <- Hq. unfold Qeq, Qopp. cbn [Qnum Qden]. ring.
  - (* ~ *) cbn [type_of plain indices_small slots_present scales_ok] in *. destruct (type_of e) as [[| |[] s|]|] eqn:E1; try discriminate; injection Ht as <-.
    assert (s = O) by (eapply int_scale; eauto). subst s. specialize (IH _ m E1 Hi Hp Hs). eapply (good_unop _ _ _ _ Neg_i); [exact IH|..]; try (emitted; fail); try (intros; reflexivity).
    * intros ->. reflexivity.
    * cbn beta. discriminate.
    * cbn beta. intros v w Pv E. injection E as <-. destruct (ph_num _ _ _ _ Pv) as [q [-> Hq]]. cbn [option_map]. eapply ph_mk_num; [reflexivity|].
      cbn [as_i]. rewrite <- Hq. unfold Qeq, Qopp, Qminus, Qplus. cbn [Qnum Qden]. change (p10 0) with 1%positive. cbn. lia.
  - (* NOT *) cbn [type_of plain indices_small slots_present scales_ok] in *. destruct (type_of e) as [[| |k s|]|] eqn:E1; try discriminate; injection Ht as <-.
    specialize (IH _ m E1 Hi Hp Hs). eapply (good_unop _ _ _ _ Not_b); [exact IH|..]; try (emitted; fail); try (intros; reflexivity).
    * intros ->. reflexivity.
    * cbn beta. discriminate.
    * cbn beta. intros v w Pv E. injection E as <-. rewrite (ph_bool _ _ Pv). cbn [option_map k_not]. eapply ph_mk_bool; reflexivity.
  - (* arithmetic *) cbn [plain].
    cbn [type_of indices_small slots_present scales_ok] in *. destruct (type_of l) as [tl|] eqn:El; [|discriminate]. destruct (type_of r) as [tr|] eqn:Er; [|discriminate].
    destruct (num_join_num _ _ _ Ht) as [k0 [s0 ->]]. destruct (type_arith _ _ _ _ Ht) as [k1 [sl [k2 [sr [-> [-> [-> ->]]]]]]]. cbn [num_join scale_of] in *.
    destruct Hs as [Hsl [Hsr [Hm Ho]]]. destruct Hi as [Hil Hir]. destruct Hp as [Hpl Hpr].
    set (s := Nat.max sl sr) in *.
    assert (Gl : forall m, Good ts True m (compile l m) (Ph (TNum k1 sl) (sem ts l))) by (intros m0; eapply good_weaken; [intros _; exact I|intros r0 Hr0; exact Hr0|apply IHl; auto]).
    assert (Gr : forall m, Good ts True m (compile r m) (Ph (TNum k2 sr) (sem ts r))) by (intros m0; eapply good_weaken; [intros _; exact I|intros r0 Hr0; exact Hr0|apply IHr; auto]).
    eapply (good_weaken ts True); [intros _; reflexivity|intros r0 Hr0; exact Hr0|].
    assert (Hnull : forall o a b, sem ts l = Some a -> sem ts r = Some b -> a = SNull \/ b = SNull -> match sem ts l with Some a => match sem ts r with Some b => s_arith o s a b | None => None end | None => None end = Some SNull).
    { intros o0 a b -> -> H. apply s_arith_null. exact H. }
    assert (Add : forall oc f o0, (forall cap cx st, step cap cx ts (mkI oc []) st = binary (arith f) st) ->
      (forall x y a b, Qeq (a # p10 s) x -> Qeq (b # p10 s) y -> exists q, s_arith o0 s (SNum x) (SNum y) = Some (SNum q) /\ Qeq (f a b # p10 s) q) ->
      Good ts True m (emit_raw oc (c_scale sr s (compile r (c_scale sl s (compile l m))))) (Ph (TNum (kind_join k1 k2) s) match sem ts l with Some a => match sem ts r with Some b => s_arith o0 s a b | None => None end | None => None end)).
    { intros oc f o0 Hstep Hf.
      pose proof (good_scale ts True m _ k1 sl s (sem ts l) ltac:(lia) Hm (fun _ => I) (Gl m)) as G1.
      pose proof (good_scale ts True _ _ k2 sr s (sem ts r) ltac:(lia) Hm (fun _ => I) (Gr (c_scale sl s (compile l m)))) as G2.
      eapply (good_binop _ _ _ _ _ oc _ _ _ _ _ _ (arith f) G1 G2); try (emitted; fail); try exact Hstep; [apply Hnull|].
      intros v w x Pv Pw E. apply arith_val in E. subst x. destruct (ph_num _ _ _ _ Pv) as [a [Ea Qa]]. destruct (ph_num _ _ _ _ Pw) as [b [Eb Qb]].
      destruct (Hf a b _ _ Qa Qb) as [q [Eq Qq]]. rewrite Ea, Eb. eapply ph_mk_num; [exact Eq|exact Qq]. }
    destruct o.
    + apply (Add Add_i Z.add APlus); [reflexivity|]. intros x y a b Qa Qb. eexists. split; [reflexivity|]. rewrite <- Qa, <- Qb. unfold Qeq, Qplus. cbn [Qnum Qden]. rewrite Pos2Z.inj_mul. ring.
    + apply (Add Sub_i Z.sub AMinus); [reflexivity|]. intros x y a b Qa Qb. eexists. split; [reflexivity|]. rewrite <- Qa, <- Qb. unfold Qeq, Qminus, Qopp, Qplus. cbn [Qnum Qden]. rewrite Pos2Z.inj_mul. ring.
    + clear Add. set (S := match sem ts l with Some a => match sem ts r with Some b => s_arith AMul s a b | None => None end | None => None end).
      assert (HN : forall v w n n', n || n' = true -> Ph (TNum k1 sl) (sem ts l) (v, n) -> Ph (TNum k2 sr) (sem ts r) (w, n') -> S = Some SNull).
      { intros v w n n' En P Q. destruct (ph_pair _ _ _ _ _ _ _ _ P Q) as [a [b [Ea [Eb [[_ Hx]|[-> ->]]]]]]; [|discriminate]. eapply (Hnull AMul); eauto. }
      assert (HV : forall v w, Ph (TNum k1 sl) (sem ts l) (v, false) -> Ph (TNum k2 sr) (sem ts r) (w, false) -> exists q, S = Some (SNum q) /\ Qeq (Z.quot (as_i v * as_i w) (10 ^ Z.of_nat (sl + sr - s)) # p10 s) q).
      { intros v w P Q. destruct (ph_num _ _ _ _ P) as [a [Ea Qa]]. destruct (ph_num _ _ _ _ Q) as [b [Eb Qb]]. unfold S. rewrite Ea, Eb. eexists. split; [reflexivity|].
        eapply Qeq_trans; [apply Qeq_sym; apply q_mul|]. apply trunc_comp. rewrite Qa, Qb. reflexivity. }
      destruct (Nat.eqb_spec (sl + sr - s) 0) as [E0|N0].
      * rewrite E0 in HV. eapply (good_binary ts True _ _ _ _ Mul_i _ _ _ (Gl m) (Gr _)); try (emitted; fail).
        intros cap cx st [v n] [w n'] P Q. rewrite (binary_step _ _ _ (arith Z.mul)) by reflexivity. destruct (arith Z.mul v w) as [x|] eqn:Ex; [left; eexists; split; [reflexivity|]|right; auto].
        apply arith_val in Ex. subst x. destruct (n || n') eqn:En; [apply ph_null; eapply HN; eauto|]. apply orb_false_iff in En. destruct En as [-> ->].
        destruct (HV v w P Q) as [q [Eq Qq]]. eapply ph_mk_num; [exact Eq|]. cbn [as_i]. rewrite pow10_0, Z.quot_1_r in Qq. exact Qq.
      * set (m1 := emit_raw Mul_i (compile r (compile l m))).
        assert (GM : Good ts True m m1 (fun x => exists v w n n', Ph (TNum k1 sl) (sem ts l) (v, n) /\ Ph (TNum k2 sr) (sem ts r) (w, n') /\ x = (VI (as_i v * as_i w), n || n'))).
        { unfold m1. eapply (good_binary ts True _ _ _ _ Mul_i _ _ _ (Gl m) (Gr _)); try (emitted; fail).
          intros cap cx st [v n] [w n'] P Q. rewrite (binary_step _ _ _ (arith Z.mul)) by reflexivity. destruct (arith Z.mul v w) as [x|] eqn:Ex; [left; eexists; split; [reflexivity|]|right; auto].
          apply arith_val in Ex. subst x. exists v, w, n, n'. auto. }
        eapply (good_binary ts True _ _ _ _ Div_i _ _ _ GM); [eapply good_weaken; [|intros x Hx; exact Hx|apply (good_load ts _ (VI (pow10 (sl + sr - s))))]; intros []|..]; try (emitted; fail).
        cbn beta. intros cap cx st x y [v [w [n [n' [P [Q ->]]]]]] ->. rewrite (binary_step _ _ _ (divide Z.quot)) by reflexivity.
        destruct (divide Z.quot (VI (as_i v * as_i w)) (VI (pow10 (sl + sr - s)))) as [x|] eqn:Ex; [left; eexists; split; [reflexivity|]|right; auto].
        apply divide_val in Ex. destruct Ex as [-> _]. cbn [as_i]. rewrite orb_false_r. rewrite pow10_small by lia.
        destruct (n || n') eqn:En; [apply ph_null; eapply HN; eauto|]. apply orb_false_iff in En. destruct En as [-> ->]. destruct (HV v w P Q) as [q [Eq Qq]]. eapply ph_mk_num; [exact Eq|exact Qq].
    + clear Add. replace (Z.of_nat s <? Z.of_nat sl - Z.of_nat sr) with false by (symmetry; apply Z.ltb_ge; lia).
      replace (Z.to_nat (Z.of_nat s - (Z.of_nat sl - Z.of_nat sr))) with (s + sr - sl)%nat by lia.
      set (m1 := if Z.of_nat sl - Z.of_nat sr <? Z.of_nat s then _ else _).
      assert (GL : Good ts True m m1 (fun x => exists v n, Ph (TNum k1 sl) (sem ts l) (v, n) /\ snd x = n /\ as_i (fst x) = as_i v * 10 ^ Z.of_nat (s + sr - sl))).
      { unfold m1. destruct (Z.ltb_spec (Z.of_nat sl - Z.of_nat sr) (Z.of_nat s)) as [L|L].
        - eapply (good_binary ts True _ _ _ _ Mul_i _ _ _ (Gl m)); [eapply good_weaken; [|intros x Hx; exact Hx|apply (good_load ts _ (VI (pow10 (s + sr - sl))))]; intros []|..]; try (emitted; fail).
          cbn beta. intros cap cx st [v n] y P ->. rewrite (binary_step _ _ _ (arith Z.mul)) by reflexivity. destruct (arith Z.mul v (VI (pow10 (s + sr - sl)))) as [x|] eqn:Ex; [left; eexists; split; [reflexivity|]|right; auto].
          apply arith_val in Ex. subst x. exists v, n. split; [exact P|]. cbn [snd fst as_i]. rewrite orb_false_r, pow10_small by lia. auto.
        - eapply good_weaken; [intros _; exact I| |apply (Gl m)]. cbn beta. intros [v n] P. exists v, n. split; [exact P|]. split; [reflexivity|]. cbn [fst]. replace (s + sr - sl)%nat with O by lia. rewrite pow10_0. ring. }
      eapply (good_binary ts True _ _ _ _ Div_i _ _ _ GL (Gr _)); try (emitted; fail).
      intros cap cx st [x nx] [w n'] [v [n [P [Hn Hx]]]] Q. cbn [snd fst] in Hn, Hx. subst nx. rewrite (binary_step _ _ _ (divide Z.quot)) by reflexivity.
      destruct (divide Z.quot x w) as [z|] eqn:Ez; [left; eexists; split; [reflexivity|]|right; auto]. apply divide_val in Ez. destruct Ez as [-> Nz].
      destruct (ph_pair _ _ _ _ _ _ _ _ P Q) as [a [b [Ea [Eb [[En Hab]|[-> ->]]]]]]; [rewrite En; apply ph_null; eapply (Hnull ADiv); eauto|]. cbn [orb].
      destruct (ph_num _ _ _ _ P) as [qa [Ea' Qa]]. destruct (ph_num _ _ _ _ Q) as [qb [Eb' Qb]]. rewrite Ea', Eb'. cbn [s_arith].
      rewrite <- (Qeq_bool_comp _ _ Qb), (proj1 (q_zero _ _) Nz). eapply ph_mk_num; [reflexivity|]. cbn [as_i]. rewrite Hx. eapply Qeq_trans; [apply Qeq_sym; apply q_div; exact Nz|]. apply trunc_comp. rewrite Qa, Qb. reflexivity.
    + clear Add. subst sr. assert (Es : s = sl) by (unfold s; lia). clearbody s. subst s.
      eapply (good_binop True _ _ _ _ Mod_i _ _ _ _ _ _ (divide Z.rem) (Gl m) (Gr _)); try (emitted; fail); try (intros; reflexivity); [apply Hnull|].
      intros v w x P Q E. apply divide_val in E. destruct E as [-> Nz]. destruct (ph_num _ _ _ _ P) as [qa [-> Qa]]. destruct (ph_num _ _ _ _ Q) as [qb [-> Qb]]. cbn [s_arith].
      rewrite <- (Qeq_bool_comp _ _ Qb), (proj1 (q_zero _ _) Nz). eapply ph_mk_num; [reflexivity|]. cbn [as_i]. eapply Qeq_trans; [apply Qeq_sym; apply q_rem; exact Nz|].
      assert (Qd : Qeq ((as_i v # p10 sl) / (as_i w # p10 sl)) (qa / qb)) by (rewrite Qa, Qb; reflexivity). apply Qplus_comp; [exact Qa|]. apply Qopp_comp. apply Qmult_comp; [exact Qb|]. apply trunc_comp. exact Qd.
  - (* comparison *) cbn [plain type_of indices_small slots_present scales_ok] in *. destruct (type_of l) as [tl|] eqn:El; [|discriminate]. destruct (type_of r) as [tr|] eqn:Er; [|destruct tl; discriminate].
    destruct Hs as [Hsl [Hsr Hm]]. destruct Hi as [Hil Hir]. destruct Hp as [Hpl Hpr].
    set (A := (plain l && plain r && (scale_of (Some tl) =? scale_of (Some tr))%nat)%bool = false).
    assert (Gl : forall m, Good ts A m (compile l m) (Ph tl (sem ts l))) by (intros m0; eapply good_weaken; [|intros r0 Hr0; exact Hr0|apply IHl; auto]; unfold A; intros ->; reflexivity).
    assert (Gr : forall m, Good ts A m (compile r m) (Ph tr (sem ts r))) by (intros m0; eapply good_weaken; [|intros r0 Hr0; exact Hr0|apply IHr; auto]; unfold A; intros ->; rewrite andb_false_r; reflexivity).
    assert (Hnull : forall a b, sem ts l = Some a -> sem ts r = Some b -> a = SNull \/ b = SNull -> match sem ts l with Some a => match sem ts r with Some b => Some (s_cmp o a b) | None => None end | None => None end = Some SNull).
    { intros a b -> -> H. rewrite s_cmp_null by exact H. reflexivity. }
    destruct tl as [| |k1 sl|]; [discriminate| | |].
    + (* boolean *) destruct tr; try discriminate. assert (Et : t = TBool /\ (o = CEq \/ o = CNE)) by (destruct o; try discriminate; injection Ht as <-; auto). destruct Et as [-> Eo].
      eapply (good_binary ts A _ _ _ _ (cmp_b o) _ _ _ (Gl m) (Gr _)); try (emitted; fail). intros cap cx st [v n] [w n'] P Q. rewrite (cmp_b_step _ _ _ _ _ _ _ _ _ Eo). left. eexists. split; [reflexivity|].
      destruct (ph_pair _ _ _ _ _ _ _ _ P Q) as [a [b [Ea [Eb [[En Hab]|[-> ->]]]]]]; [rewrite En; apply ph_null; eapply Hnull; eauto|]. cbn [orb].
      rewrite (ph_bool _ _ P), (ph_bool _ _ Q). cbn [s_cmp]. eapply ph_mk_bool; [reflexivity|reflexivity].
    + (* numeric *) destruct tr as [| |k2 sr|]; try (destruct o; discriminate). assert (t = TBool) by (destruct o; injection Ht as <-; reflexivity). subst t. cbn [scale_of] in *.
      set (s := Nat.max sl sr) in *.
      assert (HA : sl <> s \/ sr <> s -> A). { intros H. unfold A. destruct (Nat.eqb_spec sl sr); [exfalso; unfold s in H; lia|apply andb_false_r]. }
      pose proof (good_scale ts A m _ k1 sl s (sem ts l) ltac:(lia) Hm ltac:(auto) (Gl m)) as G1.
      pose proof (good_scale ts A _ _ k2 sr s (sem ts r) ltac:(lia) Hm ltac:(auto) (Gr (c_scale sl s (compile l m)))) as G2.
      eapply (good_binary ts A _ _ _ _ (cmp_i o) _ _ _ G1 G2); try (emitted; fail). intros cap cx st [v n] [w n'] P Q. destruct (cmp_i_step cap cx ts o v n w n' st) as [x [-> ->]]. left. eexists. split; [reflexivity|].
      destruct (ph_pair _ _ _ _ _ _ _ _ P Q) as [a [b [Ea [Eb [[En Hab]|[-> ->]]]]]]; [rewrite En; apply ph_null; eapply Hnull; eauto|]. cbn [orb].
      destruct (ph_num _ _ _ _ P) as [qa [-> Qa]]. destruct (ph_num _ _ _ _ Q) as [qb [-> Qb]]. cbn [s_cmp]. eapply ph_mk_bool; [reflexivity|]. cbn [as_b]. f_equal. rewrite <- Qa, <- Qb. symmetry. apply Qcompare_same.
    + (* dates *) destruct tr; try (destruct o; discriminate). assert (t = TBool) by (destruct o; injection Ht as <-; reflexivity). subst t.
      eapply (good_binary ts A _ _ _ _ (cmp_i o) _ _ _ (Gl m) (Gr _)); try (emitted; fail). intros cap cx st [v n] [w n'] P Q. destruct (cmp_i_step cap cx ts o v n w n' st) as [x [-> ->]]. left. eexists. split; [reflexivity|].
      destruct (ph_pair _ _ _ _ _ _ _ _ P Q) as [a [b [Ea [Eb [[En Hab]|[-> ->]]]]]]; [rewrite En; apply ph_null; eapply Hnull; eauto|]. cbn [orb].
      rewrite (ph_date _ _ P), (ph_date _ _ Q). cbn [s_cmp]. eapply ph_mk_bool; [reflexivity|reflexivity].
  - (* AND *) cbn [plain type_of indices_small slots_present scales_ok] in *. destruct (type_of l) as [[| |k s|]|] eqn:El; try discriminate. destruct (type_of r) as [[| |k s|]|] eqn:Er; try discriminate. injection Ht as <-.
    destruct Hs as [Hsl Hsr]. destruct Hi as [Hil Hir]. destruct Hp as [Hpl Hpr]. set (A := (plain l && plain r)%bool = false).
    assert (Gl : forall m, Good ts A m (compile l m) (Ph TBool (sem ts l))) by (intros m0; eapply good_weaken; [|intros r0 Hr0; exact Hr0|apply IHl; auto]; unfold A; intros ->; reflexivity).
    assert (Gr : forall m, Good ts A m (compile r m) (Ph TBool (sem ts r))) by (intros m0; eapply good_weaken; [|intros r0 Hr0; exact Hr0|apply IHr; auto]; unfold A; intros ->; apply andb_false_r).
    eapply (good_binary ts A _ _ _ _ And_b _ _ _ (Gl m) (Gr _)); try (emitted; fail). intros cap cx st [v n] [w n'] P Q. left. eexists. split; [reflexivity|].
    assert (El' : sem ts l = Some (if n then SNull else SBool (as_b v))) by (destruct n; [exact (ph_null_l _ _ _ P)|exact (ph_bool _ _ P)]).
    assert (Er' : sem ts r = Some (if n' then SNull else SBool (as_b w))) by (destruct n'; [exact (ph_null_l _ _ _ Q)|exact (ph_bool _ _ Q)]).
    rewrite El', Er'. destruct n, n', (as_b v) eqn:Ev, (as_b w) eqn:Ew; cbn; first [apply ph_null; reflexivity | eapply ph_mk_bool; reflexivity].
  - (* OR *) cbn [plain type_of indices_small slots_present scales_ok] in *. destruct (type_of l) as [[| |k s|]|] eqn:El; try discriminate. destruct (type_of r) as [[| |k s|]|] eqn:Er; try discriminate. injection Ht as <-.
    destruct Hs as [Hsl Hsr]. destruct Hi as [Hil Hir]. destruct Hp as [Hpl Hpr]. set (A := (plain l && plain r)%bool = false).
    assert (Gl : forall m, Good ts A m (compile l m) (Ph TBool (sem ts l))) by (intros m0; eapply good_weaken; [|intros r0 Hr0; exact Hr0|apply IHl; auto]; unfold A; intros ->; reflexivity).
    assert (Gr : forall m, Good ts A m (compile r m) (Ph TBool (sem ts r))) by (intros m0; eapply good_weaken; [|intros r0 Hr0; exact Hr0|apply IHr; auto]; unfold A; intros ->; apply andb_false_r).
    eapply (good_binary ts A _ _ _ _ Or_b _ _ _ (Gl m) (Gr _)); try (emitted; fail). intros cap cx st [v n] [w n'] P Q. left. eexists. split; [reflexivity|].
    assert (El' : sem ts l = Some (if n then SNull else SBool (as_b v))) by (destruct n; [exact (ph_null_l _ _ _ P)|exact (ph_bool _ _ P)]).
    assert (Er' : sem ts r = Some (if n' then SNull else SBool (as_b w))) by (destruct n'; [exact (ph_null_l _ _ _ Q)|exact (ph_bool _ _ Q)]).
    rewrite El', Er'. destruct n, n', (as_b v) eqn:Ev, (as_b w) eqn:Ew; cbn; first [apply ph_null; reflexivity | eapply ph_mk_bool; reflexivity].
Qed.
End Main.

(** ** C31 for expressions *)
Definition well_formed (ts : list (list (val * bool))) (e : expr) : Prop :=
  indices_small e /\ slots_present ts e /\ scales_ok e /\ (length (ctx (compile e empty_sm)) <= 256)%nat.
Lemma good_run ts (A : Prop) m P : Good ts A empty_sm m P -> (length (ctx m) <= 256)%nat -> (exists r, run m ts = Ok [r] /\ P r) \/ (run m ts = Trap /\ A).
Proof.
  intros G L. destruct (g_ext _ _ _ _ _ G) as [c [k [E1 [E2 E3]]]]. cbn in E1, E2. unfold run. rewrite E1.
  apply (E3 (req m) (ctx m) [] []); [lia|symmetry; apply app_nil_r|exact L|cbn; lia].
Qed.
Theorem C31_compiled_expression_correct : forall ts e t, type_of e = Some t -> well_formed ts e ->
  match run (compile e empty_sm) ts with
  | Ok st => exists r sv, st = [r] /\ sem ts e = Some sv /\ sv_eq (denote t r) sv
  | Trap => plain e = false
  | _ => False
  end.
Proof.
  intros ts e t Ht [H1 [H2 [H3 H4]]]. destruct (good_run _ _ _ _ (compile_good ts e t empty_sm Ht H1 H2 H3) H4) as [[r [-> [sv [Es [P _]]]]]|[-> A]]; [|exact A].
  exists r, sv. auto.
Qed.
Theorem C31_plain_expression_always_evaluates : forall ts e t, type_of e = Some t -> well_formed ts e -> plain e = true ->
  exists r sv, run (compile e empty_sm) ts = Ok [r] /\ sem ts e = Some sv /\ sv_eq (denote t r) sv.
Proof.
  intros ts e t Ht W Hp. pose proof (C31_compiled_expression_correct ts e t Ht W) as H. destruct (run (compile e empty_sm) ts); try contradiction; [|congruence].
  destruct H as [r [sv [-> H]]]. exists r, sv. auto.
Qed.
(** Code compiled behind existing code leaves the operands already on the stack alone and pushes exactly one value. *)
Theorem C31_rest_of_stack_untouched : forall ts e t m, type_of e = Some t -> indices_small e -> slots_present ts e -> scales_ok e ->
  exists c, ops (compile e m) = ops m ++ c /\
  forall st, Z.of_nat (length st) <= cur m -> (length (ctx (compile e m)) <= 256)%nat ->
    match exec (req (compile e m)) (ctx (compile e m)) ts c st with
    | Ok st' => exists r sv, st' = r :: st /\ sem ts e = Some sv /\ sv_eq (denote t r) sv
    | Trap => plain e = false
    | _ => False
    end.
Proof.
  intros ts e t m Ht H1 H2 H3. pose proof (compile_good ts e t m Ht H1 H2 H3) as G. destruct (g_ext _ _ _ _ _ G) as [c [k [E1 [E2 E3]]]]. exists c. split; [exact E1|].
  intros st Hst L. destruct (E3 (req (compile e m)) (ctx (compile e m)) st [] ltac:(lia) ltac:(symmetry; apply app_nil_r) L Hst) as [[r [-> [sv [Es [P _]]]]]|[-> A]]; [|exact A].
  exists r, sv. auto.
Qed.

(** ** C31 for filters: a conjunction of clauses, under three-valued logic *)
Definition is_true (s : sval) : bool := match s with SBool true => true | _ => false end.
Definition is_false (s : sval) : bool := match s with SBool false => true | _ => false end.
Definition some_holds (vs : list sval) : sval := if existsb is_true vs then SBool true else if forallb is_false vs then SBool false else SNull.
Definition all_hold (vs : list sval) : sval := if existsb is_false vs then SBool false else if forallb is_true vs then SBool true else SNull.
Fixpoint all_defined {X} (l : list (option X)) : option (list X) :=
  match l with [] => Some [] | o :: l' => match o, all_defined l' with Some x, Some xs => Some (x :: xs) | _, _ => None end end.
Definition literal_value ts (p : bool * expr) : option sval := option_map (fun v => if fst p then k_not v else v) (sem ts (snd p)).
Definition clause_value ts (c : list (bool * expr)) : option sval := option_map some_holds (all_defined (map (literal_value ts) c)).
Definition filter_value ts (f : list (list (bool * expr))) : option sval := option_map all_hold (all_defined (map (clause_value ts) f)).

Lemma all_defined_app {X} (l : list (option X)) x : all_defined (l ++ [x]) = match all_defined l, x with Some xs, Some y => Some (xs ++ [y]) | _, _ => None end.
Proof. induction l as [|[a|] l IH]; cbn [app all_defined]; [destruct x; reflexivity| |reflexivity]. rewrite IH. destruct (all_defined l), x; reflexivity. Qed.
Definition logical (v : sval) : Prop := match v with SNull | SBool _ => True | _ => False end.
Lemma some_holds_app vs v : logical v -> some_holds (vs ++ [v]) = k_or (some_holds vs) v.
Proof.
  intros H. unfold some_holds. rewrite existsb_app, forallb_app. cbn [existsb forallb]. rewrite orb_false_r, andb_true_r.
  destruct v as [|[]| |]; try contradiction; cbn [is_true is_false]; destruct (existsb is_true vs), (forallb is_false vs); reflexivity.
Qed.
Lemma all_hold_app vs v : logical v -> all_hold (vs ++ [v]) = k_and (all_hold vs) v.
Proof.
  intros H. unfold all_hold. rewrite existsb_app, forallb_app. cbn [existsb forallb]. rewrite orb_false_r, andb_true_r.
  destruct v as [|[]| |]; try contradiction; cbn [is_true is_false]; destruct (existsb is_false vs), (forallb is_true vs); reflexivity.
Qed.
Lemma some_holds_one v : logical v -> some_holds [v] = v.
Proof. destruct v as [|[]| |]; try contradiction; reflexivity. Qed.
Lemma all_hold_one v : logical v -> all_hold [v] = v.
Proof. destruct v as [|[]| |]; try contradiction; reflexivity. Qed.
Lemma some_holds_logical vs : logical (some_holds vs).
Proof. unfold some_holds. destruct (existsb is_true vs), (forallb is_false vs); exact I. Qed.
Lemma ph_logic S (v : val) (n : bool) : Ph TBool S (v, n) -> S = Some (if n then SNull else SBool (as_b v)).
Proof. intros P. destruct n; [exact (ph_null_l _ _ _ P)|exact (ph_bool _ _ P)]. Qed.
Lemma ph_logic_mk S (v : val) (n : bool) : S = Some (if n then SNull else SBool (as_b v)) -> Ph TBool S (v, n).
Proof. intros ->. destruct n; [apply ph_null; reflexivity|eapply ph_mk_bool; reflexivity]. Qed.

Section Filters.
Context (ts : list (list (val * bool))).
Lemma or_good (A : Prop) m m1 m2 m' L R : Good ts A m m1 (Ph TBool L) -> Good ts A m1 m2 (Ph TBool R) -> m' = emit_raw Or_b m2 ->
  Good ts A m m' (Ph TBool (match L, R with Some a, Some b => Some (k_or a b) | _, _ => None end)).
Proof.
  intros G1 G2 ->. eapply (good_binary ts A _ _ _ _ Or_b _ _ _ G1 G2); try (emitted; fail). intros cap cx st [v n] [w n'] P Q. left. eexists. split; [reflexivity|].
  apply ph_logic in P, Q. subst L R. apply ph_logic_mk. f_equal. destruct n, n', (as_b v) eqn:Ev, (as_b w) eqn:Ew; reflexivity.
Qed.
Lemma and_good (A : Prop) m m1 m2 m' L R : Good ts A m m1 (Ph TBool L) -> Good ts A m1 m2 (Ph TBool R) -> m' = emit_raw And_b m2 ->
  Good ts A m m' (Ph TBool (match L, R with Some a, Some b => Some (k_and a b) | _, _ => None end)).
Proof.
  intros G1 G2 ->. eapply (good_binary ts A _ _ _ _ And_b _ _ _ G1 G2); try (emitted; fail). intros cap cx st [v n] [w n'] P Q. left. eexists. split; [reflexivity|].
  apply ph_logic in P, Q. subst L R. apply ph_logic_mk. f_equal. destruct n, n', (as_b v) eqn:Ev, (as_b w) eqn:Ew; reflexivity.
Qed.
Definition lit_ok (p : bool * expr) : Prop := type_of (snd p) = Some TBool /\ indices_small (snd p) /\ slots_present ts (snd p) /\ scales_ok (snd p).
Definition some_risky (f : list (bool * expr)) : Prop := existsb (fun p => negb (plain (snd p))) f = true.
Lemma lit_good (A : Prop) p m : lit_ok p -> (plain (snd p) = false -> A) ->
  Good ts A m (let m1 := compile (snd p) m in if fst p then emit_raw Not_b m1 else m1) (Ph TBool (literal_value ts p)).
Proof.
  destruct p as [[] e]; cbn [fst snd]; intros [H1 [H2 [H3 H4]]] HA; cbn zeta; unfold literal_value; cbn [fst snd].
  - eapply (good_unary ts A _ _ _ Not_b); [eapply good_weaken; [exact HA|intros r Hr; exact Hr|exact (compile_good ts e _ m H1 H2 H3 H4)]|..]; try (emitted; fail).
    intros cap cx st [v n] P. left. eexists. split; [reflexivity|]. apply ph_logic in P. rewrite P. apply ph_logic_mk. destruct n; reflexivity.
  - eapply good_weaken; [exact HA| |exact (compile_good ts e _ m H1 H2 H3 H4)]. intros [v n] P. apply ph_logic in P. rewrite P. apply ph_logic_mk. reflexivity.
Qed.
Lemma sem_logical e v : type_of e = Some TBool -> sem ts e = Some v -> logical v.
Proof.
  destruct e; cbn [type_of sem]; intros Ht Hs.
  - assert (t = TBool) by (destruct t as [| |[] []|]; congruence). subst t. destruct (nth_error ts tup) as [tp|]; [|discriminate]. destruct (nth_error tp idx) as [[w n]|]; [|discriminate].
    injection Hs as <-. destruct n; exact I.
  - assert (t = TBool) by (destruct v0, t as [| |[] []|]; congruence). subst t. injection Hs as <-. exact I.
  - discriminate.
  - destruct (sem ts e); [|discriminate]. injection Hs as <-. exact I.
  - destruct (type_of e) as [[| |[] ?|]|]; discriminate.
  - destruct (type_of e) as [[| |? ?|]|]; discriminate.
  - destruct (type_of e) as [[| |? ?|]|]; discriminate.
  - destruct (type_of e) as [[| |[] ?|]|]; discriminate.
  - destruct (sem ts e) as [w|]; [|discriminate]. injection Hs as <-. destruct w; exact I.
  - destruct (type_of e1) as [t1|]; [|discriminate]. destruct (type_of e2) as [t2|]; [|discriminate]. destruct (num_join_num _ _ _ Ht) as [k [s E]]. discriminate.
  - destruct (sem ts e1) as [a|], (sem ts e2) as [b|]; try discriminate. injection Hs as <-. destruct a, b; exact I.
  - destruct (sem ts e1) as [a|], (sem ts e2) as [b|]; try discriminate. injection Hs as <-. destruct a as [|[]| |], b as [|[]| |]; exact I.
  - destruct (sem ts e1) as [a|], (sem ts e2) as [b|]; try discriminate. injection Hs as <-. destruct a as [|[]| |], b as [|[]| |]; exact I.
Qed.
Lemma lit_logical p v : lit_ok p -> literal_value ts p = Some v -> logical v.
Proof. intros [Ht _] H. unfold literal_value in H. destruct (sem ts (snd p)) as [w|] eqn:E; [|discriminate]. injection H as <-. pose proof (sem_logical _ _ Ht E). destruct (fst p); [destruct w; exact I|assumption]. Qed.
Lemma clause_app pre p : lit_ok p -> clause_value ts (pre ++ [p]) = match clause_value ts pre, literal_value ts p with Some a, Some b => Some (k_or a b) | _, _ => None end.
Proof.
  intros H. unfold clause_value. rewrite map_app. cbn [map]. rewrite all_defined_app. destruct (all_defined (map (literal_value ts) pre)) as [vs|]; [|reflexivity]. cbn [option_map].
  destruct (literal_value ts p) as [v|] eqn:E; [|reflexivity]. cbn [option_map]. rewrite some_holds_app by (eapply lit_logical; eauto). reflexivity.
Qed.
Lemma clause_rest (A : Prop) c : forall pre m0 m, Good ts A m0 m (Ph TBool (clause_value ts pre)) -> Forall lit_ok c -> (forall p, In p c -> plain (snd p) = false -> A) ->
  Good ts A m0 (compile_clause false c m) (Ph TBool (clause_value ts (pre ++ c))).
Proof.
  induction c as [|[neg e] c IH]; intros pre m0 m G F HA; cbn [compile_clause]; [rewrite app_nil_r; exact G|].
  inversion F as [|? ? F1 F2]; subst. replace (pre ++ (neg, e) :: c) with ((pre ++ [(neg, e)]) ++ c) by (rewrite <- app_assoc; reflexivity).
  apply IH; [|exact F2|intros p Hp; apply HA; right; exact Hp]. rewrite clause_app by exact F1.
  eapply or_good; [exact G| |reflexivity]. exact (lit_good A (neg, e) m F1 (HA (neg, e) (or_introl eq_refl))).
Qed.
Lemma clause_good (A : Prop) c m : c <> [] -> Forall lit_ok c -> (forall p, In p c -> plain (snd p) = false -> A) -> Good ts A m (compile_clause true c m) (Ph TBool (clause_value ts c)).
Proof.
  destruct c as [|[neg e] c]; [congruence|]. intros _ F HA. cbn [compile_clause]. inversion F as [|? ? F1 F2]; subst.
  change ((neg, e) :: c) with ([(neg, e)] ++ c). apply clause_rest; [|exact F2|intros p Hp; apply HA; right; exact Hp].
  eapply good_weaken; [intros H; exact H| |exact (lit_good A (neg, e) m F1 (HA (neg, e) (or_introl eq_refl)))]. intros [v n] P. apply ph_logic in P. apply ph_logic_mk.
  unfold clause_value. cbn [map all_defined]. rewrite P. cbn [option_map]. rewrite some_holds_one; [reflexivity|destruct n; exact I].
Qed.
Lemma filter_app pre c : filter_value ts (pre ++ [c]) = match filter_value ts pre, clause_value ts c with Some a, Some b => Some (k_and a b) | _, _ => None end.
Proof.
  unfold filter_value. rewrite map_app. cbn [map]. rewrite all_defined_app. destruct (all_defined (map (clause_value ts) pre)) as [vs|]; [|reflexivity]. cbn [option_map].
  destruct (clause_value ts c) as [v|] eqn:E; [|reflexivity]. cbn [option_map]. rewrite all_hold_app; [reflexivity|].
  unfold clause_value in E. destruct (all_defined _) as [xs|]; [|discriminate]. injection E as <-. apply some_holds_logical.
Qed.
Definition clause_ok (c : list (bool * expr)) : Prop := c <> [] /\ Forall lit_ok c.
Lemma filter_rest (A : Prop) f : forall pre m0 m, Good ts A m0 m (Ph TBool (filter_value ts pre)) -> Forall clause_ok f -> (forall c p, In c f -> In p c -> plain (snd p) = false -> A) ->
  Good ts A m0 (compile_cnf false f m) (Ph TBool (filter_value ts (pre ++ f))).
Proof.
  induction f as [|c f IH]; intros pre m0 m G F HA; cbn [compile_cnf]; [rewrite app_nil_r; exact G|].
  inversion F as [|? ? [F1 F1'] F2]; subst. replace (pre ++ c :: f) with ((pre ++ [c]) ++ f) by (rewrite <- app_assoc; reflexivity).
  apply IH; [|exact F2|intros d p Hd; apply HA; right; exact Hd]. rewrite filter_app.
  eapply and_good; [exact G| |reflexivity]. apply clause_good; auto. intros p Hp. apply (HA c p); [left; reflexivity|exact Hp].
Qed.
Lemma filter_good (A : Prop) f m : f <> [] -> Forall clause_ok f -> (forall c p, In c f -> In p c -> plain (snd p) = false -> A) -> Good ts A m (compile_cnf true f m) (Ph TBool (filter_value ts f)).
Proof.
  destruct f as [|c f]; [congruence|]. intros _ F HA. cbn [compile_cnf]. inversion F as [|? ? [F1 F1'] F2]; subst.
  change (c :: f) with ([c] ++ f). apply filter_rest; [|exact F2|intros d p Hd; apply HA; right; exact Hd].
  eapply good_weaken; [intros H; exact H| |apply (clause_good A c m F1 F1'); intros p Hp; apply (HA c p); [left; reflexivity|exact Hp]]. intros [v n] P. apply ph_logic in P. apply ph_logic_mk.
  unfold filter_value. cbn [map all_defined]. rewrite P. cbn [option_map]. rewrite all_hold_one; [reflexivity|destruct n; exact I].
Qed.
End Filters.
Theorem C31_compiled_filter_correct : forall ts f, f <> [] ->
  Forall (fun c => c <> [] /\ Forall (fun p => type_of (snd p) = Some TBool /\ indices_small (snd p) /\ slots_present ts (snd p) /\ scales_ok (snd p)) c) f ->
  (length (ctx (compile_cnf true f empty_sm)) <= 256)%nat ->
  match run (compile_cnf true f empty_sm) ts with
  | Ok st => exists r, st = [r] /\ filter_value ts f = Some (denote TBool r)
  | Trap => exists c p, In c f /\ In p c /\ plain (snd p) = false
  | _ => False
  end.
Proof.
  intros ts f N F L. set (A := exists c p, In c f /\ In p c /\ plain (snd p) = false).
  destruct (good_run ts A _ _ (filter_good ts A f empty_sm N F ltac:(intros c p H1 H2 H3; exists c, p; auto)) L) as [[[v n] [-> P]]|[-> H]]; [|exact H].
  exists (v, n). split; [reflexivity|]. apply ph_logic in P. rewrite P. destruct n; reflexivity.
Qed.

(** ** Examples and the limits of C31 *)
(** [(price * qty > 100) OR (price IS NULL)] with a decimal of scale 2 and an integer *)
Example C31_expression_inhabited :
  let price := EAttr 0 0 (TNum NDec 2) in let qty := EAttr 0 1 (TNum NInt 0) in
  let e := EOr (ECmp CGT (EArith AMul price qty) (EConst (VI 100) (TNum NInt 0))) (EIsNull price) in
  let ts := [[(VI 1950, false); (VI 6, false)]] in
  type_of e = Some TBool /\ well_formed ts e /\ run (compile e empty_sm) ts = Ok [(VB true, false)] /\
  run (compile e empty_sm) [[(VNone, true); (VI 6, false)]] = Ok [(VB true, false)] /\
  run (compile e empty_sm) [[(VI 1950, false); (VNone, true)]] = Ok [(VB false, true)].
Proof.
  cbn zeta. split; [reflexivity|]. split; [|repeat split; reflexivity].
  split; [cbn; lia|]. split; [cbn; repeat split; eauto|]. split; [cbn; lia|]. cbn. lia.
Qed.
Example C31_filter_inhabited :
  let a := EAttr 0 0 (TNum NInt 0) in let b := EAttr 0 1 TBool in
  let f := [[(true, b); (false, ECmp CLT a (EConst (VI 3) (TNum NInt 0)))]; [(false, ECmp CNE a (EConst (VI 0) (TNum NInt 0)))]] in
  run (compile_cnf true f empty_sm) [[(VI 5, false); (VB true, true)]] = Ok [(VB false, true)] /\
  filter_value [[(VI 5, false); (VB true, true)]] f = Some SNull /\
  run (compile_cnf true f empty_sm) [[(VI 0, false); (VB true, true)]] = Ok [(VB false, false)].
Proof. repeat split; reflexivity. Qed.
(** Division by NULL: SQL says NULL, the machine divides by the payload 0 of the NULL. *)
Theorem C31_refuted_division_by_null : exists ts e, type_of e = Some (TNum NInt 0) /\ well_formed ts e /\ sem ts e = Some SNull /\ run (compile e empty_sm) ts = Trap.
Proof.
  exists [[(VI 7, false); (VNone, true)]], (EArith ADiv (EAttr 0 0 (TNum NInt 0)) (EAttr 0 1 (TNum NInt 0))).
  split; [reflexivity|]. split; [|split; reflexivity]. split; [cbn; lia|]. split; [cbn; repeat split; eauto|]. split; [cbn; lia|]. cbn; lia.
Qed.
(** [5.50 % 2] is computed on the unscaled representation: 0.00 instead of 1.50. *)
Theorem C31_refuted_modulo_of_different_scales : exists ts e r v, type_of e = Some (TNum NDec 2) /\ indices_small e /\ slots_present ts e /\
  run (compile e empty_sm) ts = Ok [r] /\ denote (TNum NDec 2) r = SNum (0 # 100) /\ sem ts e = Some (SNum v) /\ Qeq v (3 # 2).
Proof.
  exists [[(VI 550, false)]], (EArith AMod (EAttr 0 0 (TNum NDec 2)) (EConst (VI 2) (TNum NInt 0))). do 2 eexists.
  split; [reflexivity|]. split; [cbn; lia|]. split; [cbn [slots_present]; repeat split; do 2 eexists; split; reflexivity|]. split; [reflexivity|]. split; [reflexivity|]. split; [reflexivity|]. reflexivity.
Qed.
(** [1 / 1.000000000000000000]: the scale factor [10^36] wraps around. *)
Theorem C31_refuted_large_scale : exists ts e r v, type_of e = Some (TNum NDec 18) /\ indices_small e /\ slots_present ts e /\
  run (compile e empty_sm) ts = Ok [r] /\ snd r = false /\ sem ts e = Some (SNum v) /\ Qeq v 1 /\ ~ sv_eq (denote (TNum NDec 18) r) (SNum v).
Proof.
  exists [[(VI (10 ^ 18), false)]], (EArith ADiv (EConst (VI 1) (TNum NInt 0)) (EAttr 0 0 (TNum NDec 18))). do 2 eexists.
  split; [reflexivity|]. split; [cbn; lia|]. split; [cbn [slots_present]; repeat split; do 2 eexists; split; reflexivity|]. split; [vm_compute; reflexivity|]. split; [reflexivity|]. split; [vm_compute; reflexivity|]. split; [reflexivity|]. vm_compute. discriminate.
Qed.
(** The 257th constant is loaded from index 0. *)
Fixpoint sum_up_to (n : nat) : expr :=
  match n with O => EConst (VI 1) (TNum NInt 0) | S k => EArith APlus (sum_up_to k) (EConst (VI (Z.of_nat (S (S k)))) (TNum NInt 0)) end.
Theorem C31_refuted_257_constants : type_of (sum_up_to 256) = Some (TNum NInt 0) /\ run (compile (sum_up_to 256) empty_sm) [] = Ok [(VI 32897, false)] /\
  exists v, sem [] (sum_up_to 256) = Some (SNum v) /\ Qeq v 33153.
Proof. split; [vm_compute; reflexivity|]. split; [vm_compute; reflexivity|]. eexists. split; [vm_compute; reflexivity|]. vm_compute. reflexivity. Qed.
(** An empty clause behind another clause, or an empty conjunction, leaves no value to combine. *)
Theorem C31_refuted_empty_clause : exists f, In [] f /\ run (compile_cnf true f empty_sm) [] = Underrun.
Proof. exists [[(false, EConst (VB true) TBool)]; []]. split; [right; left; reflexivity|reflexivity]. Qed.

(** ** C32: the operand stack *)
(** The table the emitter keeps its books by agrees with what the interpreter does, for every opcode. *)
Theorem C32_opcode_table_matches_interpreter : forall o, delta o = snd (effect o).
Proof. intros []; reflexivity. Qed.
Theorem C32_step_height : forall cap cx ts i st,
  match step cap cx ts i st with
  | Ok st' => (fst (effect (code i)) <= length st)%nat /\ Z.of_nat (length st') = Z.of_nat (length st) + snd (effect (code i))
  | Overrun => cap < Z.of_nat (length st) + snd (effect (code i))
  | Underrun => (length st < fst (effect (code i)))%nat
  | _ => True
  end.
Proof.
  intros cap cx ts [o a] st. unfold step. cbn [code args].
  destruct o; try exact I; try (destruct a as [|? [|? [|]]]; exact I);
    unfold push, unary, binary, arith, divide, compare_i, compare_b;
    repeat match goal with
    | |- context [match nth_error ?l ?k with _ => _ end] => destruct (nth_error l k)
    | |- context [match ?l with [] => _ | _ => _ end] => is_var l; destruct l as [|? ?]
    | |- context [let (_, _) := ?p in _] => is_var p; destruct p
    | |- context [match ?p with (_, _) => _ end] => is_var p; destruct p
    | |- context [if in64 ?z then _ else _] => destruct (in64 z)
    | |- context [if negb ?z then _ else _] => destruct z
    | |- context [if ?x || ?y then _ else _] => destruct (x || y)
    | |- context [if ?x <? ?y then _ else _] => destruct (Z.ltb_spec x y)
    end; cbn [effect fst snd length]; try exact I; lia.
Qed.
(** Runs of code with regard to heights only: [Some h'] if no opcode lacks operands and the stack never exceeds [cap]. *)
Fixpoint heights (cap : Z) (l : list opcode) (h : Z) : option Z :=
  match l with
  | [] => Some h
  | o :: l' => if (Z.of_nat (fst (effect o)) <=? h) && (h + snd (effect o) <=? cap) then heights cap l' (h + snd (effect o)) else None
  end.
Theorem C32_heights_sound : forall cap cx ts l st, heights cap (map code l) (Z.of_nat (length st)) <> None ->
  exec cap cx ts l st <> Overrun /\ exec cap cx ts l st <> Underrun.
Proof.
  intros cap cx ts l. induction l as [|i l IH]; intros st H; cbn [exec map heights] in *; [split; discriminate|].
  pose proof (C32_step_height cap cx ts i st) as S. destruct (Z.leb_spec (Z.of_nat (fst (effect (code i)))) (Z.of_nat (length st))); [|cbn in H; congruence].
  destruct (Z.leb_spec (Z.of_nat (length st) + snd (effect (code i))) cap); [|cbn in H; congruence]. cbn [andb] in H.
  destruct (step cap cx ts i st) as [st'| | | | |]; try (split; discriminate); try (exfalso; lia). destruct S as [_ S]. apply IH. rewrite S. exact H.
Qed.
(** Programs built by the emit functions; untracked opcodes must not push. *)
Inductive emitted_program : sm -> Prop :=
| ep_new : emitted_program empty_sm
| ep_add m v : emitted_program m -> emitted_program (mkSM (ops m) (ctx m ++ [v]) (req m) (cur m))
| ep_emit m o a : emitted_program m -> emitted_program (emit_op o a m)
| ep_raw m o : emitted_program m -> delta o <= 0 -> emitted_program (emit_raw o m).
Definition total (l : list opcode) : Z := fold_right Z.add 0 (map (fun o => snd (effect o)) l).
Lemma total_app a b : total (a ++ b) = total a + total b.
Proof. unfold total. rewrite map_app, fold_right_app. induction (map _ a); cbn [fold_right]; lia. Qed.
Lemma prefix_snoc {X} (l p : list X) x : (exists q, l ++ [x] = p ++ q) -> p = l ++ [x] \/ exists q, l = p ++ q.
Proof.
  intros [q H]. destruct q as [|y q _] using rev_ind; [left; rewrite app_nil_r in H; auto|]. right. rewrite app_assoc in H. apply app_inj_tail in H. destruct H as [-> _]. exists q. reflexivity.
Qed.
Theorem C32_required_size_bounds_every_prefix : forall m, emitted_program m ->
  forall p q, map code (ops m) = p ++ q -> total p <= req m.
Proof.
  intros m H. cut (total (map code (ops m)) <= cur m /\ cur m <= req m /\ 0 <= req m /\ forall p q, map code (ops m) = p ++ q -> total p <= req m).
  { intros [_ [_ [_ X]]]. exact X. }
  induction H as [|m v H IH|m o a H IH|m o H IH L]; cbn [emit_op emit_raw ops ctx req cur empty_sm].
  - split; [reflexivity|]. split; [lia|]. split; [lia|]. intros p q E. symmetry in E. apply app_eq_nil in E. destruct E as [-> _]. reflexivity.
  - exact IH.
  - destruct IH as [I1 [I2 [I3 I4]]]. rewrite map_app, total_app. cbn [map code]. rewrite (C32_opcode_table_matches_interpreter o).
    assert (T : total [o] = snd (effect o)) by (unfold total; cbn; lia). rewrite T. split; [lia|]. split; [lia|]. split; [lia|].
    intros p q E. destruct (prefix_snoc _ _ _ (ex_intro _ q E)) as [->|[q' E']]; [rewrite total_app, T; lia|]. specialize (I4 _ _ E'). lia.
  - destruct IH as [I1 [I2 [I3 I4]]]. rewrite map_app, total_app. cbn [map code]. rewrite (C32_opcode_table_matches_interpreter o) in L.
    assert (T : total [o] = snd (effect o)) by (unfold total; cbn; lia). rewrite T. split; [lia|]. split; [lia|]. split; [lia|].
    intros p q E. destruct (prefix_snoc _ _ _ (ex_intro _ q E)) as [->|[q' E']]; [rewrite total_app, T; lia|]. exact (I4 _ _ E').
Qed.
Theorem C32_emitted_program_never_overruns : forall m ts, emitted_program m -> run m ts <> Overrun.
Proof.
  intros m ts H. unfold run. pose proof (C32_required_size_bounds_every_prefix m H) as B.
  assert (X : forall l pre st, map code (ops m) = pre ++ map code l -> total pre = Z.of_nat (length st) -> exec (req m) (ctx m) ts l st <> Overrun).
  { induction l as [|i l IH]; intros pre st E T; cbn [exec map] in *; [discriminate|].
    pose proof (C32_step_height (req m) (ctx m) ts i st) as S.
    assert (E' : map code (ops m) = (pre ++ [code i]) ++ map code l) by (rewrite <- app_assoc; exact E).
    specialize (B _ _ E'). rewrite total_app in B. assert (T1 : total [code i] = snd (effect (code i))) by (unfold total; cbn; lia). rewrite T1 in B.
    destruct (step (req m) (ctx m) ts i st) as [st'| | | | |]; try discriminate; [|lia].
    apply (IH (pre ++ [code i])); [exact E'|]. rewrite total_app, T1. lia. }
  exact (X (ops m) [] [] eq_refl eq_refl).
Qed.
(** Expressions and filters, well-typed or not, of any size, compiled behind any code: operands are always present, the computed size suffices, one value is left. *)
Lemma heights_app cap a b h : heights cap (a ++ b) h = match heights cap a h with Some h' => heights cap b h' | None => None end.
Proof. revert h. induction a as [|o a IH]; intros h; cbn [app heights]; [reflexivity|]. destruct (_ && _); auto. Qed.
Record Tall (m m' : sm) : Prop := {
  t_req : req m <= req m'; t_cur : cur m + 1 <= cur m';
  t_ops : exists c, ops m' = ops m ++ c /\ forall cap h, req m' <= cap -> 0 <= h <= cur m -> heights cap (map code c) h = Some (h + 1) }.
Lemma tall_leaf m m' o a : delta o = 1 -> fst (effect o) = O -> ops m' = ops m ++ [mkI o a] -> req m' = Z.max (req m) (cur m + 1) -> cur m' = cur m + 1 -> Tall m m'.
Proof.
  intros D F E1 E2 E3. constructor; [lia|lia|]. eexists. split; [exact E1|]. intros cap h H1 H2. cbn [map code heights]. rewrite <- C32_opcode_table_matches_interpreter, D, F.
  replace (Z.of_nat 0 <=? h) with true by (symmetry; apply Z.leb_le; lia). replace (h + 1 <=? cap) with true by (symmetry; apply Z.leb_le; lia). reflexivity.
Qed.
Lemma tall_unary m m1 m' o : Tall m m1 -> ops m' = ops m1 ++ [mkI o []] -> effect o = (1%nat, 0) -> req m1 <= req m' -> cur m1 <= cur m' -> Tall m m'.
Proof.
  intros [R C [c [E H]]] E1 F E2 E3. constructor; [lia|lia|]. exists (c ++ [mkI o []]). split; [rewrite E1, E; symmetry; apply app_assoc|]. intros cap h H1 H2.
  rewrite map_app, heights_app, H by lia. cbn [map code heights]. rewrite F. cbn [fst snd].
  assert (L : h + 1 <= cap). { clear - H R C H1 H2 E2. assert (X := H cap h ltac:(lia) H2). revert X. generalize (map code c). intros l X. assert (G : forall l h h', heights cap l h = Some h' -> h <= cap -> h' <= cap).
    { induction l0 as [|o l0 IH]; intros a b; cbn [heights]; [congruence|]. destruct (Z.leb_spec (a + snd (effect o)) cap); [|rewrite andb_false_r; discriminate]. destruct (_ && _); [|discriminate]. intros Y _. eauto. }
    destruct l as [|o l]; [cbn in X; injection X as X; lia|]. cbn [heights] in X. destruct (Z.leb_spec (h + snd (effect o)) cap); [|rewrite andb_false_r in X; discriminate]. destruct (_ && _); [|discriminate]. eauto. }
  replace (Z.of_nat 1 <=? h + 1) with true by (symmetry; apply Z.leb_le; lia). replace (h + 1 + 0 <=? cap) with true by (symmetry; apply Z.leb_le; lia). cbn [andb]. f_equal. lia.
Qed.
Lemma heights_cap cap l h : l <> [] -> forall h', heights cap l h = Some h' -> h' <= cap.
Proof.
  assert (G : forall l h h', heights cap l h = Some h' -> h <= cap -> h' <= cap).
  { induction l0 as [|o l0 IH]; intros a b; cbn [heights]; [congruence|]. destruct (Z.leb_spec (a + snd (effect o)) cap); [|rewrite andb_false_r; discriminate]. destruct (_ && _); [|discriminate]. intros Y _. eauto. }
  destruct l as [|o l]; [congruence|]. intros _ h' X. cbn [heights] in X. destruct (Z.leb_spec (h + snd (effect o)) cap); [|rewrite andb_false_r in X; discriminate]. destruct (_ && _); [|discriminate]. eauto.
Qed.
Lemma tall_binary m m1 m2 m' o : Tall m m1 -> Tall m1 m2 -> ops m' = ops m2 ++ [mkI o []] -> effect o = (2%nat, (-1)) -> req m2 <= req m' -> cur m2 - 1 <= cur m' -> Tall m m'.
Proof.
  intros [R C [c [E H]]] [R' C' [d [E' H']]] E1 F E2 E3. constructor; [lia|lia|]. exists (c ++ d ++ [mkI o []]). split; [rewrite E1, E', E, <- !app_assoc; reflexivity|]. intros cap h H1 H2.
  rewrite !map_app, !heights_app, H by lia. assert (X := H cap h ltac:(lia) H2). assert (X' := H' cap (h + 1) ltac:(lia) ltac:(lia)). rewrite heights_app, X'. cbn [map code heights]. rewrite F. cbn [fst snd].
  assert (L : h + 1 <= cap). { eapply heights_cap; [|exact X]. intros N. rewrite N in X. cbn in X. injection X as X. lia. }
  replace (Z.of_nat 2 <=? h + 1 + 1) with true by (symmetry; apply Z.leb_le; lia). replace (h + 1 + 1 + -1 <=? cap) with true by (symmetry; apply Z.leb_le; lia). cbn [andb]. f_equal. lia.
Qed.
Lemma tall_load m v : Tall m (add_load v m).
Proof. eapply tall_leaf with (o := Ld_Ctx); reflexivity. Qed.
Lemma tall_scale m m1 a b : Tall m m1 -> Tall m (c_scale a b m1).
Proof. intros T. unfold c_scale. destruct (Nat.ltb a b); [|destruct (Nat.ltb b a); [|exact T]]; (eapply tall_binary; [exact T|apply tall_load|..]; emitted). Qed.
Lemma tall_compile e : forall m, Tall m (compile e m).
Proof.
  induction e; intros m; cbn [compile];
    try (eapply tall_leaf; [..|reflexivity|reflexivity|reflexivity]; reflexivity);
    try (eapply tall_unary; [apply IHe|..]; emitted);
    try (eapply tall_binary; [apply IHe1|apply IHe2|..]; emitted); try apply IHe.
  - destruct (type_of e) as [[| | |]|]; try apply IHe. eapply tall_unary; [apply IHe|..]; emitted.
  - destruct o.
    1,2: eapply tall_binary; [apply tall_scale; apply IHe1|apply tall_scale; apply IHe2|..]; emitted.
    + assert (T : Tall m (emit_raw Mul_i (compile e2 (compile e1 m)))) by (eapply tall_binary; [apply IHe1|apply IHe2|..]; emitted).
      destruct (Nat.eqb _ _); [exact T|]. eapply tall_binary; [exact T|apply tall_load|..]; emitted.
    + set (m2 := if Z.of_nat _ - Z.of_nat _ <? _ then _ else _). assert (T2 : Tall m m2).
      { unfold m2. destruct (_ <? _); [|apply IHe1]. eapply tall_binary; [apply IHe1|apply tall_load|..]; emitted. }
      clearbody m2. assert (T : Tall m (emit_raw Div_i (compile e2 m2))) by (eapply tall_binary; [exact T2|apply IHe2|..]; emitted).
      destruct (_ <? _); [|exact T]. eapply tall_binary; [exact T|apply tall_load|..]; emitted.
    + eapply tall_binary; [apply IHe1|apply IHe2|..]; emitted.
  - destruct (type_of e1) as [[| | |]|];
      try (eapply tall_binary; [apply IHe1|apply IHe2|..]; [emitted|destruct o; reflexivity|emitted|emitted]).
    eapply tall_binary; [apply tall_scale; apply IHe1|apply tall_scale; apply IHe2|..]; [emitted|destruct o; reflexivity|emitted|emitted].
Qed.
Theorem C32_compiled_expression_fits : forall e m, exists c, ops (compile e m) = ops m ++ c /\
  forall h, 0 <= h <= cur m -> heights (req (compile e m)) (map code c) h = Some (h + 1).
Proof. intros e m. destruct (tall_compile e m) as [_ _ [c [E H]]]. exists c. split; [exact E|]. intros h Hh. apply H; [lia|exact Hh]. Qed.
Lemma tall_clause c : forall m0 m, Tall m0 m -> Tall m0 (compile_clause false c m).
Proof.
  induction c as [|[neg e] c IH]; intros m0 m T; cbn [compile_clause]; [exact T|]. apply IH.
  eapply (tall_binary _ _ _ _ Or_b); [exact T| |reflexivity|reflexivity|emitted|emitted]. destruct neg; [eapply tall_unary; [apply tall_compile|..]; emitted|apply tall_compile].
Qed.
Lemma tall_clause1 c m : c <> [] -> Tall m (compile_clause true c m).
Proof. destruct c as [|[neg e] c]; [congruence|]. intros _. cbn [compile_clause]. apply tall_clause. destruct neg; [eapply tall_unary; [apply tall_compile|..]; emitted|apply tall_compile]. Qed.
Lemma tall_filter f : forall m0 m, Forall (fun c => c <> []) f -> Tall m0 m -> Tall m0 (compile_cnf false f m).
Proof.
  induction f as [|c f IH]; intros m0 m F T; cbn [compile_cnf]; [exact T|]. inversion F as [|? ? F1 F2]; subst. apply IH; [exact F2|].
  eapply tall_binary; [exact T|apply tall_clause1; exact F1|..]; emitted.
Qed.
Theorem C32_compiled_filter_fits : forall f m, f <> [] -> Forall (fun c => c <> []) f -> exists c, ops (compile_cnf true f m) = ops m ++ c /\
  forall h, 0 <= h <= cur m -> heights (req (compile_cnf true f m)) (map code c) h = Some (h + 1).
Proof.
  intros f m N F. assert (T : Tall m (compile_cnf true f m)).
  { destruct f as [|c f]; [congruence|]. cbn [compile_cnf]. inversion F as [|? ? F1 F2]; subst. apply tall_filter; [exact F2|]. apply tall_clause1. exact F1. }
  destruct T as [_ _ [c [E H]]]. exists c. split; [exact E|]. intros h Hh. apply H; [lia|exact Hh].
Qed.
Theorem C32_compiled_expression_never_over_or_underruns : forall ts e, run (compile e empty_sm) ts <> Overrun /\ run (compile e empty_sm) ts <> Underrun.
Proof.
  intros ts e. unfold run. destruct (C32_compiled_expression_fits e empty_sm) as [c [E H]]. cbn in E. rewrite E. apply C32_heights_sound. cbn [length]. rewrite H by (cbn; lia). discriminate.
Qed.
Example C32_deep : forall ts, run (compile (EAnd (ENot (ECmp CLT (EArith AMul (EConst (VI 2) (TNum NInt 0)) (EConst (VI 3) (TNum NInt 0))) (EConst (VI 6) (TNum NInt 0)))) (EConst (VB true) TBool)) empty_sm) ts = Ok [(VB true, false)]
  /\ req (compile (EAnd (ENot (ECmp CLT (EArith AMul (EConst (VI 2) (TNum NInt 0)) (EConst (VI 3) (TNum NInt 0))) (EConst (VI 6) (TNum NInt 0)))) (EConst (VB true) TBool)) empty_sm) = 4.
Proof. split; reflexivity. Qed.
(** The stack is allocated once, by the first run: code emitted afterwards overruns it. *)
Theorem C32_refuted_emit_after_run : exists m v ts, emitted_program m /\ run m ts = Ok [(v, false)] /\
  exec (req m) (ctx (add_load v m)) ts (ops (add_load v m)) [] = Overrun.
Proof.
  exists (add_load (VI 1) empty_sm), (VI 1), []. split; [|split; reflexivity]. unfold add_load. apply ep_emit. apply (ep_add empty_sm). constructor.
Qed.

(** ** C33: the connectives, for every payload beside the NULL bit *)
Theorem C33_and : forall cap cx ts l nl r nr st, exists v n, step cap cx ts (mkI And_b []) ((r, nr) :: (l, nl) :: st) = Ok ((v, n) :: st) /\
  denote TBool (v, n) = k_and (denote TBool (l, nl)) (denote TBool (r, nr)).
Proof. intros. do 2 eexists. split; [reflexivity|]. unfold denote. cbn [fst snd]. destruct nl, nr, (as_b l), (as_b r); reflexivity. Qed.
Theorem C33_or : forall cap cx ts l nl r nr st, exists v n, step cap cx ts (mkI Or_b []) ((r, nr) :: (l, nl) :: st) = Ok ((v, n) :: st) /\
  denote TBool (v, n) = k_or (denote TBool (l, nl)) (denote TBool (r, nr)).
Proof. intros. do 2 eexists. split; [reflexivity|]. unfold denote. cbn [fst snd]. destruct nl, nr, (as_b l), (as_b r); reflexivity. Qed.
Theorem C33_not : forall cap cx ts r nr st, exists v n, step cap cx ts (mkI Not_b []) ((r, nr) :: st) = Ok ((v, n) :: st) /\
  denote TBool (v, n) = k_not (denote TBool (r, nr)).
Proof. intros. do 2 eexists. split; [reflexivity|]. unfold denote. cbn [fst snd]. destruct nr, (as_b r); reflexivity. Qed.
Example C33_payload_ignored : step 5 [] [] (mkI And_b []) [(VB true, true); (VB false, false)] = Ok [(VB false, false)] /\ step 5 [] [] (mkI Or_b []) [(VI 77, true); (VB false, false)] = Ok [(VB true, true)].
Proof. split; reflexivity. Qed.
