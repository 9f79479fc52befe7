(** * Theorems about the physical optimizer *)
From Coq Require Import Arith List Bool Permutation Lia.
From Verif Require Import PhysOpt PhysOptSpec PhysOptProofs.
Import ListNotations.

Section Props.
  Context {D Cond Cost : Type} (implied_by ceqb : Cond -> Cond -> bool) (cempty : Cond) (is_empty : Cond -> bool)
    (ltb : Cost -> Cost -> bool) (add : Cost -> Cost -> Cost) (inf : Cost) (available : list (PhysOp D Cond Cost)).
  Notation covers := (covers implied_by cempty is_empty add available).
  Notation cover := (cover implied_by ceqb cempty is_empty ltb add available).

  Lemma both : (forall c c', ceqb c c' = true <-> c = c') -> cost_model ltb add -> registrable available -> forall plan,
    (forall e, In e (last (cover plan) []) -> covers (assign_post_order_ids 0 plan) (match_ e) (condition e) (ecost e)) /\
    (forall m c k, covers (assign_post_order_ids 0 plan) m c k -> exists e, In e (last (cover plan) []) /\ condition e = c /\ ltb k (ecost e) = false).
  Proof.
    intros Ce (Asym & Trans & Mono) Reg plan.
    assert (Refl : forall a, ltb a a = false) by (intros a; destruct (ltb a a) eqn:E; [exact (eq_trans (eq_sym E) (Asym _ _ E))|auto]).
    assert (Tr : forall a b c, le Cost ltb a b -> le Cost ltb b c -> le Cost ltb a c) by (intros a b c H H'; exact (Trans a b c H H')).
    exact (cover_done D Cond Cost implied_by ceqb cempty is_empty ltb add available Ce Refl Tr Asym Mono Reg plan).
  Qed.

  (** Every entry of the plan is a covering, with the post-condition and the cost it has. *)
  Theorem C57_sound : (forall c c', ceqb c c' = true <-> c = c') -> cost_model ltb add -> registrable available ->
    forall plan e, In e (last (cover plan) []) -> covers (assign_post_order_ids 0 plan) (match_ e) (condition e) (ecost e).
  Proof. intros Ce Cm Reg plan. exact (proj1 (both Ce Cm Reg plan)). Qed.

  (** For every covering there is an entry with the same post-condition that is not more expensive. *)
  Theorem C57_optimal : (forall c c', ceqb c c' = true <-> c = c') -> cost_model ltb add -> registrable available ->
    forall plan m c k, covers (assign_post_order_ids 0 plan) m c k -> exists e, In e (last (cover plan) []) /\ condition e = c /\ ltb k (ecost e) = false.
  Proof. intros Ce Cm Reg plan. exact (proj2 (both Ce Cm Reg plan)). Qed.

  (** There is a plan iff there is a covering. *)
  Theorem C57_has_plan : (forall c c', ceqb c c' = true <-> c = c') -> cost_model ltb add -> registrable available ->
    forall plan, has_plan (cover plan) = true <-> exists m c k, covers (assign_post_order_ids 0 plan) m c k.
  Proof.
    intros Ce Cm Reg plan. destruct (both Ce Cm Reg plan) as [So Co]. unfold has_plan. destruct (last (cover plan) []) as [|e es].
    - split; [discriminate|]. intros (m & c & k & H). destruct (Co m c k H) as (e & [] & _).
    - split; [|auto]. intros _. exists (match_ e), (condition e), (ecost e). apply So. now left.
  Qed.

  Lemma fold_min : cost_model ltb add -> forall es seen bm,
    match fst bm with
    | None => snd bm = inf /\ forall e, In e seen -> ltb (ecost e) inf = false
    | Some b => snd bm = ecost b /\ In b seen /\ ltb (ecost b) inf = true /\ forall e, In e seen -> ltb (ecost e) (ecost b) = false
    end ->
    match fst (fold_left (fun bm (e : entry D Cond Cost) => if ltb (ecost e) (snd bm) then (Some e, ecost e) else bm) es bm) with
    | None => forall e, In e (seen ++ es) -> ltb (ecost e) inf = false
    | Some b => In b (seen ++ es) /\ ltb (ecost b) inf = true /\ forall e, In e (seen ++ es) -> ltb (ecost e) (ecost b) = false
    end.
  Proof.
    intros (Asym & Trans & _). assert (Irr : forall a, ltb a a = false) by (intros a; destruct (ltb a a) eqn:E; [exact (eq_trans (eq_sym E) (Asym _ _ E))|auto]).
    induction es as [|e es IH]; intros seen bm H; cbn [fold_left].
    - rewrite app_nil_r. destruct (fst bm); intuition.
    - change (e :: es) with ([e] ++ es). rewrite app_assoc. apply IH. destruct bm as [[b|] m]; cbn [fst snd] in *.
      + destruct H as (-> & I & Lt & Mi). destruct (ltb (ecost e) (ecost b)) eqn:E; cbn [fst snd].
        * split; [auto|]. split; [apply in_or_app; right; now left|]. split.
          { destruct (ltb (ecost e) inf) eqn:F; [auto|]. rewrite (Trans inf (ecost e) (ecost b) F (Asym _ _ E)) in Lt. discriminate. }
          intros x Ix. apply in_app_or in Ix. destruct Ix as [Ix|[<-|[]]]; [|apply Irr]. eapply Trans; [apply Asym; exact E|]. now apply Mi.
        * split; [auto|]. split; [apply in_or_app; now left|]. split; [auto|]. intros x Ix. apply in_app_or in Ix. destruct Ix as [Ix|[<-|[]]]; auto.
      + destruct H as [-> H]. destruct (ltb (ecost e) inf) eqn:E; cbn [fst snd].
        * split; [auto|]. split; [apply in_or_app; right; now left|]. split; [auto|]. intros x Ix. apply in_app_or in Ix. destruct Ix as [Ix|[<-|[]]]; [|apply Irr].
          eapply Trans; [apply Asym; exact E|]. now apply H.
        * split; [auto|]. intros x Ix. apply in_app_or in Ix. destruct Ix as [Ix|[<-|[]]]; auto.
  Qed.

  (** If a covering of finite cost exists, the plan extracted is a covering, and none is cheaper. *)
  Theorem C57_extract : (forall c c', ceqb c c' = true <-> c = c') -> cost_model ltb add -> registrable available ->
    forall plan, (exists m c k, covers (assign_post_order_ids 0 plan) m c k /\ ltb k inf = true) ->
    exists e, get_plan_entry ltb inf (cover plan) = Some e /\ covers (assign_post_order_ids 0 plan) (match_ e) (condition e) (ecost e) /\
      forall m c k, covers (assign_post_order_ids 0 plan) m c k -> ltb k (ecost e) = false.
  Proof.
    intros Ce Cm Reg plan (m & c & k & Cv & Fin). destruct (both Ce Cm Reg plan) as [So Co]. unfold get_plan_entry.
    pose proof (fold_min Cm (last (cover plan) []) [] (None, inf)) as F. cbn [fst snd app] in F. specialize (F (conj eq_refl (fun e (I : In e []) => match I with end))).
    destruct Cm as (Asym & Trans & _). destruct (fst _) as [b|].
    - destruct F as (I & _ & Mi). exists b. split; [auto|]. split; [now apply So|]. intros m' c' k' Cv'. destruct (Co m' c' k' Cv') as (e' & I' & _ & Le).
      eapply Trans; [|exact Le]. now apply Mi.
    - destruct (Co m c k Cv) as (e & I & _ & Le). rewrite (Trans inf (ecost e) k (F e I) Le) in Fin. discriminate.
  Qed.

  (** Plans are extracted only if they are there. *)
  Theorem C57_extract_sound : (forall c c', ceqb c c' = true <-> c = c') -> cost_model ltb add -> registrable available ->
    forall plan e, get_plan_entry ltb inf (cover plan) = Some e -> covers (assign_post_order_ids 0 plan) (match_ e) (condition e) (ecost e) /\ ltb (ecost e) inf = true.
  Proof.
    intros Ce Cm Reg plan e. destruct (both Ce Cm Reg plan) as [So _]. unfold get_plan_entry.
    pose proof (fold_min Cm (last (cover plan) []) [] (None, inf)) as F. cbn [fst snd app] in F. specialize (F (conj eq_refl (fun e (I : In e []) => match I with end))).
    intros E. rewrite E in F. destruct F as (I & L & _). split; [now apply So|auto].
  Qed.
End Props.

(** ** The interpreter *)
Lemma ext_cost_model : cost_model ext_ltb ext_add.
Proof.
  split; [|split].
  - intros [a|] [b|]; cbn [ext_ltb ext_add]; try discriminate; auto. rewrite Nat.ltb_lt, Nat.ltb_ge. lia.
  - intros [a|] [b|] [c|]; cbn [ext_ltb ext_add]; try discriminate; auto. rewrite !Nat.ltb_ge. lia.
  - intros [a|] [a'|] [b|] [b'|]; cbn [ext_ltb ext_add]; try discriminate; auto. rewrite !Nat.ltb_ge. lia.
Qed.
Definition unit_eqb (_ _ : unit) : bool := true.
Definition unit_implied (_ _ : unit) : bool := true.
Definition unit_empty (_ : unit) : bool := true.
Lemma unit_eqb_spec : forall c c', unit_eqb c c' = true <-> c = c'.
Proof. intros [] []. split; reflexivity. Qed.
Lemma interpreter_registrable : forall D, registrable (interpreter_operators D).
Proof. intros D P I. apply in_map_iff in I. destruct I as (c & <- & _). discriminate. Qed.
Notation icovers D := (covers unit_implied tt unit_empty ext_add (interpreter_operators D)).
Notation icover D := (cover unit_implied unit_eqb tt unit_empty ext_ltb ext_add (interpreter_operators D)).

Lemma assign_list : forall {D} (l : list (Op D)) next,
  let go := fix go (next : nat) (l : list (Op D)) : list (Op D) * nat :=
    match l with [] => ([], next) | x :: r => let x := assign_post_order_ids next x in let (r, n) := go (id x + 1) r in (x :: r, n) end in
  exists f : list nat, length f = length l /\ fst (go next l) = map (fun p => assign_post_order_ids (fst p) (snd p)) (combine f l).
Proof.
  intros D. induction l as [|x l IH]; intros next go; [exists []; auto|]. destruct (IH (id (assign_post_order_ids next x) + 1)) as (f & L & E).
  exists (next :: f). cbn [length go]. split; [now rewrite L|]. fold go in E. destruct (go _ l) as [r n]. cbn [fst] in *. cbn [combine map fst snd]. now rewrite E.
Qed.
Lemma assign_op : forall {D} lo i c (d : D) l, exists n f, length f = length l /\
  assign_post_order_ids lo (mkOp i c d l) = mkOp n c d (map (fun p => assign_post_order_ids (fst p) (snd p)) (combine f l)).
Proof.
  intros. destruct (assign_list l lo) as (f & L & E). cbn [assign_post_order_ids]. cbv zeta in E. match type of E with fst ?X = _ => destruct X as [l' n] end. cbn [fst] in E. subst l'. exists n, f. split; [exact L|reflexivity].
Qed.
Lemma operators_assign : forall {D} (o : Op D) lo, operators (assign_post_order_ids lo o) = operators o.
Proof.
  intros D. induction o as [i c d l IH] using Op_ind'. intros lo. destruct (assign_op lo i c d l) as (n & f & L & ->). cbn [operators]. f_equal. f_equal. rewrite map_map.
  revert f L. induction l as [|x l IHl]; intros [|y f] L; try discriminate; [auto|]. cbn [combine map fst snd]. rewrite IH by now left. f_equal. apply IHl; [intros z I; apply IH; now right|now injection L].
Qed.
Lemma shape_assign : forall {D} (o : Op D) lo, plan_shape o -> plan_shape (assign_post_order_ids lo o).
Proof.
  intros D. induction o as [i c d l IH] using Op_ind'. intros lo S. inversion S as [? ? ? ? Sc Ch]; subst. destruct (assign_op lo i c d l) as (n & f & L & ->). constructor.
  - intros E. rewrite (Sc E). now destruct f.
  - intros x I. apply in_map_iff in I. destruct I as ([y z] & <- & I). apply in_combine_r in I. cbn [fst snd]. apply IH; auto.
Qed.

Lemma icovers_inv : forall D (o : Op D) m c k, plan_shape o -> icovers D o m c k -> k = Some (operators o).
Proof.
  intros D. induction o as [i cl d l IH] using Op_ind'. intros m c k S H. inversion S as [? ? ? ? Sc Ch]; subst.
  inversion H as [P ? ns ins ms cs ks Av F In_]; subst. apply in_map_iff in Av. destruct Av as (cc & <- & _). cbn [interpreter_operator pattern] in F.
  assert (G : forall (l : list (Op D)) ns ii ms cs ks, (forall x, In x l -> forall m c k, plan_shape x -> icovers D x m c k -> k = Some (operators x)) -> (forall x, In x l -> plan_shape x) ->
    inputs unit_implied tt unit_empty ext_add (interpreter_operators D) (interpreter_operator D cc) ii (map (fun x => (Some x, ns)) l) ms cs ks ->
    forall a, fold_left ext_add ks (Some a) = Some (a + list_sum (map operators l))).
  { clear. induction l as [|x l IHl]; intros ns ii ms cs ks H Sh I a; cbn [map] in I; inversion I as [| |? ? ? ? ? ? ? ? ? ? ? Cv Im In_]; subst; cbn [fold_left map list_sum fold_right].
    - now rewrite Nat.add_0_r.
    - rewrite (H x (or_introl eq_refl) _ _ _ (Sh x (or_introl eq_refl)) Cv). cbn [ext_add]. erewrite IHl; [|intros y J; apply H; now right|intros y J; apply Sh; now right|exact In_].
      f_equal. unfold list_sum. lia. }
  inversion F as [|? ? ? Ia Co|? ? ? Ia Co| |]; subst.
  - inversion In_ as [|? ? ? ? ? ? ? Im In_' |]; subst. inversion In_'; subst. cbn [fold_left interpreter_operator cost operators].
    assert (cl = Scan) as -> by (destruct cc; try discriminate; destruct cl; try discriminate; auto). rewrite (Sc eq_refl). reflexivity.
  - cbn [children] in In_. cbn [interpreter_operator cost]. rewrite (G l _ _ _ _ _ IH Ch In_). cbn [operators]. f_equal.
Qed.
Lemma icovers_ex : forall D (o : Op D), plan_shape o -> exists m c k, icovers D o m c k.
Proof.
  intros D. induction o as [i cl d l IH] using Op_ind'. intros S. inversion S as [? ? ? ? Sc Ch]; subst.
  assert (Av : In (interpreter_operator D cl) (interpreter_operators D)) by (apply in_map; destruct cl; cbn; tauto).
  assert (Ia : is_a cl cl = true) by now destruct cl.
  assert (G : forall (l : list (Op D)) ns ii, (forall x, In x l -> exists m c k, icovers D x m c k) ->
    exists ms cs ks, inputs unit_implied tt unit_empty ext_add (interpreter_operators D) (interpreter_operator D cl) ii (map (fun x => (Some x, ns)) l) ms cs ks).
  { clear. induction l as [|x l IHl]; intros ns ii H; [exists [], [], []; constructor|]. destruct (H x (or_introl eq_refl)) as (m & c & k & Cv).
    destruct (IHl ns (S ii)) as (ms & cs & ks & In_); [intros y J; apply H; now right|]. exists (m :: ms), (c :: cs), (k :: ks). cbn [map]. constructor; auto. }
  destruct (consumer cl) eqn:Co.
  - destruct (G l ([] ++ [mkOp i cl d l]) 0) as (ms & cs & ks & In_); [intros x I; apply IH; auto|]. do 3 eexists. eapply covers_by; [exact Av| |exact In_]. cbn [interpreter_operator pattern].
    change l with (children (mkOp i cl d l)) at 3. apply fits_inner; auto.
  - do 3 eexists. eapply covers_by; [exact Av| |]; [cbn [interpreter_operator pattern]; apply fits_leaf; auto|]. apply in_none; [reflexivity|constructor].
Qed.

(** The interpreter has a plan for every query; it consists of as many physical as logical operators. *)
Theorem C57_interpreter : forall D (plan : Op D), plan_shape plan ->
  has_plan (icover D plan) = true /\ exists e, get_plan_entry ext_ltb None (icover D plan) = Some e /\ icovers D (assign_post_order_ids 0 plan) (match_ e) (condition e) (ecost e) /\
    ecost e = Some (operators plan).
Proof.
  intros D plan S. pose proof (shape_assign plan 0 S) as S'. destruct (icovers_ex D _ S') as (m & c & k & Cv). pose proof (icovers_inv D _ _ _ _ S' Cv) as K. split.
  - apply (C57_has_plan unit_implied unit_eqb tt unit_empty ext_ltb ext_add (interpreter_operators D)); [exact unit_eqb_spec|exact ext_cost_model|apply interpreter_registrable|]. eauto.
  - destruct (C57_extract unit_implied unit_eqb tt unit_empty ext_ltb ext_add None (interpreter_operators D) unit_eqb_spec ext_cost_model (interpreter_registrable D) plan) as (e & E & Ce & _).
    + exists m, c, k. split; [auto|]. now rewrite K.
    + exists e. split; [exact E|]. split; [exact Ce|]. rewrite (icovers_inv D _ _ _ _ S' Ce). now rewrite operators_assign.
Qed.

(** ** Examples *)
(** Two scans, a join, a sorting.  Conditions: 0 is none, 1 is "sorted"; a sorted condition implies none.  A scan costs 5, an index scan
    of the left table delivers sorted rows for 20; a hash join loses the order and costs 3, a merge join takes a sorted left input, costs
    1 and delivers it; sorting costs 100, doing nothing on sorted input 0. *)
Definition plan1 : Op nat := mkOp 9 Sorting 0 [mkOp 9 Join 0 [mkOp 9 Scan 1 []; mkOp 9 Scan 2 []]].
Definition plain (p : Pattern) (c : option nat) (pre post : nat) : PhysOp nat nat (option nat) :=
  mkPhysOp p (fun i _ => match i with 0 => pre | _ => 0 end) (fun _ => c) (fun _ => post) (fun _ c => c) (fun _ _ => 0).
Definition scan_op := plain (PClass Scan) (Some 5) 0 0.
Definition index_scan_op : PhysOp nat nat (option nat) :=
  mkPhysOp (PClass Scan) (fun _ _ => 0) (fun ns => match ns with mkOp _ _ d _ :: _ => if d =? 1 then Some 20 else None | [] => None end) (fun _ => 1) (fun _ c => c) (fun _ _ => 0).
Definition hash_join_op := plain (P2 Join Wildcard Wildcard) (Some 3) 0 0.
Definition merge_join_op := plain (P2 Join Wildcard Wildcard) (Some 1) 1 1.
Definition sort_op := plain (PClass Sorting) (Some 100) 0 1.
Definition nosort_op := plain (PClass Sorting) (Some 0) 1 1.
Definition ops1 := [scan_op; index_scan_op; hash_join_op; merge_join_op; sort_op; nosort_op].
Definition implied1 (c c' : nat) : bool := (c =? 0) || (c =? c').
Definition cover1 := cover implied1 Nat.eqb 0 (fun c => c =? 0) ext_ltb ext_add ops1.
Definition ids1 (o : Op nat) : list nat := id o :: map id (children o).

Example C57_ex_hypotheses : (forall c c', Nat.eqb c c' = true <-> c = c') /\ cost_model ext_ltb ext_add /\ registrable ops1.
Proof. split; [exact Nat.eqb_eq|]. split; [exact ext_cost_model|]. intros P [<-|[<-|[<-|[<-|[<-|[<-|[]]]]]]]; discriminate. Qed.
(** The ids: 0, 1 for the scans, 2, 3.  The join has an entry for each condition, hash join for 13 and merge join for 26; the sorting is dropped. *)
Example C57_ex_ids : ids1 (assign_post_order_ids 0 plan1) = [3; 2].
Proof. reflexivity. Qed.
Example C57_ex_entries : map (fun e => (condition e, ecost e)) (slot (cover1 plan1) 2) = [(0, Some 13); (1, Some 26)].
Proof. vm_compute. reflexivity. Qed.
Example C57_ex_result : map (fun e => (condition e, ecost e)) (last (cover1 plan1) []) = [(1, Some 26)].
Proof. vm_compute. reflexivity. Qed.
(** Without the index scan the plan sorts. *)
Example C57_ex_sort : map (fun e => (condition e, ecost e)) (last (cover implied1 Nat.eqb 0 (fun c => c =? 0) ext_ltb ext_add [scan_op; hash_join_op; merge_join_op; sort_op; nosort_op] plan1) []) = [(1, Some 113)].
Proof. vm_compute. reflexivity. Qed.
(** Without operators for joins there is no plan. *)
Example C57_ex_none : has_plan (cover implied1 Nat.eqb 0 (fun c => c =? 0) ext_ltb ext_add [scan_op; sort_op] plan1) = false.
Proof. vm_compute. reflexivity. Qed.
Example C57_ex_interpreter : option_map (fun e => ecost e) (get_plan_entry ext_ltb None (icover nat plan1)) = Some (Some 4).
Proof. vm_compute. reflexivity. Qed.

(** A plan whose only covering has an infinite cost: [has_plan] says yes, [get_plan_entry] dereferences an iterator it never set.  With
    the operators above: only the index scan, on the other table. *)
Theorem C57_refuted_infinite : exists plan : Op nat, has_plan (cover implied1 Nat.eqb 0 (fun c => c =? 0) ext_ltb ext_add [index_scan_op] plan) = true /\
  get_plan_entry ext_ltb None (cover implied1 Nat.eqb 0 (fun c => c =? 0) ext_ltb ext_add [index_scan_op] plan) = None.
Proof. exists (mkOp 0 Scan 2 []). split; vm_compute; reflexivity. Qed.
(** Two entries may have the same condition if equality of conditions is not reflexive: the table grows with every operator. *)
Theorem C57_refuted_irreflexive : exists plan : Op nat,
  map (fun e => (condition e, ecost e)) (last (cover implied1 (fun _ _ => false) 0 (fun c => c =? 0) ext_ltb ext_add [scan_op; scan_op] plan) []) = [(0, Some 5); (0, Some 5)].
Proof. exists (mkOp 0 Scan 2 []). vm_compute. reflexivity. Qed.
