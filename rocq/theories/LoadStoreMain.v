(** * C54: the compiled code as a whole *)
From Coq Require Import List Bool ZArith Arith Lia FinFun.
From Verif Require Import LoadStore LoadStoreSpec LoadStoreSim LoadStoreTree LoadStoreJump LoadStoreStrides LoadStoreBits LoadStoreAccess LoadStoreRun LoadStoreStatic.
Import ListNotations.
Local Open Scope Z_scope.

Lemma NoDup_app_intro {A} (l l' : list A) : NoDup l -> NoDup l' -> (forall x, In x l -> ~ In x l') -> NoDup (l ++ l').
Proof.
  intros H H' D. induction l as [|x l IH]; cbn; [exact H'|]. inversion H; subst. constructor; [|apply IH; auto; intros y Hy; apply D; right; exact Hy]. rewrite in_app_iff. intros [X|X]; [contradiction|]. apply (D x); [left; reflexivity|exact X].
Qed.
Lemma NoDup_flat {A B} (f : A -> list B) (key : A -> nat) l : NoDup (map key l) -> (forall x, In x l -> NoDup (f x)) -> (forall x y b, In b (f x) -> In b (f y) -> key x = key y) -> NoDup (flat_map f l).
Proof.
  intros ND F K. induction l as [|x l IH]; cbn [flat_map]; [constructor|]. cbn [map] in ND. inversion ND as [|? ? NI ND']; subst. apply NoDup_app_intro.
  - apply F. left; reflexivity.
  - apply IH; auto. intros y Hy. apply F. right; exact Hy.
  - intros b Hb H. apply in_flat_map in H. destruct H as (y & Hy & Hb'). apply NI. rewrite (K x y b Hb Hb'). apply in_map. exact Hy.
Qed.

Section Whole.
  Variables (is_store : bool) (ls : schema) (ts : list nat) (base r0 : Z) (L : layout).
  Notation nb := (length ls).
  Hypothesis HL : layout_ok nb L.
  Hypothesis HT : schemas_ok ls ts.
  Hypothesis Hr0 : 0 <= r0.
  Notation ni := (the_null ls ts base r0 L).
  Notation lvs := (all_leaves L).
  Notation lc := (leaf_code ls ts ni base is_store r0).
  Definition body : list call := compile_body is_store ls ts ni (root L) base r0.
  Definition null_decl : list call := match ni with Some x => [New NullP (VI (n_addr x))] ++ (if n_stride x =? 0 then [] else [New NullOfs (VI (n_bit_offset x))]) | None => [] end.
  Lemma body_eq : body = null_decl ++ flat_map lc lvs ++ advance_null ni ++ strides ls ts ni (root L) r0 [].
  Proof. unfold body, compile_body. rewrite (accesses_eq ls ts base r0 L HL is_store). reflexivity. Qed.
  Lemma null_decl_names : names (allocs null_decl) = null_names ni.
  Proof. unfold null_decl, null_names. destruct ni as [x|]; [|reflexivity]. destruct (n_stride x =? 0); reflexivity. Qed.
  Lemma null_decl_scoped : scoped null_decl [].
  Proof. unfold null_decl. destruct ni as [x|]; [|exact I]. destruct (n_stride x =? 0); sc. Qed.
  Lemma advance_names : names (allocs (advance_null ni)) = match ni with Some x => if n_stride x =? 0 then [] else [NullCtr] | None => [] end.
  Proof. unfold advance_null. destruct ni as [x|]; [|reflexivity]. destruct (n_stride x =? 0); reflexivity. Qed.
  Lemma advance_scoped l : incl (null_names ni) l -> scoped (advance_null ni) l.
  Proof.
    unfold null_names, advance_null. destruct ni as [x|]; [|intros _; exact I]. destruct (n_stride x =? 0); [intros _; exact I|]. intros H. assert (A : In NullP l) by (apply H; cbn; auto). assert (B : In NullOfs l) by (apply H; cbn; auto). sc.
  Qed.
  Lemma lnames_in s x l : In x (lnames ls ts ni s l) -> own_or_null (l_i l) x.
  Proof.
    unfold lnames, own_or_null. destruct (Nat.eqb (l_i l) nb); [intros []|]. destruct (slot ls ts (l_i l)); [|intros []]. rewrite !in_app_iff. intros [H|[H|H]].
    - destruct ni as [y|]; [|destruct H]. destruct (s && nullable ls (l_i l) && negb (n_stride y =? 0)); [|destruct H]. destruct H as [<-|[<-|[]]]; auto.
    - destruct H as [<-|[]]; auto.
    - destruct (l_st l mod 8 =? 0); [destruct H|]. destruct H as [<-|[]]; auto.
  Qed.
  Lemma lnames_nodup s l : NoDup (lnames ls ts ni s l).
  Proof.
    unfold lnames. destruct (Nat.eqb (l_i l) nb); [constructor|]. destruct (slot ls ts (l_i l)); [|constructor].
    destruct ni as [y|]; [destruct (s && nullable ls (l_i l) && negb (n_stride y =? 0))|]; destruct (l_st l mod 8 =? 0); cbn [app]; repeat (constructor; [cbn; intuition discriminate|]); constructor.
  Qed.
  Lemma body_names : names (allocs body) = null_names ni ++ flat_map (lnames ls ts ni is_store) lvs ++ (match ni with Some x => if n_stride x =? 0 then [] else [NullCtr] | None => [] end) ++ map Ctr (inodes (root L)).
  Proof.
    rewrite body_eq, !allocs_app, !names_app, null_decl_names, advance_names, (proj2 (strides_names ls ts ni)), allocs_flat. f_equal. f_equal. apply flat_map_ext. intros l. apply leaf_static.
  Qed.
  Lemma body_nodup : NoDup (names (allocs body)).
  Proof.
    rewrite body_names. apply NoDup_app_intro; [|apply NoDup_app_intro; [|apply NoDup_app_intro|]|].
    - unfold null_names. destruct ni as [x|]; [|constructor]. destruct (n_stride x =? 0); cbn [app]; repeat (constructor; [cbn; intuition discriminate|]); constructor.
    - apply (NoDup_flat _ l_i); [apply (lvs_nodup ls L HL)|intros; apply lnames_nodup|]. intros x y b A B. apply (own_inj (l_i x) (l_i y) b); apply (lnames_in is_store); assumption.
    - destruct ni as [x|]; [|constructor]. destruct (n_stride x =? 0); repeat constructor. cbn; tauto.
    - apply Injective_map_NoDup; [intros a b E; congruence|]. unfold root. cbn. rewrite app_nil_r. apply HL.
    - intros x H H'. apply in_map_iff in H'. destruct H' as (id & <- & _). destruct ni as [y|]; [|destruct H]. destruct (n_stride y =? 0); [destruct H|]. destruct H as [H|[]]; discriminate.
    - intros x H H'. apply in_flat_map in H. destruct H as (l & _ & H). apply lnames_in in H. apply in_app_or in H'. destruct H' as [H'|H'].
      + destruct ni as [y|]; [|destruct H']. destruct (n_stride y =? 0); [destruct H'|]. destruct H' as [<-|[]]. destruct H as [H|[H|[H|H]]]; discriminate.
      + apply in_map_iff in H'. destruct H' as (id & <- & _). destruct H as [H|[H|[H|H]]]; discriminate.
    - intros x H H'. assert (N : x = NullP \/ x = NullOfs). { unfold null_names in H. destruct ni as [y|]; [|destruct H]. destruct (n_stride y =? 0); cbn in H; intuition. }
      apply in_app_or in H'. destruct H' as [H'|H']; [|apply in_app_or in H'; destruct H' as [H'|H']].
      + apply in_flat_map in H'. destruct H' as (l & _ & H'). apply lnames_in in H'. destruct H' as [E|[E|[E|E]]]; destruct N; congruence.
      + destruct ni as [y|]; [|destruct H']. destruct (n_stride y =? 0); [destruct H'|]. destruct H' as [<-|[]]. destruct N; discriminate.
      + apply in_map_iff in H'. destruct H' as (id & <- & _). destruct N; discriminate.
  Qed.
  Lemma body_scoped : scoped body [].
  Proof.
    rewrite body_eq. apply scoped_app; [apply null_decl_scoped|]. rewrite null_decl_names. cbn [app]. apply scoped_app; [apply scoped_flat; intros l _; apply leaf_static|]. apply scoped_app; [apply advance_scoped; apply incl_appl, incl_refl|].
    set (l1 := (null_names ni ++ names (allocs (flat_map lc lvs))) ++ names (allocs (advance_null ni))).
    apply (proj2 (strides_scoped ls ts ni) (root L) r0 [] l1); [|intros v []]. intros x Hx. split; [apply (lvs_good ls L HL); exact Hx|]. unfold has_entries. destruct (Nat.eqb_spec (l_i x) nb) as [E|E].
    - intros N. destruct ni as [y|] eqn:Hy; [|congruence]. destruct (null_some ls ts base r0 L HL y Hy) as (l & B & I & E' & Ey). assert (x = l) as -> by (apply (leaf_unique L); [apply HL|exact Hx|exact I|congruence]).
      assert (IN : incl (null_names (Some y)) l1) by (apply incl_appl, incl_appl, incl_refl). unfold null_names in IN. assert (ES : n_stride y = l_st l) by (rewrite Ey; reflexivity). rewrite ES in IN. split; [apply IN; left; reflexivity|].
      intros N0. apply IN. destruct (Z.eqb_spec (l_st l) 0); [contradiction|]. right; left; reflexivity.
    - intros N. assert (IN : incl (lnames ls ts ni is_store x) l1).
      { unfold l1. apply incl_appl, incl_appr. rewrite allocs_flat. intros y Hy. apply in_flat_map. exists x. split; [exact Hx|]. rewrite (proj2 (leaf_static ls ts ni base r0 is_store x)). exact Hy. }
      unfold lnames in IN. destruct (Nat.eqb_spec (l_i x) nb); [contradiction|]. destruct (slot ls ts (l_i x)); [|congruence]. split.
      + apply IN. apply in_or_app. right. left. reflexivity.
      + intros N8. apply IN. apply in_or_app. right. right. destruct (Z.eqb_spec (l_st x mod 8) 0); [contradiction|]. left. reflexivity.
  Qed.

  (** ** Initial values *)
  Lemma init x v : In (Some x, v) (allocs body) -> initial (allocs body) x = v.
  Proof. apply initial_alloc. apply body_nodup. Qed.
  Lemma alloc_leaf l p : In l lvs -> In p (allocs (lc l)) -> In p (allocs body).
  Proof.
    intros I H. rewrite body_eq, !allocs_app. apply in_or_app. right. apply in_or_app. left. unfold allocs at 1. rewrite in_flat_map. unfold allocs in H. apply in_flat_map in H. destruct H as (c & C & D). exists c. split; [|exact D]. apply in_flat_map. exists l. auto.
  Qed.
  Lemma ctrs_init : (forall c off st row lv, (forall n, row mod n = lrow lv r0 mod n) -> kid_ok 0 lv c off st -> forall id n, In (id, n) (ctrs_node c) -> In (Some (Ctr id), VI (r0 mod n)) (allocs (stride_node ls ts ni c st row (map lvl lv)))) /\
    (forall cs row lv, (forall n, row mod n = lrow lv r0 mod n) -> kids_ok 0 lv cs -> forall id n, In (id, n) (ctrs cs) -> In (Some (Ctr id), VI (r0 mod n)) (allocs (strides ls ts ni cs row (map lvl lv)))).
  Proof.
    apply tree_ind.
    - intros i t off st row lv _ _ id n [].
    - intros id n cs IH off st row lv R K id' n' H. rewrite kid_ok_inode in K. destruct K as [C K]. rewrite stride_inode, !allocs_app. cbn [ctrs_node] in H. destruct H as [[= <- <-]|H].
      + apply in_or_app. left. left. f_equal. f_equal. rewrite R. cbn [chain] in C. destruct C as (_ & _ & _ & _ & _ & _ & C). apply (lrow_chain lv n r0 C).
      + apply in_or_app. right. apply in_or_app. left. change ((id, n, st) :: map lvl lv) with (map lvl (mkLevel id off n st :: lv)). apply IH; auto. intros n0. cbn [lrow v_n]. rewrite R. reflexivity.
    - intros row lv _ _ id n [].
    - intros c IHc off st cs IHcs row lv R K id n H. rewrite kids_ok_child in K. destruct K as [K1 K2]. rewrite strides_child, allocs_app. cbn [ctrs] in H. apply in_or_app. apply in_app_or in H. destruct H as [H|H]; [left; apply (IHc off); auto|right; apply IHcs; auto].
  Qed.
  Lemma position_split l : good_leaf nb l -> let a := l_off l + lrow (l_lv l) r0 * l_st l in
    (8 * base + lpos l r0) / 8 = base + lbase (l_lv l) r0 / 8 + a / 8 /\ (8 * base + lpos l r0) mod 8 = a mod 8.
  Proof.
    intros (CH & _). unfold lpos. pose proof (lbase_8 _ _ r0 CH) as B8. apply Z.mod_divide in B8; [|lia]. destruct B8 as [u ->]. cbn zeta. rewrite Z.div_mul by lia. set (a := l_off l + lrow (l_lv l) r0 * l_st l).
    replace (8 * base + (u * 8 + l_off l + lrow (l_lv l) r0 * l_st l)) with (a + (base + u) * 8) by (unfold a; lia). rewrite Z.div_add, Z.mod_add by lia. split; [lia|reflexivity].
  Qed.
  Lemma inv_initial : Inv ls ts base r0 L r0 (initial (allocs body)).
  Proof.
    split; [exact Hr0|]. split; [|split].
    - intros l I. pose proof (lvs_good ls L HL l I) as GL. destruct (position_split l GL) as [D M]. unfold at_row, at_bit. rewrite D, M. clear D M. destruct (Nat.eqb_spec (l_i l) nb) as [E|E].
      + intros N. destruct ni as [x|] eqn:Hx; [|congruence]. destruct (null_some ls ts base r0 L HL x Hx) as (l' & B & I' & E' & Ex). assert (l = l') as <- by (apply (leaf_unique L); [apply HL|exact I|exact I'|congruence]).
        assert (P : initial (allocs body) NullP = VI (n_addr x)). { apply init. rewrite body_eq, allocs_app. apply in_or_app. left. unfold null_decl. rewrite Hx. left. reflexivity. }
        rewrite P. rewrite Ex. cbn [null_of n_addr]. destruct (Z.eqb_spec (l_st l) 0) as [E0|E0]; [reflexivity|].
        assert (O : initial (allocs body) NullOfs = VI (n_bit_offset x)). { apply init. rewrite body_eq, allocs_app. apply in_or_app. left. unfold null_decl. rewrite Hx. assert (ES : n_stride x = l_st l) by (rewrite Ex; reflexivity). rewrite ES. destruct (Z.eqb_spec (l_st l) 0); [contradiction|]. right; left. reflexivity. }
        rewrite O, Ex. cbn [null_of n_bit_offset]. eexists. eexists. split; [reflexivity|]. split; [reflexivity|]. destruct (position_split l GL) as [D M]. pose proof (Z.div_mod (8 * base + lpos l r0) 8 ltac:(lia)) as DM. rewrite D, M in DM. pose proof (mod8 (l_off l + lrow (l_lv l) r0 * l_st l)). lia.
      + intros N. destruct (slot ls ts (l_i l)) as [k|] eqn:Ek; [|congruence]. assert (LC : forall p, In p (allocs ([NewLoad (Ptr (l_i l)) (VI (base + lbase (l_lv l) r0 / 8 + (l_off l + lrow (l_lv l) r0 * l_st l) / 8))] ++
            (if l_st l mod 8 =? 0 then access_bytes is_store ls ni (l_i l) k (l_t l) ((l_off l + lrow (l_lv l) r0 * l_st l) mod 8) (l_st l / 8) else access_bit is_store ls ni (l_i l) k (l_t l) ((l_off l + lrow (l_lv l) r0 * l_st l) mod 8)))) -> In p (allocs body)).
        { intros p Hp. apply (alloc_leaf l p I). unfold leaf_code, access_leaf. destruct (Nat.eqb_spec (l_i l) nb); [contradiction|]. rewrite Ek. rewrite allocs_app. apply in_or_app. right. exact Hp. }
        split; [apply init; apply LC; left; reflexivity|]. intros N8. apply init. apply LC. destruct (Z.eqb_spec (l_st l mod 8) 0); [contradiction|]. rewrite allocs_app. apply in_or_app. right. destruct is_store.
        * rewrite access_bit_store, !allocs_app. apply in_or_app. left. apply in_or_app. right. left. reflexivity.
        * rewrite access_bit_load, !allocs_app. apply in_or_app. left. left. reflexivity.
    - intros id n H. apply init. rewrite body_eq, !allocs_app. apply in_or_app. right. apply in_or_app. right. apply in_or_app. right. apply (proj2 ctrs_init (root L) r0 []); [reflexivity|apply (root_ok ls L HL)|exact H].
    - intros l B N S. destruct ni as [x|] eqn:Hx; [|congruence]. destruct (null_some ls ts base r0 L HL x Hx) as (l' & B' & _ & _ & Ex). rewrite B in B'. injection B' as <-. apply init. rewrite body_eq, !allocs_app. apply in_or_app. right. apply in_or_app. right. apply in_or_app. left.
      unfold advance_null. rewrite Hx. assert (ES : n_stride x = l_st l) by (rewrite Ex; reflexivity). rewrite ES. destruct (Z.eqb_spec (l_st l) 0); [contradiction|]. right. left. rewrite Ex. reflexivity.
  Qed.

  (** ** All executions *)
  Hypothesis H256 : (length (context (compile is_store ts base L ls r0)) <= 256)%nat.
  Lemma compile_eq : compile is_store ts base L ls r0 = make_machine body.
  Proof. reflexivity. Qed.
  Lemma context_length p : length (context (make_machine p)) = length (allocs p).
  Proof. unfold make_machine. pose proof (assemble_allocs p []) as E. destruct (assemble p []) as [l c]. cbn in *. rewrite E. apply map_length. Qed.
  Lemma all_runs inputs : (forall j m t, nth_error inputs j = Some (m, t) -> bytes_ok m /\ tuple_ok ts is_store t) ->
    exists outs, executions (compile is_store ts base L ls r0) inputs = Some outs /\ length outs = length inputs /\
      forall j m t m' t', nth_error inputs j = Some (m, t) -> nth_error outs j = Some (m', t') ->
        (m', t') = state_after ls ts base r0 L is_store (r0 + Z.of_nat j) (null_place ls base L (r0 + Z.of_nat j)) lvs m t.
  Proof.
    intros G. rewrite compile_eq in *. rewrite context_length in H256.
    apply (machine_runs body body_nodup H256 body_scoped (Inv ls ts base r0 L) (fun r m t m' t' => (m', t') = state_after ls ts base r0 L is_store r (null_place ls base L r) lvs m t) (fun _ m t => bytes_ok m /\ tuple_ok ts is_store t)); [|apply inv_initial|exact G].
    intros r e m t IN [Hm Ht]. destruct (body_exec ls ts base r0 L HL HT is_store r e m t IN Hm Ht) as (e' & g & A & IN'). eexists. eexists. split; [exact A|]. split; [exact IN'|]. cbn [mem tup]. destruct (state_after ls ts base r0 L is_store r (null_place ls base L r) lvs m t); reflexivity.
  Qed.
End Whole.
