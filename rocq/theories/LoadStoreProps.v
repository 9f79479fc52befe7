(** * C54: loading and storing tuples *)
From Coq Require Import List Bool ZArith Arith Lia.
From Verif Require Import LoadStore LoadStoreSpec LoadStoreSim LoadStoreTree LoadStoreBits LoadStoreRun LoadStoreMain LoadStoreProofs.
Import ListNotations.
Local Open Scope Z_scope.

(** The code compiled to load from row [r0] on loads row [r0] when it is executed for the first time, then [r0 + 1], and so on, and
    leaves the memory as it is.  Memory and tuple may change between the executions. *)
Theorem C54_load : forall ls ts L base r0 inputs, layout_ok (length ls) L -> schemas_ok ls ts -> 0 <= r0 ->
  (length (context (compile_load ts base L ls r0)) <= 256)%nat ->
  (forall m t, In (m, t) inputs -> bytes_ok m /\ (length ts <= length t)%nat) ->
  exists outs, executions (compile_load ts base L ls r0) inputs = Some outs /\ length outs = length inputs /\
    forall j m t m' t', nth_error inputs j = Some (m, t) -> nth_error outs j = Some (m', t') -> m' = m /\ loaded ls ts L base (r0 + Z.of_nat j) m t t'.
Proof.
  intros ls ts L base r0 inputs HL HT Hr H256 G. destruct (all_runs false ls ts base r0 L HL HT Hr H256 inputs) as (outs & A & B & C).
  - intros j m t H. apply nth_error_In in H. destruct (G m t H). split; [assumption|]. split; [assumption|discriminate].
  - exists outs. split; [exact A|]. split; [exact B|]. intros j m t m' t' H H'. specialize (C j m t m' t' H H'). unfold state_after in C. injection C as -> ->. split; [reflexivity|]. apply loaded_ok; auto. apply nth_error_In in H. apply (G m t H).
Qed.

(** The code compiled to store from row [r0] on stores into row [r0], then [r0 + 1], and so on, and leaves the tuple as it is. *)
Theorem C54_store : forall ls ts L base r0 inputs, layout_ok (length ls) L -> separate ls L -> schemas_ok ls ts -> 0 <= r0 ->
  (length (context (compile_store ts base L ls r0)) <= 256)%nat ->
  (forall m t, In (m, t) inputs -> bytes_ok m /\ (length ts <= length t)%nat /\ forall v n, In (v, n) t -> chars_ok v) ->
  exists outs, executions (compile_store ts base L ls r0) inputs = Some outs /\ length outs = length inputs /\
    forall j m t m' t', nth_error inputs j = Some (m, t) -> nth_error outs j = Some (m', t') -> t' = t /\ stored ls ts L base (r0 + Z.of_nat j) t m m'.
Proof.
  intros ls ts L base r0 inputs HL SEP HT Hr H256 G. destruct (all_runs true ls ts base r0 L HL HT Hr H256 inputs) as (outs & A & B & C).
  - intros j m t H. apply nth_error_In in H. destruct (G m t H) as (G1 & G2 & G3). split; [assumption|]. split; [assumption|intros _; assumption].
  - exists outs. split; [exact A|]. split; [exact B|]. intros j m t m' t' H H'. specialize (C j m t m' t' H H'). unfold state_after in C. injection C as -> ->. split; [reflexivity|]. apply nth_error_In in H. destruct (G m t H) as (G1 & G2 & G3). apply stored_ok; auto; [lia|]. split; [assumption|intros _; assumption].
Qed.

(** ** Several rows *)
Fixpoint mem_chain (m : memory) (inputs outs : list (memory * list entry)) (last : memory) : Prop :=
  match inputs, outs with
  | [], [] => last = m
  | (a, _) :: i, (b, _) :: o => a = m /\ mem_chain b i o last
  | _, _ => False
  end.
Lemma store_rows_exec inputs : forall M m outs last, executions M inputs = Some outs -> mem_chain m inputs outs last -> store_rows M m (map snd inputs) = Some last.
Proof.
  induction inputs as [|[a t] inputs IH]; intros M m outs last E C; cbn [executions] in E.
  - injection E as <-. cbn in C. subst. reflexivity.
  - destruct (execute M a t) as [[[M' m'] t']|] eqn:X; [|discriminate]. destruct (executions M' inputs) as [o|] eqn:EO; [|discriminate]. cbn in E. injection E as <-. cbn [mem_chain] in C. destruct C as [-> C]. cbn [map snd store_rows]. rewrite X. eapply IH; eauto.
Qed.
Lemma executions_app inputs : forall M x outs, executions M (inputs ++ x) = Some outs -> exists o1 o2, outs = o1 ++ o2 /\ executions M inputs = Some o1 /\ length o1 = length inputs.
Proof.
  induction inputs as [|[a t] inputs IH]; intros M x outs E.
  - exists [], outs. auto.
  - cbn [app executions] in E |- *. destruct (execute M a t) as [[[M' m'] t']|]; [|discriminate]. destruct (executions M' (inputs ++ x)) as [o|] eqn:EO; [|discriminate]. injection E as <-. destruct (IH _ _ _ EO) as (o1 & o2 & -> & -> & Le). exists ((m', t') :: o1), o2. cbn. auto.
Qed.
Lemma mem_chain_app i : forall o m last b t m' t', length o = length i -> mem_chain m i o last -> b = last -> mem_chain m (i ++ [(b, t)]) (o ++ [(m', t')]) m'.
Proof.
  induction i as [|[a t0] i IH]; intros [|[b0 t1] o] m last b t m' t' Le C ->; try discriminate; cbn in *.
  - subst. auto.
  - destruct C as [-> C]. split; [reflexivity|]. apply (IH o b0 last); auto.
Qed.

Lemma keep_row ls ts L base r r' t t' m m' : layout_ok (length ls) L -> separate ls L -> schemas_ok ls ts -> bytes_ok m -> 0 <= r -> 0 <= r' -> r <> r' -> contains ls ts L base r t m -> stored ls ts L base r' t' m m' -> contains ls ts L base r t m'.
Proof.
  intros HL SEP HT Hm Hr Hr' NE C (Hm' & _ & F).
  assert (FR : forall i n x, part ls L r i n x -> get_bit m' (8 * base + x) = get_bit m (8 * base + x)).
  { intros i n x Hp. apply F. intros i' k nl _ _. split; [intros H|intros [H _]]; pose proof (SEP _ _ _ _ _ _ _ Hr Hr' Hp H) as E; congruence. }
  intros i k nl ty a v n A P E. destruct (C i k nl ty a v n A P E) as [C1 C2]. destruct (proj1 (attribute_slot ls ts HT i k nl) A) as (_ & Nl & Hi). split.
  - intros ty' b Hn Pb. rewrite <- Z.add_assoc. rewrite (FR i true); [rewrite Z.add_assoc; eauto|]. split; [exact Hi|]. split; [congruence|]. exists ty', b. auto.
  - intros Hn T. rewrite <- (C2 Hn T). apply value_ext; auto.
    + intros B. destruct (place_some L r i ty a (proj1 (proj2 HL)) P) as (l & I & Ei & Et & Ep). rewrite <- Ep. apply (aligned ls base L HL r l I); [lia|rewrite Et; exact B].
    + intros x Hx. replace x with (8 * base + (x - 8 * base)) by ring. apply (FR i false). split; [exact Hi|]. exists ty, a. split; [exact P|]. apply range_sub. exact Hx.
Qed.

(** Storing tuples one after the other: all rows hold their tuples, all other bits are unchanged. *)
Theorem C54_store_rows : forall ls ts L base r0 m rows, layout_ok (length ls) L -> separate ls L -> schemas_ok ls ts -> 0 <= r0 ->
  (length (context (compile_store ts base L ls r0)) <= 256)%nat -> bytes_ok m ->
  (forall t, In t rows -> (length ts <= length t)%nat /\ forall v n, In (v, n) t -> chars_ok v) ->
  exists m', store_rows (compile_store ts base L ls r0) m rows = Some m' /\ bytes_ok m' /\
    (forall j t, nth_error rows j = Some t -> contains ls ts L base (r0 + Z.of_nat j) t m') /\
    (forall x, (forall j i n, (j < length rows)%nat -> ~ part ls L (r0 + Z.of_nat j) i n x) -> get_bit m' (8 * base + x) = get_bit m (8 * base + x)).
Proof.
  intros ls ts L base r0 m rows HL SEP HT Hr H256 Hm.
  assert (P : (forall t, In t rows -> (length ts <= length t)%nat /\ forall v n, In (v, n) t -> chars_ok v) ->
    exists inputs outs m', map snd inputs = rows /\ (forall a t, In (a, t) inputs -> bytes_ok a) /\ executions (compile_store ts base L ls r0) inputs = Some outs /\ mem_chain m inputs outs m' /\ bytes_ok m' /\
      (forall j t, nth_error rows j = Some t -> contains ls ts L base (r0 + Z.of_nat j) t m') /\
      (forall x, (forall j i n, (j < length rows)%nat -> ~ part ls L (r0 + Z.of_nat j) i n x) -> get_bit m' (8 * base + x) = get_bit m (8 * base + x))).
  { induction rows as [|t rows IH] using rev_ind; intros G.
    - exists [], [], m. split; [reflexivity|]. split; [intros ? ? []|]. split; [reflexivity|]. split; [reflexivity|]. split; [exact Hm|]. split; [intros [|j]; discriminate|reflexivity].
    - destruct IH as (inputs & outs & m1 & E & GB & X & C & Hm1 & K & F); [intros t' Ht'; apply G; apply in_or_app; left; exact Ht'|].
      destruct (C54_store ls ts L base r0 (inputs ++ [(m1, t)]) HL SEP HT Hr H256) as (outs' & X' & Le & Q).
      { intros a t' H. apply in_app_or in H. destruct H as [H|[[= <- <-]|[]]].
        - split; [eapply GB; exact H|]. apply G. apply in_or_app. left. rewrite <- E. apply (in_map snd) in H. exact H.
        - split; [exact Hm1|]. apply G. apply in_or_app. right; left; reflexivity. }
      destruct (executions_app _ _ _ _ X') as (o1 & o2 & -> & X1 & L1). rewrite X in X1. injection X1 as <-. rewrite !app_length in Le. rewrite L1 in Le. apply Nat.add_cancel_l in Le. destruct o2 as [|[m2 t2] o2]; [discriminate|]. destruct o2; [|discriminate].
      assert (LR : length inputs = length rows) by (rewrite <- E, map_length; reflexivity).
      destruct (Q (length inputs) m1 t m2 t2) as [-> ST]; [rewrite nth_error_app2, Nat.sub_diag by lia; reflexivity|rewrite nth_error_app2 by (apply Nat.eq_le_incl; exact L1); rewrite L1, Nat.sub_diag; reflexivity|]. rewrite LR in ST.
      exists (inputs ++ [(m1, t)]), (outs ++ [(m2, t)]), m2. split; [rewrite map_app, E; reflexivity|]. split; [intros a t' H; apply in_app_or in H; destruct H as [H|[[= <- <-]|[]]]; [eapply GB; exact H|exact Hm1]|]. split; [exact X'|].
      split; [apply (mem_chain_app inputs outs m m1); auto|]. split; [apply ST|]. split.
      + intros j t' H. destruct (Nat.lt_ge_cases j (length rows)) as [Hj|Hj].
        * rewrite nth_error_app1 in H by exact Hj. apply (keep_row ls ts L base (r0 + Z.of_nat j) (r0 + Z.of_nat (length rows)) t' t m1 m2); auto; lia.
        * rewrite nth_error_app2 in H by exact Hj. destruct (j - length rows)%nat eqn:Ej; cbn in H; [|destruct n; discriminate]. injection H as <-. replace j with (length rows) by lia. apply ST.
      + intros x Hx. rewrite <- F; [|intros j i n Hj; apply Hx; rewrite app_length; lia]. apply ST. intros i k nl _ _. assert (Hl : (length rows < length (rows ++ [t]))%nat) by (rewrite app_length; cbn; lia).
        split; [exact (Hx _ i true Hl)|]. intros [H _]. exact (Hx _ i false Hl H). }
  intros G. destruct (P G) as (inputs & outs & m' & E & _ & X & C & Hm' & K & F). exists m'. split; [rewrite <- E; eapply store_rows_exec; eauto|]. auto.
Qed.

Fixpoint tup_chain (m : memory) (t : list entry) (inputs outs : list (memory * list entry)) : Prop :=
  match inputs, outs with
  | [], [] => True
  | (a, t0) :: i, (_, t1) :: o => a = m /\ t0 = t /\ tup_chain m t1 i o
  | _, _ => False
  end.
Lemma load_rows_exec inputs : forall M m t outs, executions M inputs = Some outs -> tup_chain m t inputs outs -> load_rows M m t (length inputs) = Some (map snd outs).
Proof.
  induction inputs as [|[a t0] inputs IH]; intros M m t outs E C; cbn [executions] in E.
  - injection E as <-. reflexivity.
  - destruct (execute M a t0) as [[[M' m'] t']|] eqn:X; [|discriminate]. destruct (executions M' inputs) as [o|] eqn:EO; [|discriminate]. cbn in E. injection E as <-. cbn [tup_chain] in C. destruct C as (-> & -> & C). cbn [map snd load_rows length]. rewrite X. rewrite (IH M' m t' o EO C). reflexivity.
Qed.
Definition last_tuple (t : list entry) (outs : list (memory * list entry)) : list entry := match rev outs with (_, t') :: _ => t' | [] => t end.
Lemma tup_chain_app m i : forall o t m' t', length o = length i -> tup_chain m t i o -> tup_chain m t (i ++ [(m, last_tuple t o)]) (o ++ [(m', t')]).
Proof.
  induction i as [|[a t0] i IH]; intros [|[b0 t1] o] t m' t' Le C; try discriminate; cbn [app tup_chain length] in *.
  - auto.
  - destruct C as (-> & -> & C). split; [reflexivity|]. split; [reflexivity|]. assert (E : last_tuple t ((b0, t1) :: o) = last_tuple t1 o). { unfold last_tuple. cbn [rev]. destruct (rev o) as [|[? ?] ?]; reflexivity. } rewrite E. apply IH; [lia|exact C].
Qed.
(** Loading [n] times *)
Theorem C54_load_rows : forall ls ts L base r0 m t n, layout_ok (length ls) L -> schemas_ok ls ts -> 0 <= r0 ->
  (length (context (compile_load ts base L ls r0)) <= 256)%nat -> bytes_ok m -> (length ts <= length t)%nat ->
  exists out, load_rows (compile_load ts base L ls r0) m t n = Some out /\ length out = n /\
    forall j t', nth_error out j = Some t' -> exists t0, loaded ls ts L base (r0 + Z.of_nat j) m t0 t'.
Proof.
  intros ls ts L base r0 m t n HL HT Hr H256 Hm Ht.
  assert (P : exists inputs outs, length inputs = n /\ (forall a t', In (a, t') inputs -> a = m /\ length t' = length t) /\ executions (compile_load ts base L ls r0) inputs = Some outs /\ length outs = n /\ tup_chain m t inputs outs /\
     length (last_tuple t outs) = length t).
  { induction n as [|n IH].
    - exists [], []. split; [reflexivity|]. split; [intros ? ? []|]. split; [reflexivity|]. split; [reflexivity|]. split; [exact I|reflexivity].
    - destruct IH as (inputs & outs & Ln & G & X & Lo & C & LL). destruct (C54_load ls ts L base r0 (inputs ++ [(m, last_tuple t outs)]) HL HT Hr H256) as (outs' & X' & Le & Q).
      { intros a t' H. apply in_app_or in H. destruct H as [H|[[= <- <-]|[]]]; [destruct (G _ _ H) as [-> ->]|]; split; auto; lia. }
      destruct (executions_app _ _ _ _ X') as (o1 & o2 & -> & X1 & L1). rewrite X in X1. injection X1 as <-. rewrite !app_length in Le. rewrite L1 in Le. apply Nat.add_cancel_l in Le. destruct o2 as [|[m2 t2] o2]; [discriminate|]. destruct o2; [|discriminate].
      destruct (Q (length inputs) m (last_tuple t outs) m2 t2) as [-> (LD & _)]; [rewrite nth_error_app2, Nat.sub_diag by lia; reflexivity|rewrite nth_error_app2 by (apply Nat.eq_le_incl; exact L1); rewrite L1, Nat.sub_diag; reflexivity|].
      exists (inputs ++ [(m, last_tuple t outs)]), (outs ++ [(m, t2)]). rewrite !app_length. cbn [length]. split; [lia|]. split; [intros a t' H; apply in_app_or in H; destruct H as [H|[[= <- <-]|[]]]; [auto|split; [reflexivity|exact LL]]|]. split; [exact X'|]. split; [lia|]. split; [apply tup_chain_app; [lia|exact C]|].
      unfold last_tuple. rewrite rev_app_distr. cbn. lia. }
  destruct P as (inputs & outs & Ln & G & X & Lo & C & _). exists (map snd outs). split; [rewrite <- Ln; apply load_rows_exec; assumption|]. split; [rewrite map_length; exact Lo|].
  intros j t' H. rewrite nth_error_map in H. destruct (nth_error outs j) as [[m' t1]|] eqn:Ej; [|discriminate]. cbn in H. injection H as ->.
  destruct (nth_error inputs j) as [[a t0]|] eqn:Ei; [|apply nth_error_None in Ei; assert (j < length outs)%nat by (apply nth_error_Some; congruence); lia].
  destruct (C54_load ls ts L base r0 inputs HL HT Hr H256) as (outs' & X' & _ & Q).
  { intros a' t'' H. destruct (G _ _ H) as [-> ->]. auto. }
  rewrite X in X'. injection X' as <-. destruct (Q j a t0 m' t' Ei Ej) as [_ LD]. exists t0. apply nth_error_In in Ei. destruct (G _ _ Ei) as [-> _]. exact LD.
Qed.

(** What has been stored is loaded: values of the type of the attribute, and NULL where the layout has a place for it. *)
Theorem C54_round_trip : forall ls ts ts' L base r0 r1 m rows t n,
  layout_ok (length ls) L -> separate ls L -> schemas_ok ls ts -> schemas_ok ls ts' -> 0 <= r0 <= r1 -> r1 + Z.of_nat n <= r0 + Z.of_nat (length rows) ->
  (length (context (compile_store ts base L ls r0)) <= 256)%nat -> (length (context (compile_load ts' base L ls r1)) <= 256)%nat ->
  bytes_ok m -> (forall t, In t rows -> (length ts <= length t)%nat /\ forall v n, In (v, n) t -> chars_ok v) -> (length ts' <= length t)%nat ->
  exists m' out, store_rows (compile_store ts base L ls r0) m rows = Some m' /\ load_rows (compile_load ts' base L ls r1) m' t n = Some out /\ length out = n /\
    forall j row row' i k k' nl ty a v null, nth_error rows (Z.to_nat (r1 - r0) + j) = Some row -> nth_error out j = Some row' ->
      attribute ls ts i k nl -> attribute ls ts' i k' nl -> place L (r1 + Z.of_nat j) i = Some (ty, a) -> nth_error row k = Some (v, null) ->
      (null = true -> nl = true /\ place L (r1 + Z.of_nat j) (length ls) <> None) -> (null = false -> has_type ty v) ->
      exists v', nth_error row' k' = Some (v', null) /\ (null = false -> v' = v).
Proof.
  intros ls ts ts' L base r0 r1 m rows t n HL SEP HT HT' Hr Hn H256 H256' Hm G Ht.
  destruct (C54_store_rows ls ts L base r0 m rows HL SEP HT (proj1 Hr) H256 Hm G) as (m' & SR & Hm' & K & _).
  destruct (C54_load_rows ls ts' L base r1 m' t n HL HT' ltac:(lia) H256' Hm' Ht) as (out & LR & Lo & Q).
  exists m', out. split; [exact SR|]. split; [exact LR|]. split; [exact Lo|]. intros j row row' i k k' nl ty a v null Hrow Hrow' A A' P Hv HN HT0.
  destruct (Q j row' Hrow') as (t0 & _ & LD & _). destruct (LD i k' nl ty a A' P) as (v' & E1 & E2). pose proof (K _ _ Hrow) as C. replace (r0 + Z.of_nat (Z.to_nat (r1 - r0) + j)) with (r1 + Z.of_nat j) in C by lia.
  destruct (C i k nl ty a v null A P Hv) as [C1 C2].
  assert (FL : nl && match place L (r1 + Z.of_nat j) (length ls) with Some (_, b) => get_bit m' (8 * base + b + Z.of_nat i) | None => false end = null).
  { destruct (place L (r1 + Z.of_nat j) (length ls)) as [[ty' b]|] eqn:Pb.
    - destruct nl; cbn [andb]; [apply (C1 ty' b eq_refl eq_refl)|]. destruct null; [destruct (HN eq_refl); discriminate|reflexivity].
    - rewrite andb_false_r. destruct null; [destruct (HN eq_refl) as [_ X]; congruence|reflexivity]. }
  rewrite FL in E1. exists v'. split; [exact E1|]. intros ->. rewrite (E2 E1). apply C2; auto.
Qed.

(** ** Tables: the layouts of the factories *)
From Verif Require Import LoadStoreLayouts.
From Verif Require Layout LayoutProps.
(** Row layouts whose attributes are reordered, or that have no BOOL; PAX layouts with blocks that are big enough (see C28). *)
Definition made (remove_null : bool) (types : list type) (D : Layout.layout) : Prop :=
  (exists reorder, (reorder = true \/ ~ In TBool types) /\ D = Layout.row_layout reorder remove_null (map size_of types)) \/
  (exists reorder less opt, Layout.pax_layout reorder remove_null less opt (map size_of types) = Some D /\ LayoutProps.big_enough remove_null opt (map size_of types) /\ (N.of_nat (length types) < 2 ^ 64)%N).
Theorem C54_factories : forall types remove_null D ls, types <> [] -> Forall column_type types -> made remove_null types D -> (Layout.block D < 2 ^ 64)%N -> length ls = length types ->
  layout_ok (length ls) (tree D remove_null types) /\ separate ls (tree D remove_null types).
Proof.
  intros types rn D ls NE F M H64 Hl. rewrite Hl.
  assert (LV : level_ok D rn types /\ LayoutProps.no_overlap D (map size_of types) rn).
  { destruct M as [(ro & HB & ->)|(ro & less & opt & E & HB & HN)].
    - split; [apply row_level; assumption|]. apply LayoutProps.C27_no_overlap. apply sizes_valid; assumption.
    - split; [apply (pax_level ro rn less opt); assumption|]. eapply LayoutProps.C28_no_overlap; [exact E|apply sizes_valid; assumption|rewrite map_length; exact HN|exact HB]. }
  destruct LV as [LV NO]. split; [apply tree_ok; assumption|]. apply tree_separate; try assumption; apply LV.
Qed.

(** A table in such a layout: rows stored with up to 17 columns are loaded, in whole or in part. *)
Theorem C54_table : forall types remove_null D ls ts ts' base r0 r1 m rows t n,
  types <> [] -> Forall column_type types -> made remove_null types D -> (Layout.block D < 2 ^ 64)%N -> length ls = length types ->
  schemas_ok ls ts -> schemas_ok ls ts' -> (length ts <= 17)%nat -> (length ts' <= 17)%nat ->
  0 <= r0 <= r1 -> r1 + Z.of_nat n <= r0 + Z.of_nat (length rows) -> bytes_ok m ->
  (forall t, In t rows -> (length ts <= length t)%nat /\ forall v n, In (v, n) t -> chars_ok v) -> (length ts' <= length t)%nat ->
  let L := tree D remove_null types in
  exists m' out, store_rows (compile_store ts base L ls r0) m rows = Some m' /\ load_rows (compile_load ts' base L ls r1) m' t n = Some out /\ length out = n /\
    forall j row row' i k k' nl ty v null, nth_error rows (Z.to_nat (r1 - r0) + j) = Some row -> nth_error out j = Some row' ->
      attribute ls ts i k nl -> attribute ls ts' i k' nl -> nth_error types i = Some ty -> nth_error row k = Some (v, null) ->
      (null = true -> nl = true /\ remove_null = false) -> (null = false -> has_type ty v) ->
      exists v', nth_error row' k' = Some (v', null) /\ (null = false -> v' = v).
Proof.
  intros types rn D ls ts ts' base r0 r1 m rows t n NE F M H64 Hl HT HT' L17 L17' Hr Hn Hm G Ht L.
  destruct (C54_factories types rn D ls NE F M H64 Hl) as [LO SEP]. fold L in LO, SEP.
  assert (B : (length (context (compile_store ts base L ls r0)) <= 256)%nat) by (pose proof (context_bound true ls ts D rn types base r0 Hl HT); unfold compile_store, L; lia).
  assert (B' : (length (context (compile_load ts' base L ls r1)) <= 256)%nat) by (pose proof (context_bound false ls ts' D rn types base r1 Hl HT'); unfold compile_load, L; lia).
  destruct (C54_round_trip ls ts ts' L base r0 r1 m rows t n LO SEP HT HT' Hr Hn B B' Hm G Ht) as (m' & out & A1 & A2 & A3 & A4).
  exists m', out. split; [exact A1|]. split; [exact A2|]. split; [exact A3|]. intros j row row' i k k' nl ty v null R R' At At' T V HN HTy.
  assert (RW : (0 < Layout.rows D)%N). { destruct M as [(ro & HB & ->)|(ro & less & opt & E & HB & HN0)]; [apply LayoutProps.row_good, sizes_valid; assumption|eapply LayoutProps.pax_good; [exact E|apply sizes_valid; assumption|rewrite map_length; exact HN0|exact HB]]. }
  assert (Hi : (i < length types)%nat) by (apply nth_error_Some; congruence).
  assert (P : exists a, place L (r1 + Z.of_nat j) i = Some (ty, a)).
  { unfold L. rewrite tree_place by (try assumption; lia). destruct (Nat.ltb_spec i (length types)); [|lia]. rewrite T. cbn [option_map]. eexists; reflexivity. }
  destruct P as (a & P). eapply A4; eauto. intros N. destruct (HN N) as [-> ->]. split; [reflexivity|]. unfold L. rewrite tree_place by (try assumption; lia). rewrite Hl, Nat.ltb_irrefl, Nat.eqb_refl. cbn. discriminate.
Qed.

(** ** A concrete table, and cases that do not work *)
Definition example_columns : list type := [TI32; TBool; TChar 3; TI64; TBool; TVarchar 5; TF64].
Definition example_schema : schema := [(10, true); (11, true); (12, false); (13, true); (14, true); (15, true); (16, true)]%nat.
Example example_columns_ok : example_columns <> [] /\ Forall column_type example_columns /\ schemas_ok example_schema [13; 11; 12; 15; 14]%nat /\ schemas_ok example_schema [14; 13; 15]%nat.
Proof.
  split; [discriminate|]. split; [unfold example_columns; repeat (constructor; [cbn; auto; lia|]); constructor|].
  split; (split; [cbn; repeat (constructor; [cbn; intuition discriminate|]); constructor|split; [cbn; repeat (constructor; [cbn; intuition discriminate|]); constructor|split; [intros x Hx; cbn in Hx |- *; intuition|cbn; lia]]]).
Qed.
Definition pax (opt : Layout.block_size) (types : list type) : Layout.layout :=
  match Layout.pax_layout true false false opt (map size_of types) with Some D => D | None => Layout.mkLayout 0 0 (fun _ => 0%N) (fun _ => 0%N) end.
Example example_made : (let D := pax (Layout.NBytes 4096) example_columns in made false example_columns D /\ (Layout.block D < 2 ^ 64)%N /\ Layout.rows D = 128%N) /\
  (let D := Layout.row_layout true false (map size_of example_columns) in made false example_columns D /\ (Layout.block D < 2 ^ 64)%N).
Proof.
  split.
  - cbn zeta. split; [|split; [vm_compute; reflexivity|vm_compute; reflexivity]]. right. exists true, false, (Layout.NBytes 4096). split; [vm_compute; reflexivity|]. split; [|vm_compute; reflexivity].
    split; [reflexivity|]. split; [reflexivity|]. split; [vm_compute; congruence|]. intros nb H. vm_compute in H. injection H as <-. vm_compute. congruence.
  - split; [|vm_compute; reflexivity]. left. exists true. split; [left; reflexivity|reflexivity].
Qed.

(** Two rows of the example, computed: the NULL of the first and the values of the second arrive. *)
Definition example_rows : list (list entry) :=
  [[(VI 7, false); (VB true, false); (VS [65; 66], false); (VNone, true); (VB false, false)];
   [(VI (-3), false); (VNone, true); (VS [67; 68; 69], false); (VS [70], false); (VB true, false)]].
Example example_run : let L := tree (Layout.row_layout true false (map size_of example_columns)) false example_columns in
  match store_rows (compile_store [13; 11; 12; 15; 14]%nat 100 L example_schema 5) (fun _ => 170) example_rows with
  | Some m => load_rows (compile_load [14; 13; 15]%nat 100 L example_schema 5) m (repeat (VNone, true) 3) 2 =
      Some [[(VB false, false); (VI 7, false); (VNone, true)]; [(VB true, false); (VI (-3), false); (VS [70], false)]]
  | None => False
  end.
Proof. vm_compute. reflexivity. Qed.

(** The arguments of operations are bytes: with 28 columns that can be NULL, the compiled code has more than 256 constants, and storing a
    second row goes wrong, silently. *)
Definition wide : list type := repeat TI32 28.
Definition wide_schema : schema := map (fun i => (i, true)) (seq 0 28).
Definition wide_row : list entry := map (fun i => (VI (Z.of_nat i + 1), false)) (seq 0 28).
Theorem C54_refuted_many_columns : let D := pax (Layout.NTuples 16) wide in let L := tree D false wide in let M := compile_store (seq 0 28) 0 L wide_schema 0 in
  made false wide D /\ (256 < length (context M))%nat /\
  exists m, store_rows M (fun _ => 0) [wide_row; wide_row] = Some m /\ ~ contains wide_schema (seq 0 28) L 0 1 wide_row m.
Proof.
  cbn zeta. split; [|split].
  - right. exists true, false, (Layout.NTuples 16). split; [vm_compute; reflexivity|]. split; [cbn; lia|reflexivity].
  - apply Nat.ltb_lt. vm_compute. reflexivity.
  - set (L := tree (pax (Layout.NTuples 16) wide) false wide). set (M := compile_store (seq 0 28) 0 L wide_schema 0).
    assert (X : match store_rows M (fun _ => 0) [wide_row; wide_row], place L 1 19 with Some m, Some (TI32, a) => value_at TI32 m (8 * 0 + a) = VI 5120 | _, _ => False end) by (vm_compute; reflexivity).
    destruct (store_rows M (fun _ => 0) [wide_row; wide_row]) as [m|]; [|destruct X]. exists m. split; [reflexivity|]. intros C. destruct (place L 1 19) as [[[] a]|] eqn:P; try (exfalso; exact X).
    assert (Y : value_at TI32 m (8 * 0 + a) = VI 20); [|rewrite X in Y; discriminate]. apply (C 19%nat 19%nat true TI32 a (VI 20) false); [|exact P|reflexivity|reflexivity|cbn; lia].
    exists 19%nat. split; reflexivity.
Qed.

(** Layouts that [add_leaf] accepts, but that are read at wrong positions: booleans with a stride of 2 bits; ... *)
Theorem C54_refuted_bit_stride : let L := mkLayout (INode 0 8 (Child (Leaf 0 TBool) 0 2 Nil)) 16 in let m : memory := fun _ => 85 in
  load_rows (compile_load [0%nat] 0 L [(0%nat, false)] 0) m [(VNone, true)] 2 = Some [[(VB true, false)]; [(VB false, false)]] /\
  place L 1 0 = Some (TBool, 2) /\ get_bit m 2 = true.
Proof. vm_compute. auto. Qed.
(** ... booleans that start within a byte, if there is not a multiple of 8 of them; ... *)
Theorem C54_refuted_bit_offset : let L := mkLayout (INode 0 4 (Child (Leaf 0 TBool) 1 1 Nil)) 8 in let m : memory := fun _ => 30 in
  option_map (fun out => nth_error out 4) (load_rows (compile_load [0%nat] 0 L [(0%nat, false)] 0) m [(VNone, true)] 5) = Some (Some [(VB false, false)]) /\
  place L 4 0 = Some (TBool, 9) /\ get_bit m 9 = true.
Proof. vm_compute. auto. Qed.
(** ... NULL bitmaps with a stride that start within a byte. *)
Theorem C54_refuted_bitmap_offset : let L := mkLayout (INode 0 4 (Child (Leaf 0 TI8) 0 8 (Child (Leaf 1 TBitmap) 33 1 Nil))) 40 in
  let m : memory := fun a => if a mod 5 =? 4 then 30 else a in
  option_map (fun out => nth_error out 4) (load_rows (compile_load [0%nat] 0 L [(0%nat, true)] 0) m [(VNone, true)] 5) = Some (Some [(VI 5, false)]) /\
  place L 4 1 = Some (TBitmap, 73) /\ get_bit m 73 = true.
Proof. vm_compute. auto. Qed.
