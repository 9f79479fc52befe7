(** * C54 for the data layouts the factories make

    The trees of DataLayoutFactory.cpp 118-131 and 213-226, made from the layouts of Layout.v. *)
From Coq Require Import List Bool ZArith Arith NArith Lia.
From Verif Require Import LoadStore LoadStoreSpec.
From Verif Require Layout LayoutProps LoadStoreTree LoadStoreProofs.
Import ListNotations.
Local Open Scope Z_scope.

(** Sizes and alignments of the types of columns, Type.hpp. *)
Definition size_of (t : type) : Layout.type :=
  match t with
  | TBool => Layout.BOOL | TI8 => Layout.INT 1 | TI16 => Layout.INT 2 | TI32 => Layout.INT 4 | TI64 => Layout.INT 8
  | TF32 => Layout.FLOAT | TF64 => Layout.DOUBLE | TChar n => Layout.CHAR (N.of_nat n) | TVarchar n => Layout.VARCHAR (N.of_nat n)
  | TBitmap => Layout.BOOL
  end.
Definition column_type (t : type) : Prop := match t with TBitmap => False | TChar n => (0 < n)%nat | _ => True end.

(** DataLayoutFactory.cpp 118-128 and 213-223: the attributes in their order, then the NULL bitmap. *)
Fixpoint attribute_leaves (D : Layout.layout) (types : list type) (i : nat) (bitmap : children) : children :=
  match types with
  | [] => bitmap
  | t :: r => Child (Leaf i t) (Z.of_N (Layout.loffset D i)) (Z.of_N (Layout.lstride D i)) (attribute_leaves D r (S i) bitmap)
  end.
Definition bitmap_leaf (D : Layout.layout) (remove_null : bool) (n : nat) : children :=
  if remove_null then Nil else Child (Leaf n TBitmap) (Z.of_N (Layout.loffset D n)) (Z.of_N (Layout.lstride D n)) Nil.
Definition tree (D : Layout.layout) (remove_null : bool) (types : list type) : layout :=
  mkLayout (INode 0 (Z.of_N (Layout.rows D)) (attribute_leaves D types 0 (bitmap_leaf D remove_null (length types)))) (Z.of_N (Layout.block D)).

(** ** Proofs *)
Lemma size_valid t : column_type t -> LayoutProps.valid_type (size_of t).
Proof.
  destruct t; cbn [column_type size_of]; intros H.
  - apply LayoutProps.v_bool.
  - apply LayoutProps.v_int; left; reflexivity.
  - apply LayoutProps.v_int; right; left; reflexivity.
  - apply LayoutProps.v_int; right; right; left; reflexivity.
  - apply LayoutProps.v_int; right; right; right; left; reflexivity.
  - apply LayoutProps.v_float.
  - apply LayoutProps.v_double.
  - apply LayoutProps.v_char; lia.
  - apply LayoutProps.v_varchar.
  - destruct H.
Qed.
Lemma sizes_valid types : types <> [] -> Forall column_type types -> LayoutProps.valid_types (map size_of types).
Proof.
  intros H F. split; [destruct types; [congruence|discriminate]|]. apply Forall_map. eapply Forall_impl; [|exact F]. apply size_valid.
Qed.
Lemma size_bits t : column_type t -> Z.of_N (Layout.tsize (size_of t)) = bits t.
Proof. destruct t; intros H; try reflexivity; cbn [size_of Layout.tsize Layout.CHAR Layout.VARCHAR bits]; [lia|lia|destruct H]. Qed.

(** What [layout_ok] needs of a layout with one level. *)
Record level_ok (D : Layout.layout) (rn : bool) (types : list type) : Prop := mkLevel {
  lv_rows : (0 < Layout.rows D)%N; lv_byte : (8 | Layout.block D)%N; lv_block : (Layout.block D < 2 ^ 64)%N;
  lv_fit : forall i, ((i < length types)%nat \/ rn = false /\ i = length types) -> (Layout.rows D * Layout.lstride D i <= Layout.block D)%N;
  lv_bool : forall i, nth_error types i = Some TBool -> Layout.lstride D i = 0%N \/ Layout.lstride D i = 1%N /\ (8 | Layout.loffset D i)%N;
  lv_other : forall i t, nth_error types i = Some t -> t <> TBool -> (8 | Layout.loffset D i)%N /\ (8 | Layout.lstride D i)%N;
  lv_bitmap : rn = false -> Layout.lstride D (length types) = 0%N \/ (8 | Layout.loffset D (length types))%N }.

Lemma mod8 x : (8 | x)%N -> Z.of_N x mod 8 = 0.
Proof. intros [q ->]. rewrite N2Z.inj_mul. apply Z.mod_mul. discriminate. Qed.

Lemma leaves_ok D rn types : Forall column_type types -> level_ok D rn types -> forall suf pre, types = pre ++ suf ->
  children_ok (length types) (attribute_leaves D suf (length pre) (bitmap_leaf D rn (length types))) (Z.of_N (Layout.rows D)).
Proof.
  intros F [R B B64 Fit Bo Ot Bm]. induction suf as [|t suf IH]; intros pre E; cbn [attribute_leaves].
  - unfold bitmap_leaf. destruct rn; cbn [children_ok]; [exact I|]. split; [|exact I]. cbn [node_ok]. split; [lia|]. split; [lia|].
    unfold leaf_ok. rewrite Nat.eqb_refl. destruct (Bm eq_refl) as [->|H]; [left; reflexivity|right; apply mod8; exact H].
  - assert (Hn : nth_error types (length pre) = Some t) by (subst; rewrite nth_error_app2, Nat.sub_diag by lia; reflexivity).
    assert (Hl : (length pre < length types)%nat) by (apply nth_error_Some; congruence).
    cbn [children_ok]. split.
    + cbn [node_ok]. split; [lia|]. split; [lia|]. unfold leaf_ok. destruct (Nat.eqb_spec (length pre) (length types)); [lia|].
      assert (CT : column_type t) by (rewrite Forall_forall in F; apply F; eapply nth_error_In; exact Hn).
      destruct t; try (destruct (Ot _ _ Hn) as [H1 H2]; [discriminate|]; split; apply mod8; assumption).
      * destruct (Bo _ Hn) as [->|[-> H]]; [left; reflexivity|right; split; [reflexivity|left; apply mod8; exact H]].
      * destruct CT.
    + specialize (IH (pre ++ [t])). rewrite app_length, Nat.add_1_r in IH. apply IH. rewrite <- app_assoc. exact E.
Qed.
Lemma leaves_fit D rn types : level_ok D rn types -> forall suf pre, types = pre ++ suf ->
  fits (attribute_leaves D suf (length pre) (bitmap_leaf D rn (length types))) (Z.of_N (Layout.rows D)) (Z.of_N (Layout.block D)).
Proof.
  intros [R B B64 Fit Bo Ot Bm]. induction suf as [|t suf IH]; intros pre E; cbn [attribute_leaves].
  - unfold bitmap_leaf. destruct rn; cbn [fits]; [exact I|]. split; [|exact I]. cbn [tuples]. rewrite Z.div_1_r, <- N2Z.inj_mul. apply N2Z.inj_le. apply Fit. right. auto.
  - cbn [fits]. split.
    + cbn [tuples]. rewrite Z.div_1_r, <- N2Z.inj_mul. apply N2Z.inj_le. apply Fit. left. rewrite E, app_length. cbn. lia.
    + specialize (IH (pre ++ [t])). rewrite app_length, Nat.add_1_r in IH. apply IH. rewrite <- app_assoc. exact E.
Qed.
Lemma leaves_indices D rn n suf : forall i, indices (attribute_leaves D suf i (bitmap_leaf D rn n)) = seq i (length suf) ++ if rn then [] else [n].
Proof. induction suf as [|t suf IH]; intros i; cbn; [destruct rn; reflexivity|]. rewrite IH. reflexivity. Qed.
Lemma leaves_inodes D rn n suf : forall i, inodes (attribute_leaves D suf i (bitmap_leaf D rn n)) = [].
Proof. induction suf as [|t suf IH]; intros i; cbn; [destruct rn; reflexivity|]. apply IH. Qed.

Lemma tree_ok D rn types : Forall column_type types -> level_ok D rn types -> layout_ok (length types) (tree D rn types).
Proof.
  intros F H. split; [|split].
  - cbn [tree child lstride node_ok]. pose proof (leaves_ok D rn types F H types [] eq_refl) as K. pose proof (leaves_fit D rn types H types [] eq_refl) as K'. cbn [length] in K, K'.
    destruct H as [R B B64 _ _ _ _]. split; [lia|]. split; [lia|]. split; [lia|]. split; [apply Z.mod_0_l; lia|]. split; [reflexivity|]. split; [apply mod8; exact B|].
    split; [|split; [exact K'|exact K]]. change (2 ^ 64) with (Z.of_N (2 ^ 64)). apply N2Z.inj_lt. exact B64.
  - cbn [tree child indices_node]. rewrite leaves_indices. destruct rn.
    + rewrite app_nil_r. apply seq_NoDup.
    + change [length types] with (seq (0 + length types) 1). rewrite <- (seq_app (length types) 1 0). apply seq_NoDup.
  - cbn [tree child inodes_node]. rewrite leaves_inodes. constructor; [intros []|constructor].
Qed.

(** Where the leaves are *)
Lemma find_leaves D rn n suf i r : forall k, (k + length suf = n)%nat -> find_in (attribute_leaves D suf k (bitmap_leaf D rn n)) r i =
  if (k <=? i)%nat && (i <? n)%nat then option_map (fun t => (t, Z.of_N (Layout.loffset D i) + r * Z.of_N (Layout.lstride D i))) (nth_error suf (i - k))
  else if (i =? n)%nat && negb rn then Some (TBitmap, Z.of_N (Layout.loffset D i) + r * Z.of_N (Layout.lstride D i)) else None.
Proof.
  induction suf as [|t suf IH]; intros k Hk; cbn [attribute_leaves find_in find_at length] in *.
  - destruct (Nat.leb_spec k i); destruct (Nat.ltb_spec i n); try lia; cbn [andb]; unfold bitmap_leaf; (destruct rn; cbn [find_in find_at negb]; [rewrite andb_false_r; reflexivity|]); rewrite (Nat.eqb_sym n i); (destruct (Nat.eqb_spec i n); [subst; reflexivity|reflexivity]).
  - destruct (Nat.eqb_spec k i) as [->|NE].
    + rewrite Nat.leb_refl. destruct (Nat.ltb_spec i n); [|lia]. cbn [andb]. rewrite Nat.sub_diag. reflexivity.
    + rewrite IH by lia. destruct (Nat.leb_spec k i); destruct (Nat.leb_spec (S k) i); try lia.
      * destruct (i <? n)%nat; cbn [andb]; [|reflexivity]. replace (i - k)%nat with (S (i - S k)) by lia. reflexivity.
      * reflexivity.
Qed.
Lemma tree_place D rn types r i : (0 < Layout.rows D)%N -> 0 <= r -> place (tree D rn types) r i =
  option_map (fun t => (t, Z.of_N (Z.to_N r / Layout.rows D * Layout.block D + (Layout.loffset D i + (Z.to_N r mod Layout.rows D) * Layout.lstride D i))))
    (if (i <? length types)%nat then nth_error types i else if (i =? length types)%nat && negb rn then Some TBitmap else None).
Proof.
  intros R Hr. unfold place. cbn [tree child lstride find_at]. rewrite (find_leaves D rn (length types) types i _ 0 eq_refl).
  assert (ER : Z.of_N (Z.to_N r) = r) by (apply Z2N.id; exact Hr). rewrite Nat.sub_0_r. cbn [Nat.leb andb].
  assert (EX : forall o s, 0 + r / Z.of_N (Layout.rows D) * Z.of_N (Layout.block D) + (Z.of_N o + r mod Z.of_N (Layout.rows D) * Z.of_N s) = Z.of_N (Z.to_N r / Layout.rows D * Layout.block D + (o + (Z.to_N r mod Layout.rows D) * s))).
  { intros o s. rewrite !N2Z.inj_add, !N2Z.inj_mul, N2Z.inj_div, N2Z.inj_mod, ER by lia. ring. }
  destruct (i <? length types)%nat.
  - destruct (nth_error types i); cbn [option_map]; [rewrite EX|]; reflexivity.
  - destruct ((i =? length types)%nat && negb rn); cbn [option_map]; [rewrite EX|]; reflexivity.
Qed.

(** No bits are shared *)
Definition item_of (i : nat) (null : bool) : LayoutProps.item := if null then LayoutProps.NullBit i else LayoutProps.Attr i.
Lemma part_bits D rn types ls r i n x : (0 < Layout.rows D)%N -> (8 | Layout.block D)%N -> Forall column_type types -> length ls = length types -> 0 <= r -> part ls (tree D rn types) r i n x ->
  0 <= x /\ LayoutProps.has (map size_of types) rn (item_of i n) /\
  (let b := LayoutProps.bits D (map size_of types) 0 (Z.to_N r) (item_of i n) in (fst b <= Z.to_N x < fst b + snd b)%N).
Proof.
  intros R B F Hl Hr [Hi H]. rewrite Hl in Hi. destruct n; cbn [item_of LayoutProps.has].
  - destruct H as (_ & ty & b & P & ->). rewrite Hl, tree_place in P by assumption. rewrite Nat.ltb_irrefl, Nat.eqb_refl in P. cbn [andb] in P. destruct rn; [discriminate|]. cbn [negb option_map] in P. injection P as <- <-.
    split; [apply Z.add_nonneg_nonneg; [apply N2Z.is_nonneg|lia]|]. split; [rewrite map_length; auto|]. cbn zeta. rewrite LayoutProps.bits_eq by exact B. cbn [fst snd LayoutProps.leaf_of LayoutProps.place LayoutProps.bitlen]. rewrite map_length.
    set (A := (Z.to_N r / _ * _)%N). set (C := (_ + _ * _)%N). clearbody A C. lia.
  - destruct H as (ty & a & P & Hx). rewrite tree_place in P by assumption. destruct (Nat.ltb_spec i (length types)); [|lia]. destruct (nth_error types i) as [t|] eqn:Ht; [|discriminate]. cbn [option_map] in P. injection P as <- <-.
    assert (CT : column_type t) by (rewrite Forall_forall in F; apply F; eapply nth_error_In; exact Ht). rewrite <- size_bits in Hx by exact CT.
    split; [eapply Z.le_trans; [apply N2Z.is_nonneg|apply Hx]|]. split; [rewrite map_length; auto|]. cbn zeta. rewrite LayoutProps.bits_eq by exact B. cbn [fst snd LayoutProps.leaf_of LayoutProps.place LayoutProps.bitlen].
    assert (E : Layout.ty (map size_of types) i = size_of t). { unfold Layout.ty. apply nth_error_nth. rewrite nth_error_map, Ht. reflexivity. } rewrite E.
    set (A := (Z.to_N r / _ * _)%N) in *. set (C := (_ + _ * _)%N) in *. clearbody A C. lia.
Qed.
Lemma tree_separate D rn types ls : (0 < Layout.rows D)%N -> (8 | Layout.block D)%N -> Forall column_type types -> length ls = length types ->
  LayoutProps.no_overlap D (map size_of types) rn -> separate ls (tree D rn types).
Proof.
  intros R B F Hl NO r r' i i' n n' x Hr Hr' P P'.
  destruct (part_bits D rn types ls r i n x R B F Hl Hr P) as (Hx & H1 & H2). destruct (part_bits D rn types ls r' i' n' x R B F Hl Hr' P') as (_ & H1' & H2').
  assert (E : (Z.to_N r, item_of i n) = (Z.to_N r', item_of i' n')).
  { assert (D0 : {(Z.to_N r, item_of i n) = (Z.to_N r', item_of i' n')} + {(Z.to_N r, item_of i n) <> (Z.to_N r', item_of i' n')}) by (repeat decide equality).
    destruct D0 as [E|NE]; [exact E|]. specialize (NO 0%N _ _ _ _ H1 H1' NE). unfold LayoutProps.disjoint in NO. cbn zeta in H2, H2'. lia. }
  injection E as E1 E2. apply Z2N.inj in E1; [|assumption|assumption]. destruct n, n'; cbn in E2; try discriminate; injection E2 as ->; subst; reflexivity.
Qed.

(** ** The layouts of the factories *)
Lemma size_8 t : column_type t -> t <> TBool -> (8 | Layout.talign (size_of t))%N /\ (8 | Layout.tsize (size_of t))%N.
Proof.
  destruct t; intros C H; try congruence; cbn [size_of Layout.talign Layout.tsize Layout.CHAR Layout.VARCHAR];
  try (split; [apply N.mod_divide; [lia|reflexivity]|apply N.mod_divide; [lia|reflexivity]]).
  - split; [exists 1%N; reflexivity|exists (N.of_nat n); lia].
  - split; [exists 1%N; reflexivity|exists (N.of_nat n + 1)%N; lia].
  - destruct C.
Qed.
Lemma ty_nth types i t : nth_error types i = Some t -> Layout.ty (map size_of types) i = size_of t.
Proof. intros H. unfold Layout.ty. apply nth_error_nth. rewrite nth_error_map, H. reflexivity. Qed.
Lemma placed_bytes types offs l : (forall i, In i l -> (8 | Layout.tsize (Layout.ty types i))%N) -> forall off, (8 | off)%N -> LayoutProps.placed types offs off l -> forall i, In i l -> (8 | offs i)%N.
Proof.
  induction l as [|j l IH]; intros H off Ho P i Hi; [destruct Hi|]. cbn in P. destruct P as [E P]. destruct Hi as [<-|Hi]; [rewrite E; exact Ho|].
  eapply IH; [|apply N.divide_add_r; [exact Ho|]|exact P|exact Hi]; [intros k Hk; apply H; right; exact Hk|apply H; left; reflexivity].
Qed.

Lemma row_level reorder rn types : types <> [] -> Forall column_type types -> reorder = true \/ ~ In TBool types -> let D := Layout.row_layout reorder rn (map size_of types) in
  (Layout.block D < 2 ^ 64)%N -> level_ok D rn types.
Proof.
  intros NE F HB D H64. pose proof (sizes_valid types NE F) as V. pose proof (LayoutProps.row_good reorder rn _ V) as G. fold D in G.
  assert (ER : Layout.rows D = 1%N /\ Layout.lstride D = fun _ => 0%N). { unfold D, Layout.row_layout. destruct (Layout.row_offsets _ _ _ _ _) as [[? ?] ?]. split; reflexivity. }
  destruct ER as [ER ES]. constructor.
  - rewrite ER. lia.
  - apply G.
  - exact H64.
  - intros i _. rewrite ES. lia.
  - intros i _. left. rewrite ES. reflexivity.
  - intros i t Ht NB. rewrite ES. split; [|apply N.divide_0_r].
    assert (CT : column_type t) by (rewrite Forall_forall in F; apply F; eapply nth_error_In; exact Ht).
    assert (Hi : (i < length (map size_of types))%nat) by (rewrite map_length; apply nth_error_Some; congruence).
    destruct HB as [->|HB].
    + pose proof (LayoutProps.C27_aligned rn _ V 0%N i Hi) as A. fold D in A. rewrite LayoutProps.bits_eq in A by apply G. cbn [fst LayoutProps.leaf_of LayoutProps.place] in A. rewrite ER, ES, N.div_0_l, N.mul_0_l, N.mul_0_r, !N.add_0_l, !N.add_0_r in A by lia. rewrite (ty_nth _ _ _ Ht) in A. eapply N.divide_trans; [exact (proj1 (size_8 t CT NB))|exact A].
    + unfold D, Layout.row_layout. set (l := Layout.compute_attribute_order reorder (map size_of types)). assert (Hd : NoDup l) by apply LayoutProps.order_nodup.
      destruct (LayoutProps.row_offsets_spec (map size_of types) l Hd (fun _ => 0%N) 0%N 8%N) as (offs & al & -> & P1 & _). cbn [Layout.loffset]. unfold Layout.set. destruct (Nat.eqb_spec i (length (map size_of types))); [lia|].
      apply (placed_bytes (map size_of types) offs l) with (off := 0%N); [|apply N.divide_0_r|exact P1|apply LayoutProps.order_in; exact Hi].
      intros j Hj. apply LayoutProps.order_in in Hj. rewrite map_length in Hj. destruct (nth_error types j) as [u|] eqn:Hu; [|apply nth_error_None in Hu; lia]. rewrite (ty_nth _ _ _ Hu). apply nth_error_In in Hu. apply size_8; [rewrite Forall_forall in F; auto|congruence].
  - intros _. left. rewrite ES. reflexivity.
Qed.
Lemma pax_level reorder rn less opt types D : types <> [] -> Forall column_type types -> (N.of_nat (length types) < 2 ^ 64)%N ->
  Layout.pax_layout reorder rn less opt (map size_of types) = Some D -> LayoutProps.big_enough rn opt (map size_of types) -> (Layout.block D < 2 ^ 64)%N -> level_ok D rn types.
Proof.
  intros NE F HN E HB H64. pose proof (sizes_valid types NE F) as V. rewrite <- (map_length size_of types) in HN.
  pose proof (LayoutProps.pax_good _ _ _ _ _ _ E V HN HB) as G. pose proof (LayoutProps.C28_byte_columns _ _ _ _ _ _ E V HN HB) as BC.
  destruct (LayoutProps.pax_inv _ _ _ _ _ _ E V HN HB) as (offs1 & nb & e & al & c & HR & _ & _ & _ & Es & _ & _ & _ & _ & _ & Hfit).
  rewrite map_length in *. constructor.
  - exact HR.
  - apply G.
  - exact H64.
  - intros i [Hi|[-> ->]].
    + destruct (LayoutProps.good_leaf D _ rn (LayoutProps.Attr i) G) as (l & P & _ & Hl & _); [cbn; rewrite map_length; exact Hi|]. cbn [LayoutProps.leaf_of] in Hl. destruct (LayoutProps.packed_in _ _ _ _ _ _ P Hl) as [_ W]. unfold LayoutProps.width, LayoutProps.leaf_size in W. rewrite map_length in W. rewrite Es in W |- *. destruct (Nat.eqb_spec i (length types)); [lia|]. set (s := Layout.tsize _) in *. assert (Layout.rows D * s = s * (Layout.rows D - 1) + s)%N by (replace (Layout.rows D) with (Layout.rows D - 1 + 1)%N at 1 by lia; lia). lia.
    + rewrite Es, Nat.eqb_refl. lia.
  - intros i Ht. right. assert (Hi : (i < length types)%nat) by (apply nth_error_Some; congruence). rewrite Es. destruct (Nat.eqb_spec i (length types)); [lia|]. rewrite (ty_nth _ _ _ Ht). split; [reflexivity|apply BC; lia].
  - intros i t Ht NB. assert (Hi : (i < length types)%nat) by (apply nth_error_Some; congruence). split; [apply BC; lia|]. rewrite Es. destruct (Nat.eqb_spec i (length types)); [lia|]. rewrite (ty_nth _ _ _ Ht). apply size_8; [rewrite Forall_forall in F; apply F; eapply nth_error_In; exact Ht|exact NB].
  - intros _. right. apply BC. lia.
Qed.

(** ** Number of context entries *)
From Verif Require Import LoadStoreSim LoadStoreMain.
Definition cost (p : list call) : nat := length (allocs p).
Lemma cost_app p q : cost (p ++ q) = (cost p + cost q)%nat.
Proof. unfold cost. rewrite allocs_app, app_length. reflexivity. Qed.
Lemma access_cost s ls ts ni i t off st base row : (cost (access_leaf s ls ts ni i t off st base row) <= if Nat.eqb i (length ls) then 0 else match slot ls ts i with Some _ => 10 | None => 0 end)%nat.
Proof.
  unfold access_leaf. destruct (Nat.eqb i (length ls)); [cbn; lia|]. destruct (slot ls ts i) as [k|]; [|cbn; lia]. rewrite !cost_app.
  assert (A : (cost (access_null s ls ni i k) <= if s then 6 else 4)%nat).
  { unfold access_null. destruct ni as [x|]; [|destruct s; cbn; lia]. destruct (nullable ls i); [|destruct s; cbn; lia]. rewrite cost_app. assert (B : (cost (if s then [] else [Emit Push_Null]) = 0)%nat) by (destruct s; reflexivity). rewrite B. destruct (n_stride x =? 0).
    - unfold null_fixed. destruct (_ <? 8), s; cbn; lia.
    - unfold null_adjustable. destruct s; cbn; lia. }
  assert (B : le (cost (if st mod 8 =? 0 then access_bytes s ls ni i k t ((off + row * st) mod 8) (st / 8) else access_bit s ls ni i k t ((off + row * st) mod 8))) (if s then 3 else 4)%nat).
  { destruct (st mod 8 =? 0).
    - unfold access_bytes. rewrite cost_app. assert (C : le (cost (if (st / 8 =? 0) then [] else [Const (VI (st / 8)); Load (Ptr i); Emit Add_p; Update (Ptr i); Emit Pop])) 1) by (destruct (st / 8 =? 0)%Z; cbn; lia).
      assert (C' : le (cost (if s then ld_tup k ++ (if is_boolean t then [Emit (St_b (((off + row * st) mod 8) mod 256))] else emit_St t) else (if is_boolean t then [Emit (Ld_b (2 ^ ((off + row * st) mod 8) mod 256))] else emit_Ld t) ++ (if can_be_null ls ni i then [Emit Sel] else []) ++ emit_St_Tup k t ++ [Emit Pop])) 2) by (destruct s, t, (can_be_null ls ni i); cbn; lia). destruct s; lia.
    - unfold access_bit. destruct s, t, (can_be_null ls ni i); cbn; lia. }
  assert (C : cost [NewLoad (Ptr i) (VI (base + (off + row * st) / 8))] = 1%nat) by reflexivity. rewrite C. destruct s; lia.
Qed.
Lemma jumps_cost ls i x pn ps id n st : (cost (jumps ls i x pn ps [(id, n, st)]) <= 4)%nat.
Proof. cbn [jumps]. rewrite app_nil_r. destruct (_ =? 0); [cbn; lia|]. unfold reset_null, reset_mask, advance_ptr. destruct (_ mod 8 =? 0), (n =? 1), (Nat.eqb i (length ls)); cbn; lia. Qed.
Definition wanted (ls : schema) (ts : list nat) (i : nat) : bool := match slot ls ts i with Some _ => true | None => false end.
Fixpoint count_wanted (ls : schema) (ts : list nat) (k n : nat) : nat := match n with O => 0 | S n' => (if wanted ls ts k then 1 else 0) + count_wanted ls ts (S k) n' end.
Lemma accesses_cost s ls ts ni D rn suf base row : forall k, (k + length suf <= length ls)%nat ->
  (cost (accesses s ls ts ni (attribute_leaves D suf k (bitmap_leaf D rn (length ls))) base row) <= 10 * count_wanted ls ts k (length suf))%nat.
Proof.
  induction suf as [|t suf IH]; intros k Hk; cbn [attribute_leaves accesses length count_wanted] in *.
  - unfold bitmap_leaf. destruct rn; cbn [accesses]; [cbn; lia|]. rewrite cost_app. pose proof (access_cost s ls ts ni (length ls) TBitmap (Z.of_N (Layout.loffset D (length ls))) (Z.of_N (Layout.lstride D (length ls))) base row) as A. rewrite Nat.eqb_refl in A. cbn [access_node]. change (cost []) with 0%nat. lia.
  - rewrite cost_app. specialize (IH (S k) ltac:(lia)). cbn [access_node]. pose proof (access_cost s ls ts ni k t (Z.of_N (Layout.loffset D k)) (Z.of_N (Layout.lstride D k)) base row) as A. unfold wanted. destruct (Nat.eqb_spec k (length ls)); [lia|]. destruct (slot ls ts k); lia.
Qed.
Lemma strides_cost ls ts ni D rn suf row id n st : forall k, (k + length suf <= length ls)%nat ->
  (cost (strides ls ts ni (attribute_leaves D suf k (bitmap_leaf D rn (length ls))) row [(id, n, st)]) <= 4 * count_wanted ls ts k (length suf) + 4)%nat.
Proof.
  induction suf as [|t suf IH]; intros k Hk; cbn [attribute_leaves strides length count_wanted] in *.
  - unfold bitmap_leaf. destruct rn; cbn [strides]; [cbn; lia|]. rewrite cost_app. cbn [stride_node]. change (cost []) with 0%nat. unfold stride_leaf. rewrite Nat.eqb_refl. destruct ni; change (cost []) with 0%nat; [|lia]. pose proof (jumps_cost ls (length ls) NullP 1 (Z.of_N (Layout.lstride D (length ls))) id n st). lia.
  - rewrite cost_app. specialize (IH (S k) ltac:(lia)). cbn [stride_node]. unfold stride_leaf, wanted. destruct (Nat.eqb_spec k (length ls)); [lia|]. pose proof (jumps_cost ls k (Ptr k) 1 (Z.of_N (Layout.lstride D k)) id n st). destruct ni, (slot ls ts k); change (cost []) with 0%nat; lia.
Qed.
Lemma count_filter ls ts : forall n k, count_wanted ls ts k n = length (filter (wanted ls ts) (seq k n)).
Proof. induction n as [|n IH]; intros k; cbn; [reflexivity|]. rewrite IH. destruct (wanted ls ts k); reflexivity. Qed.
Lemma count_le ls ts n : schemas_ok ls ts -> (count_wanted ls ts 0 n <= length ts)%nat.
Proof.
  intros HT. rewrite count_filter. set (l := filter _ _). assert (NDl : NoDup l) by (apply NoDup_filter, seq_NoDup).
  assert (G : exists l', Forall2 (fun i k => slot ls ts i = Some k) l l').
  { assert (X : forall i, In i l -> exists k, slot ls ts i = Some k). { intros i Hi. apply filter_In in Hi. destruct Hi as [_ Hi]. unfold wanted in Hi. destruct (slot ls ts i); [eauto|discriminate]. }
    clear NDl. clearbody l. induction l as [|i l IH]; [exists []; constructor|]. destruct (X i (or_introl eq_refl)) as (k & Hk). destruct IH as (l' & Hl'); [intros j Hj; apply X; right; exact Hj|]. exists (k :: l'). constructor; assumption. }
  destruct G as (l' & G). assert (El : length l = length l') by (clear NDl; clearbody l; induction G; cbn; auto). rewrite El. rewrite <- (seq_length (length ts) 0). clear El. apply NoDup_incl_length.
  - clearbody l. clear - HT NDl G. induction G as [|i k l l' H G IH]; [constructor|]. inversion NDl as [|? ? N1 N2]; subst. constructor; [|apply IH; exact N2]. intros X. apply N1.
    clear IH N1 N2 NDl. induction G as [|j k' l l' H' G IH]; [destruct X|]. destruct X as [->|X]; [|right; apply IH; exact X]. left. apply (LoadStoreProofs.attribute_inj ls ts HT j i k (nullable ls j) (nullable ls i)); apply LoadStoreProofs.slot_attribute; assumption.
  - intros k Hk. clearbody l. clear NDl. apply in_seq. split; [lia|]. cbn. induction G as [|j k' l l' H' G IH]; [destruct Hk|]. destruct Hk as [->|Hk]; [|apply IH; exact Hk]. apply (LoadStoreProofs.attribute_lt ls ts j k (nullable ls j)). apply LoadStoreProofs.slot_attribute; assumption.
Qed.
(** Up to 17 columns *)
Lemma context_bound s ls ts D rn types base r : length ls = length types -> schemas_ok ls ts ->
  (length (context (compile s ts base (tree D rn types) ls r)) <= 14 * length ts + 11)%nat.
Proof.
  intros Hl HT. unfold compile. rewrite context_length. fold (cost (compile_body s ls ts (if needs_null_bitmap ls ts then find_null (length ls) (root (tree D rn types)) 0 base r else None) (root (tree D rn types)) base r)).
  generalize (if needs_null_bitmap ls ts then find_null (length ls) (root (tree D rn types)) 0 base r else None). intros ni. unfold compile_body. rewrite !cost_app.
  pose proof (count_le ls ts (length types) HT) as C.
  set (cs := attribute_leaves D types 0 (bitmap_leaf D rn (length types))). set (n := Z.of_N (Layout.rows D)). set (st := Z.of_N (Layout.block D)).
  change (accesses s ls ts ni (root (tree D rn types)) base r) with (accesses s ls ts ni cs (base + (0 / 8 + (r / n) * st / 8)) (r mod n) ++ []).
  change (strides ls ts ni (root (tree D rn types)) r []) with (([NewLoad (Ctr 0) (VI (r mod n)); Emit Inc; Update (Ctr 0); Emit Pop] ++ strides ls ts ni cs (r mod n) [(0%nat, n, st)] ++ (if n =? 1 then [Const (VI 0)] else [Load (Ctr 0); Const (VI n); Emit NE_i; Emit Cast_i_b; Load (Ctr 0); Emit Mul_i]) ++ [Update (Ctr 0)]) ++ []).
  rewrite !cost_app. pose proof (accesses_cost s ls ts ni D rn types (base + (0 / 8 + (r / n) * st / 8)) (r mod n) 0 ltac:(lia)) as A. pose proof (strides_cost ls ts ni D rn types (r mod n) 0 n st 0 ltac:(lia)) as B. rewrite Hl in A, B. fold cs in A, B.
  assert (E1 : le (Nat.add (cost (match ni with Some x => [New NullP (VI (n_addr x))] ++ (if n_stride x =? 0 then [] else [New NullOfs (VI (n_bit_offset x))]) | None => [] end)) (cost (advance_null ni))) 5) by (unfold advance_null; destruct ni as [x|]; [destruct (n_stride x =? 0)|]; cbn; lia).
  change (cost []) with 0%nat. match goal with |- context [cost (if ?b then [Const (VI 0)] else ?q)] => assert (E2 : (cost (if b then [Const (VI 0)] else q) <= 1)%nat) by (destruct b; cbn; lia) end.
  match goal with |- context [cost [Update ?x]] => change (cost [Update x]) with 0%nat end.
  match goal with |- context [cost [NewLoad ?x ?v; Emit Inc; Update ?x; Emit Pop]] => change (cost [NewLoad x v; Emit Inc; Update x; Emit Pop]) with 1%nat end.
  lia.
Qed.
