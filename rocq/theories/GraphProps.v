(** * Property theorems C09-C12: join graphs.

    Vocabulary (GraphSpec.v): [mem i S], [edge m i j], [graph n m] ("[m] is a graph on vertices 0..n-1, n <= 64"),
    [symmetric m] (undirected), [path m V i j], [walk m i j] (at least one edge), [connected m S], [adjacent m A B],
    [disjoint A B]. *)
From Coq Require Import NArith List Bool Lia Sorting.Sorted.
From Verif Require Import Word WordProofs Bitset BitsetProofs GraphSpec Graph GraphProofs ClosureProofs CSGProofs.
Import ListNotations.
Open Scope N_scope.

(** C09 *)
Theorem C09_reachable : forall n m src, graph n m -> W64 src ->
  exists R, reachable m src = Some R /\ W64 R /\
    forall j, mem j R <-> exists i, mem i src /\ path m (fun _ => True) i j.
Proof. exact reachable_spec. Qed.
Print Assumptions C09_reachable.

Theorem C09_reachable_within : forall n m src S, graph n m -> W64 S ->
  exists R, reachable_in m src S = Some R /\ W64 R /\
    forall j, mem j R <-> exists i, mem i src /\ path m (fun x => mem x S) i j.
Proof. exact reachable_in_spec. Qed.
Print Assumptions C09_reachable_within.

Theorem C09_neighbors : forall n m S j, graph n m -> W64 S ->
  mem j (neighbors m S) <-> ~ mem j S /\ exists i, mem i S /\ edge m i j.
Proof. exact neighbors_spec. Qed.
Print Assumptions C09_neighbors.

Theorem C09_is_connected : forall n m S, graph n m -> symmetric m -> W64 S ->
  exists b, is_connected m S = Some b /\ (b = true <-> connected m S).
Proof. exact is_connected_spec. Qed.
Print Assumptions C09_is_connected.

Theorem C09_is_connected_pair : forall n m A B, graph n m -> symmetric m -> W64 A -> W64 B ->
  is_connected2 m A B = true <-> adjacent m A B.
Proof. exact is_connected2_spec. Qed.
Print Assumptions C09_is_connected_pair.

(** A graph with a cycle 5-0-1-2-3-5 and a leaf 4 at 0. *)
Definition cycle5 (i : N) : N :=
  match i with 0 => 32 + 2 + 16 | 1 => 1 + 4 | 2 => 2 + 8 | 3 => 4 + 32 | 4 => 1 | 5 => 1 + 8 | _ => 0 end.
Lemma cycle5_graph : graph 6 cycle5 /\ symmetric cycle5.
Proof.
  assert (H : forall i j, edge cycle5 i j -> In (i, j) [(0,1);(0,4);(0,5);(1,0);(1,2);(2,1);(2,3);(3,2);(3,5);(4,0);(5,0);(5,3)]).
  { intros i j. unfold edge, mem.
    destruct (N.le_gt_cases i 5) as [Hi|Hi].
    - assert (Ei : i = 0 \/ i = 1 \/ i = 2 \/ i = 3 \/ i = 4 \/ i = 5) by lia.
      assert (HW : cycle5 i < 2 ^ 6) by (destruct Ei as [->|[->|[->|[->|[->| ->]]]]]; vm_compute; reflexivity).
      destruct (N.lt_ge_cases j 6) as [Hj|Hj].
      + assert (Ej : j = 0 \/ j = 1 \/ j = 2 \/ j = 3 \/ j = 4 \/ j = 5) by lia.
        destruct Ei as [->|[->|[->|[->|[->| ->]]]]], Ej as [->|[->|[->|[->|[->| ->]]]]]; vm_compute; intros E; try discriminate E; tauto.
      + rewrite (testbit_high _ 6 j HW Hj). discriminate.
    - assert (E : cycle5 i = 0).
      { destruct i as [|p]; [lia|]. destruct p as [[[p|p|]|[p|p|]|]|[[p|p|]|[p|p|]|]|]; try reflexivity; lia. }
      rewrite E, N.bits_0. discriminate. }
  split.
  - split; [lia|]. intros i j He. apply H in He. cbn [In] in He.
    repeat (destruct He as [He|He]; [injection He as <- <-; lia|]). destruct He.
  - intros i j He. apply H in He. cbn [In] in He.
    repeat (destruct He as [He|He]; [injection He as <- <-; vm_compute; reflexivity|]). destruct He.
Qed.
Example C09_nonvacuous : graph 6 cycle5 /\ symmetric cycle5 /\ reachable_in cycle5 (2 ^ 1) (2 + 4 + 16) = Some 6 /\
  neighbors cycle5 33 = 2 + 8 + 16 /\ is_connected cycle5 63 = Some true /\ is_connected cycle5 (2 + 8) = Some false.
Proof. split; [apply cycle5_graph|]. split; [apply cycle5_graph|]. repeat split; vm_compute; reflexivity. Qed.

(** C10 *)
Theorem C10_directed : forall n m, graph n m ->
  exists c, transitive_closure_directed n m = Some c /\ graph n c /\ forall i j, edge c i j <-> walk m i j.
Proof. exact tcd_spec. Qed.
Print Assumptions C10_directed.

Theorem C10_undirected : forall n m, graph n m -> symmetric m ->
  exists c, transitive_closure_undirected n m = Some c /\ graph n c /\ symmetric c /\ forall i j, edge c i j <-> walk m i j.
Proof. exact tcu_spec. Qed.
Print Assumptions C10_undirected.

Example C10_nonvacuous : option_map (fun c => map c (range 0 4)) (transitive_closure_directed 4 (fun i => match i with 0 => 2 | 1 => 4 | 2 => 8 | _ => 0 end))
  = Some [14; 12; 8; 0] /\
  option_map (fun c => map c (range 0 4)) (transitive_closure_undirected 4 (fun i => match i with 0 => 4 | 2 => 1 | _ => 0 end))
  = Some [5; 0; 5; 0].
Proof. split; vm_compute; reflexivity. Qed.

(** C11: with enough fuel (the loop terminates), the callback is called exactly once for every connected subset of [super]
    meeting [source]; with [source = super], for every non-empty connected subset. *)
Theorem C11_CSGs : forall n m super source, graph n m -> symmetric m -> W64 super ->
  exists fuel0, forall fuel, (fuel0 <= fuel)%nat ->
  exists out, for_each_CSG m fuel super source = Some out /\ NoDup out /\
    forall T, In T out <-> (forall j, mem j T -> mem j super) /\ (exists i, mem i T /\ mem i source) /\ connected m T.
Proof.
  intros n m super source HG Hs HW. exists (N.to_nat chunk_fuel). intros fuel Hf. apply for_each_CSG_spec with n; auto. lia.
Qed.
Print Assumptions C11_CSGs.

Theorem C11_all_CSGs : forall n m super, graph n m -> symmetric m -> W64 super ->
  exists fuel0, forall fuel, (fuel0 <= fuel)%nat ->
  exists out, for_each_CSG m fuel super super = Some out /\ NoDup out /\
    forall T, In T out <-> (forall j, mem j T -> mem j super) /\ T <> 0 /\ connected m T.
Proof.
  intros n m super HG Hs HW. exists (N.to_nat chunk_fuel). intros fuel Hf.
  destruct (for_each_CSG_pair_structure n m super fuel HG Hs HW ltac:(lia)) as [firsts [_ [H1 [_ [H2 [H3 _]]]]]].
  exists firsts. split; [exact H1|]. split; [exact H2|exact H3].
Qed.
Print Assumptions C11_all_CSGs.

Example C11_nonvacuous : for_each_CSG cycle5 100 63 63 =
  Some [1; 2; 3; 4; 6; 7; 8; 12; 14; 15; 16; 17; 19; 23; 31; 32; 33; 40; 41; 35; 49; 51; 44; 43; 45; 47; 57; 59; 61; 63; 39; 55; 46].
Proof. vm_compute. reflexivity. Qed.

(** C12: every unordered pair of disjoint, non-empty, connected, adjacent sets is visited in exactly one order, exactly once. *)
Theorem C12_pairs : forall n m super, graph n m -> symmetric m -> W64 super ->
  exists fuel0, forall fuel, (fuel0 <= fuel)%nat ->
  exists out, for_each_CSG_pair m fuel super = Some out /\ NoDup out /\
    (forall a b, In (a, b) out -> Sub a super /\ Sub b super /\ a <> 0 /\ b <> 0 /\ connected m a /\ connected m b /\
                                   disjoint a b /\ adjacent m a b) /\
    (forall a b, Sub a super -> Sub b super -> a <> 0 -> b <> 0 -> connected m a -> connected m b -> disjoint a b ->
       adjacent m a b -> (In (a, b) out \/ In (b, a) out) /\ ~ (In (a, b) out /\ In (b, a) out)).
Proof.
  intros n m super HG Hs HW. exists (N.to_nat chunk_fuel). intros fuel Hf.
  destruct (for_each_CSG_pair_spec n m super fuel HG Hs HW ltac:(lia)) as [out [H1 [H2 H3]]].
  exists out. split; [exact H1|]. split; [exact H2|]. split.
  - intros a b Hin. apply H3 in Hin. destruct Hin as [A1 [A2 [A3 [A4 [A5 [A6 [A7 _]]]]]]].
    repeat (split; [assumption|]). split; [|tauto]. intros ->. destruct A7 as [x [y [_ [Hy _]]]]. exact (mem_0 _ Hy).
  - intros a b Ha Hb Hza Hzb Hca Hcb Hd Hadj.
    destruct (hi_spec a (Sub_W64 a super Ha HW) Hza) as [ha [Ha1 [Ha2 _]]].
    destruct (hi_spec b (Sub_W64 b super Hb HW) Hzb) as [hb [Hb1 [Hb2 _]]].
    assert (Hne : ha <> hb) by (intros E; subst hb; exact (Hd ha Ha1 Hb1)).
    assert (Hadj' : adjacent m b a).
    { destruct Hadj as [x [y [Hx [Hy He]]]]. exists y, x. split; [exact Hy|]. split; [exact Hx|]. apply Hs. exact He. }
    assert (Hd' : disjoint b a) by (intros i Hi1 Hi2; exact (Hd i Hi2 Hi1)).
    split.
    + rewrite !H3. destruct (N.lt_ge_cases hb ha) as [Hlt|Hge]; [left|right].
      * repeat (split; [assumption|]). intros h j [Hm1 Hm2] Hj. specialize (Hm2 ha Ha1). specialize (Hb2 j Hj). lia.
      * repeat (split; [assumption|]). intros h j [Hm1 Hm2] Hj. specialize (Hm2 hb Hb1). specialize (Ha2 j Hj). lia.
    + rewrite !H3. intros [[_ [_ [_ [_ [_ [_ [_ M1]]]]]]] [_ [_ [_ [_ [_ [_ [_ M2]]]]]]]].
      specialize (M1 ha hb (conj Ha1 Ha2) Hb1). specialize (M2 hb ha (conj Hb1 Hb2) Ha1). lia.
Qed.
Print Assumptions C12_pairs.

Example C12_nonvacuous : for_each_CSG_pair (fun i => match i with 0 => 2 | 1 => 5 | 2 => 2 | _ => 0 end) 20 7
  = Some [(2, 1); (4, 2); (4, 3); (6, 1)].
Proof. vm_compute. reflexivity. Qed.

(** Finding: "sub-pairs before the pairs that use their unions" fails on cyclic graphs.  On [cycle5] the pair
    ({0,1,2,3,5}, {4}) is reported before the pairs ({0,1,2,5}, {3}) and ({1,2,3,5}, {0}), both of which are ways to
    build {0,1,2,3,5}: the breadth-first enumeration reaches a set before some of its connected subsets. *)
Theorem C12_order_refuted : exists out i j, for_each_CSG_pair cycle5 100 63 = Some out /\
  nth_error out i = Some (47, 16) /\ nth_error out j = Some (39, 8) /\ (i < j)%nat /\ N.lor 39 8 = 47.
Proof.
  exists (match for_each_CSG_pair cycle5 100 63 with Some out => out | None => [] end), 70%nat, 76%nat.
  split; [vm_compute; reflexivity|]. split; [vm_compute; reflexivity|]. split; [vm_compute; reflexivity|]. split; [lia|reflexivity].
Qed.
Print Assumptions C12_order_refuted.
