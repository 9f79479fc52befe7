(** * C13: minimum spanning forest, directed trees *)
From Coq Require Import NArith ZArith List Bool Lia Relations Permutation.
From Verif Require Import Word WordProofs Bitset BitsetProofs Graph GraphSpec GraphProofs ClosureProofs Msf.
From Verif Require Forest.
Import ListNotations.
Local Open Scope N_scope.

(** ** Specification *)

(** Connected by the edges of [R]. *)
Definition linked (R : N -> N -> Prop) : N -> N -> Prop := clos_refl_trans N R.

(** [F] is a spanning forest of the undirected graph [m] on [n] vertices: it consists of edges of [m], connects what [m]
    connects, and has no cycle, i.e. no edge whose ends are still connected without it. *)
Record spanning_forest (n : N) (m F : N -> N) : Prop := mkSF {
  sf_graph : graph n F;
  sf_symmetric : symmetric F;
  sf_subgraph : forall i j, edge F i j -> edge m i j;
  sf_connects : forall i j, linked (edge m) i j -> linked (edge F) i j;
  sf_acyclic : forall i j, edge F i j ->
    ~ linked (fun x y => edge F x y /\ ~ (x = i /\ y = j) /\ ~ (x = j /\ y = i)) i j }.

(** The edges of a graph on [n] vertices, each once, and their total weight. *)
Definition vertices (n : N) : list N := map N.of_nat (seq 0 (N.to_nat n)).
Definition edges (n : N) (F : N -> N) : list (N * N) :=
  filter (fun '(i, j) => (i <? j) && N.testbit (F i) j) (list_prod (vertices n) (vertices n)).
Definition total (w : N -> N -> Z) (n : N) (F : N -> N) : Z := fold_right (fun '(i, j) s => (w i j + s)%Z) 0%Z (edges n F).

(** What is known of a priority queue. *)
Definition priority_queue (push : wedge -> list wedge -> list wedge) (pop : list wedge -> option (wedge * list wedge)) : Prop :=
  (forall e Q, Permutation (push e Q) (e :: Q)) /\ pop [] = None /\
  (forall Q, Q <> [] -> exists e Q', pop Q = Some (e, Q') /\ Permutation Q (e :: Q') /\ forall x, In x Q -> (weight e <= weight x)%Z).

(** ** Edges *)
Lemma in_vertices n i : In i (vertices n) <-> i < n.
Proof.
  unfold vertices. rewrite in_map_iff. split.
  - intros (x & <- & H). apply in_seq in H. lia.
  - intros H. exists (N.to_nat i). split; [lia|]. apply in_seq. lia.
Qed.
Lemma vertices_nodup n : NoDup (vertices n).
Proof. unfold vertices. apply FinFun.Injective_map_NoDup; [intros a b H; lia|apply seq_NoDup]. Qed.

Lemma NoDup_app_disjoint (A : Type) (l l' : list A) : NoDup l -> NoDup l' -> (forall x, In x l -> ~ In x l') -> NoDup (l ++ l').
Proof.
  induction 1 as [|x l Hx Hl IH]; cbn; auto. intros Hl' D. constructor.
  - intros X. apply in_app_iff in X. destruct X as [X|X]; [auto|]. apply (D x); auto.
  - apply IH; auto.
Qed.
Lemma list_prod_nodup (A B : Type) (l : list A) (l' : list B) : NoDup l -> NoDup l' -> NoDup (list_prod l l').
Proof.
  intros H H'. induction H as [|a l Ha Hl IH]; cbn; [constructor|]. apply NoDup_app_disjoint; auto.
  - apply FinFun.Injective_map_NoDup; auto. intros p q E; congruence.
  - intros [x y] Hx Hy. apply in_map_iff in Hx. destruct Hx as (z & E & _). injection E as -> _. apply in_prod_iff in Hy. tauto.
Qed.
Lemma edges_nodup n F : NoDup (edges n F).
Proof. apply NoDup_filter, list_prod_nodup; apply vertices_nodup. Qed.
Lemma in_edges n F i j : In (i, j) (edges n F) <-> i < j /\ j < n /\ edge F i j.
Proof.
  unfold edges. rewrite filter_In, in_prod_iff, !in_vertices, andb_true_iff, N.ltb_lt. unfold edge, mem. intuition lia.
Qed.

Definition wt (w : N -> N -> Z) (e : N * N) : Z := w (fst e) (snd e).
Lemma total_sum w n F : total w n F = Forest.sum (wt w) (edges n F).
Proof. unfold total, Forest.sum. induction (edges n F) as [|[i j] l IH]; cbn; auto. rewrite IH. reflexivity. Qed.

Lemma linked_J (R : N -> N -> Prop) l : (forall x y, R x y -> Forest.J l x y) -> forall x y, linked R x y -> Forest.J l x y.
Proof.
  intros H x y Hl. induction Hl as [x y Hs|x|x y z _ IH1 _ IH2]; auto; [apply Forest.J_refl|eapply Forest.J_trans; eauto].
Qed.
Lemma J_linked (R : N -> N -> Prop) l : (forall x y, R x y -> R y x) -> (forall x y, In (x, y) l -> R x y) -> forall x y, Forest.J l x y -> linked R x y.
Proof.
  intros Hs H x y Hj. apply clos_rst_rst1n in Hj. induction Hj as [x|x y z Hxy _ IH]; [apply rt_refl|].
  eapply rt_trans; [|exact IH]. apply rt_step. destruct Hxy; auto.
Qed.

(** ** The algorithm *)
Section Inv.
  Context (push : wedge -> list wedge -> list wedge) (pop : list wedge -> option (wedge * list wedge)).
  Context (n : N) (m : N -> N) (w : N -> N -> Z).
  Context (HQ : priority_queue push pop) (Hg : graph n m) (Hs : symmetric m) (Hw : forall i j, w i j = w j i).

  Definition upto (x : Z) (T : list (N * N)) : list (N * N) := filter (fun f => (wt w f <=? x)%Z) T.

  Lemma upto_cons x e T : (wt w e <= x)%Z -> upto x (e :: T) = e :: upto x T.
  Proof. intros H. unfold upto. cbn. destruct (Z.leb_spec (wt w e) x); [auto|lia]. Qed.
  Lemma J_upto_cons x e T a b : Forest.J (upto x T) a b -> Forest.J (upto x (e :: T)) a b.
  Proof. apply Forest.J_incl. unfold upto. cbn. destruct (_ <=? _)%Z; intros f Hf; [right|]; auto. Qed.
  Lemma J_upto_mono x y T a b : (x <= y)%Z -> Forest.J (upto x T) a b -> Forest.J (upto y T) a b.
  Proof.
    intros H. apply Forest.J_incl. intros f Hf. apply filter_In in Hf. apply filter_In. destruct Hf as [? Hf]. split; auto.
    apply Z.leb_le in Hf. apply Z.leb_le. lia.
  Qed.

  (** [T]: the edges of the forest; [C]: the vertices of the current tree, latest first. *)
  Record base (rem : N) (MSF : N -> N) (T : list (N * N)) : Prop := mkBase {
    b_rem : forall x, mem x rem -> x < n;
    b_W : W64 rem;
    b_T : forall a b, In (a, b) T -> a < n /\ b < n /\ ~ mem a rem /\ ~ mem b rem /\ edge m a b /\ a <> b;
    b_acyc : Forest.acyc [] T;
    b_cycle : forall a b, edge m a b -> ~ mem a rem -> ~ mem b rem -> Forest.J (upto (w a b) T) a b;
    b_MSF : forall a b, edge MSF a b <-> In (a, b) T \/ In (b, a) T;
    b_MSFW : forall a, W64 (MSF a) }.

  Record tree (rem : N) (T : list (N * N)) (C : list N) : Prop := mkTree {
    t_C : forall x, In x C -> ~ mem x rem;
    t_order : forall C1 a C2 b v, C = C1 ++ a :: C2 -> In b C1 -> mem v rem -> edge m a v -> Forest.J (upto (w a v) T) a b;
    t_closed : forall a v, ~ mem a rem -> ~ In a C -> mem v rem -> ~ edge m a v }.

  Record queue (rem : N) (C : list N) (known : N -> Prop) (Q : list wedge) : Prop := mkQueue {
    q_sound : forall e, In e Q -> In (source e) C /\ edge m (source e) (sink e) /\ weight e = w (source e) (sink e);
    q_complete : forall a v, In a C -> known a -> mem v rem -> edge m a v -> exists e, In e Q /\ source e = a /\ sink e = v }.

  Lemma n_le : n <= 64. Proof. apply Hg. Qed.

  Lemma push_all (f : N -> wedge) l : forall Q e, In e (fold_left (fun q v => push (f v) q) l Q) <-> In e Q \/ exists v, In v l /\ e = f v.
  Proof.
    destruct HQ as [Hp _]. induction l as [|v l IH]; intros Q e; cbn.
    - split; [auto|]. intros [|(v & [] & _)]; auto.
    - rewrite IH. split.
      + intros [H|(x & Hx & ->)]; [|right; eauto]. apply (Permutation_in _ (Hp (f v) Q)) in H. destruct H as [<-|H]; eauto.
      + intros [H|(x & [<-|Hx] & ->)]; [|left; apply (Permutation_in _ (Permutation_sym (Hp (f v) Q))); left; auto|right; eauto].
        left. apply (Permutation_in _ (Permutation_sym (Hp (f v) Q))). right; auto.
  Qed.

  Lemma explore_queue rem C Q u : W64 rem -> u < n -> In u C -> ~ mem u rem ->
    queue rem C (fun a => a <> u) Q -> queue rem C (fun _ => True) (explore push m w (2 ^ u) rem u Q).
  Proof.
    intros HW Hu HC Hur [Q1 Q2]. pose proof n_le as Hn. unfold explore.
    set (Nb := sbs_inter (neighbors m (2 ^ u)) rem).
    assert (HN : forall v, In v (sbs_list Nb) <-> edge m u v /\ mem v rem).
    { intros v. rewrite in_sbs_list by (apply W64_inter_r; auto). unfold Nb. rewrite mem_inter, (neighbors_spec n m (2 ^ u) v Hg) by (apply pow_W64; lia). split.
      - intros [[_ (i & Hi & He)] Hv]. apply mem_pow2 in Hi. subst i. auto.
      - intros [He Hv]. split; [|auto]. split; [|exists u; split; [apply mem_pow2; reflexivity|auto]]. intros X. apply mem_pow2 in X. subst v. auto. }
    constructor.
    - intros e He. apply (push_all (fun v => mkEdge u v (w u v))) in He. destruct He as [He|(v & Hv & ->)]; auto. cbn. apply HN in Hv. tauto.
    - intros a v Ha _ Hv He. destruct (N.eq_dec a u) as [->|Hne].
      + exists (mkEdge u v (w u v)). split; [|auto]. apply (push_all (fun v => mkEdge u v (w u v))). right. exists v. split; auto. apply HN; auto.
      + destruct (Q2 a v Ha Hne Hv He) as (e & H1 & H2). exists e. split; auto. apply (push_all (fun v => mkEdge u v (w u v))); auto.
  Qed.

  Lemma search_spec rem C : (forall x, mem x rem -> x < n) -> forall fuel Q, (length Q < fuel)%nat -> queue rem C (fun _ => True) Q ->
    match search pop fuel rem Q with
    | None => False
    | Some None => forall a v, In a C -> mem v rem -> ~ edge m a v
    | Some (Some (e, Q')) =>
        queue rem C (fun _ => True) (e :: Q') /\ mem (sink e) rem /\
        forall a v, In a C -> mem v rem -> edge m a v -> (weight e <= w a v)%Z
    end.
  Proof.
    intros Hrem. destruct HQ as (_ & Hp0 & Hp). induction fuel as [|f IH]; intros Q Hf [Q1 Q2]; [lia|]. cbn.
    destruct Q as [|q0 Q0] eqn:EQ.
    - rewrite Hp0. intros a v Ha Hv He. destruct (Q2 a v Ha I Hv He) as (e & [] & _).
    - rewrite <- EQ in *. destruct (Hp Q) as (e & Q' & -> & HP & Hmin); [congruence|].
      assert (He : In e Q) by (apply (Permutation_in _ (Permutation_sym HP)); left; auto).
      assert (Hsk : sink e < 64). { destruct (Q1 e He) as (_ & H & _). apply Hg in H. pose proof n_le. lia. }
      rewrite get_spec by auto. change (N.testbit rem (sink e)) with (N.testbit rem (sink e)).
      destruct (N.testbit rem (sink e)) eqn:Em.
      + split; [|split; [exact Em|]].
        * constructor.
          -- intros x Hx. apply Q1. apply (Permutation_in _ (Permutation_sym HP)); auto.
          -- intros a v Ha Hk Hv Hav. destruct (Q2 a v Ha Hk Hv Hav) as (x & Hx & E). exists x. split; auto. apply (Permutation_in _ HP); auto.
        * intros a v Ha Hv Hav. destruct (Q2 a v Ha I Hv Hav) as (x & Hx & <- & <-). destruct (Q1 x Hx) as (_ & _ & <-). auto.
      + apply IH.
        * apply Permutation_length in HP. cbn in HP. lia.
        * constructor.
          -- intros x Hx. apply Q1. apply (Permutation_in _ (Permutation_sym HP)). right; auto.
          -- intros a v Ha Hk Hv Hav. destruct (Q2 a v Ha Hk Hv Hav) as (x & Hx & E). exists x. split; auto.
             apply (Permutation_in _ HP) in Hx. destruct Hx as [<-|Hx]; auto. destruct E as [_ E]. unfold mem in Hv. congruence.
  Qed.

  (** Adding the cheapest edge out of the current tree. *)
  Lemma attach T C rem : tree rem T C -> forall s v0, In s C -> mem v0 rem -> edge m s v0 ->
    (forall a v, In a C -> mem v rem -> edge m a v -> (w s v0 <= w a v)%Z) ->
    forall a v, In a C -> mem v rem -> edge m a v -> Forest.J (upto (w a v) ((s, v0) :: T)) a v0.
  Proof.
    intros [T1 T2 T3] s v0 HsC Hv0 He Hmin a v Ha Hv Hav. specialize (Hmin a v Ha Hv Hav).
    assert (Has : Forest.J (upto (w a v) T) a s).
    { destruct (in_split a C Ha) as (C1 & C2 & EC). rewrite EC in HsC. apply in_app_iff in HsC. destruct HsC as [HsC|[<-|HsC]].
      - eapply T2; eauto.
      - apply Forest.J_refl.
      - destruct (in_split s C2 HsC) as (D1 & D2 & ED). apply Forest.J_sym. apply (J_upto_mono (w s v0)); auto.
        apply (T2 (C1 ++ a :: D1) s D2 a v0); auto; [rewrite EC, ED, <- app_assoc; reflexivity|]. apply in_app_iff. right; left; auto. }
    eapply Forest.J_trans; [apply J_upto_cons; exact Has|]. rewrite upto_cons by (unfold wt; cbn; auto). apply Forest.J_in. left; auto.
  Qed.

  Lemma clear_bit rem x rem' : W64 rem -> x < 64 -> sbs_set rem x false = Some rem' -> W64 rem' /\ forall y, mem y rem' <-> mem y rem /\ y <> x.
  Proof.
    intros HW Hx E. destruct (set_spec rem x false HW Hx) as (r & E' & HW' & Hb). rewrite E in E'. injection E' as <-. split; auto.
    intros y. unfold mem. rewrite Hb. destruct (N.eqb_spec y x); intuition congruence.
  Qed.

  Lemma step_inv rem MSF T C s v0 rem' : base rem MSF T -> tree rem T C -> In s C -> mem v0 rem -> edge m s v0 ->
    (forall a v, In a C -> mem v rem -> edge m a v -> (w s v0 <= w a v)%Z) ->
    W64 rem' -> (forall y, mem y rem' <-> mem y rem /\ y <> v0) ->
    base rem' (mset (mset MSF v0 s true) s v0 true) ((s, v0) :: T) /\ tree rem' ((s, v0) :: T) (v0 :: C).
  Proof.
    intros B Tr HsC Hv0 He Hmin HW' Hr'. pose proof n_le as Hn.
    destruct B as [B1 B2 B3 B4 B5 B6 B7]. pose proof Tr as [T1 T2 T3].
    assert (Hs' : ~ mem s rem) by auto. assert (Hsv : s <> v0) by (intros ->; auto).
    assert (Hsn : s < n) by (apply Hg in He; lia). assert (Hvn : v0 < n) by auto.
    assert (Hnr : forall a, ~ mem a rem' <-> ~ mem a rem \/ a = v0).
    { intros a. rewrite Hr'. split; [|tauto]. intros H. destruct (mem_dec a rem); [|auto]. destruct (N.eq_dec a v0); tauto. }
    assert (Hatt := attach T C rem Tr s v0 HsC Hv0 He Hmin).
    assert (Hiso : forall x, Forest.J T x v0 -> x = v0).
    { intros x Hx. apply Forest.J_sym in Hx. apply clos_rst_rst1n in Hx. destruct Hx as [|y z Hyz _]; auto.
      exfalso. destruct Hyz as [Hyz|Hyz]; apply B3 in Hyz; tauto. }
    split.
    - constructor.
      + intros x Hx. apply Hr' in Hx. apply B1; tauto.
      + auto.
      + intros a b [E|Hab]; [injection E as <- <-|].
        * split; [auto|]. split; [auto|]. split; [apply Hnr; auto|]. split; [apply Hnr; auto|]. auto.
        * destruct (B3 a b Hab) as (H1 & H2 & H3 & H4 & H5 & H6). split; [auto|]. split; [auto|]. split; [apply Hnr; auto|]. split; [apply Hnr; auto|]. auto.
      + intros A x y B E. cbn [app]. destruct A as [|e A]; cbn in E; injection E as E1 E2.
        * subst x y B. cbn. intros X. apply Hsv, Hiso; auto.
        * subst e. intros Hj. cbn [app] in Hj. apply Forest.J_cons in Hj.
          assert (Hi : incl (A ++ B) T) by (rewrite E2; apply Forest.incl_mid).
          assert (HxyT : In (x, y) T) by (rewrite E2; apply in_app_iff; right; left; auto).
          destruct (B3 x y HxyT) as (_ & _ & Hx & Hy & _ & _).
          destruct Hj as [Hj|[[H1 H2]|[H1 H2]]].
          -- apply (B4 A x y B E2). exact Hj.
          -- apply Forest.J_sym in H2. apply (Forest.J_incl _ T) in H2; auto. apply Hiso in H2. subst y. auto.
          -- apply (Forest.J_incl _ T) in H1; auto. apply Hiso in H1. subst x. auto.
      + intros a b Hab Ha Hb. apply Hnr in Ha. apply Hnr in Hb.
        assert (Hone : forall a, ~ mem a rem -> edge m a v0 -> Forest.J (upto (w a v0) ((s, v0) :: T)) a v0).
        { intros c Hc Hcv. destruct (in_dec N.eq_dec c C) as [Hin|Hout]; [apply Hatt; auto|]. elim (T3 c v0 Hc Hout Hv0 Hcv). }
        destruct Ha as [Ha| ->], Hb as [Hb| ->].
        * apply J_upto_cons, B5; auto.
        * apply Hone; auto.
        * rewrite Hw. apply Forest.J_sym. apply Hone; [auto|]. apply Hs, Hab.
        * apply Forest.J_refl.
      + intros a b. unfold edge. rewrite mset_mem by (try apply mset_W64; auto; lia).
        destruct (N.eqb_spec a s) as [->|Hne]; cbn [andb].
        * destruct (N.eqb_spec b v0) as [->|Hnb]; [split; [intros _; left; left; auto|auto]|].
          rewrite mset_mem by (auto; lia). destruct (N.eqb_spec s v0); [tauto|]. cbn [andb].
          fold (edge MSF s b). rewrite B6. cbn. split; [tauto|]. intros [[E|H]|[E|H]]; try tauto; injection E; congruence.
        * rewrite mset_mem by (auto; lia). destruct (N.eqb_spec a v0) as [->|Hna]; cbn [andb].
          -- destruct (N.eqb_spec b s) as [->|Hnb]; [split; [intros _; right; left; auto|auto]|].
             fold (edge MSF v0 b). rewrite B6. cbn. split; [tauto|]. intros [[E|H]|[E|H]]; try tauto; injection E; congruence.
          -- fold (edge MSF a b). rewrite B6. cbn. split; [tauto|]. intros [[E|H]|[E|H]]; try tauto; injection E; congruence.
      + intros a. apply mset_W64; [|lia]. intros x. apply mset_W64; [auto|lia].
    - constructor.
      + intros x [<-|Hx]; apply Hnr; auto.
      + intros C1 a C2 b v EC Hb Hv Hav. apply Hr' in Hv. destruct Hv as [Hv Hne].
        destruct C1 as [|c C1]; [destruct Hb|]. cbn in EC. injection EC as <- EC.
        assert (Ha : In a C) by (rewrite EC; apply in_app_iff; right; left; auto).
        destruct Hb as [<-|Hb]; [apply Hatt; auto|]. apply J_upto_cons. eapply T2; eauto.
      + intros a v Ha Hac Hv Hav. apply Hr' in Hv. destruct Hv as [Hv Hne]. apply Hnr in Ha. destruct Ha as [Ha| ->]; [|apply Hac; left; auto].
        apply (T3 a v Ha); auto. intros X; apply Hac; right; auto.
  Qed.

  Lemma popcount_clear rem rem' x : W64 rem -> (forall y, mem y rem' <-> mem y rem /\ y <> x) -> mem x rem -> popcount rem' < popcount rem.
  Proof.
    intros HW H Hx. apply (popcount_strict rem' rem x); auto; [apply mem_Sub; intros i Hi; apply H in Hi; tauto|].
    intros X. apply H in X. tauto.
  Qed.

  Lemma prim_spec : forall fuel rem Q MSF T C u, (N.to_nat (popcount rem) < fuel)%nat -> u < n -> In u C -> base rem MSF T -> tree rem T C -> queue rem C (fun a => a <> u) Q ->
    exists rem' MSF' T', prim push pop m w fuel (2 ^ u) rem Q MSF = Some (rem', MSF') /\ base rem' MSF' T' /\
      popcount rem' <= popcount rem /\ (forall a v, ~ mem a rem' -> mem v rem' -> ~ edge m a v).
  Proof.
    induction fuel as [|f IH]; intros rem Q MSF T C u Hf Hu HC B Tr Qu; [lia|]. pose proof n_le as Hn. cbn [prim].
    assert (Hne : 2 ^ u <> 0) by (apply N.pow_nonzero; lia).
    assert (Hemp : sbs_empty (2 ^ u) = false) by (unfold sbs_empty; apply N.eqb_neq; auto). rewrite Hemp.
    assert (Hd : it_deref (2 ^ u) = Some u).
    { unfold it_deref. destruct (N.eqb_spec (2 ^ u) 0); [congruence|]. f_equal.
      assert (Hc := testbit_ctz (2 ^ u) Hne). assert (X : mem (ctz (2 ^ u)) (2 ^ u)) by exact Hc. apply mem_pow2 in X. auto. }
    rewrite Hd. assert (Qe := explore_queue rem C Q u (b_W _ _ _ B) Hu HC (t_C _ _ _ Tr u HC) Qu).
    set (Q1 := explore push m w (2 ^ u) rem u Q) in *.
    pose proof (search_spec rem C (b_rem _ _ _ B) (S (length Q1)) Q1 ltac:(lia) Qe) as Sp.
    destruct (search pop (S (length Q1)) rem Q1) as [[[e Q']|]|]; [| |contradiction].
    - destruct Sp as (Qs & Hv0 & Hmin). destruct (q_sound _ _ _ _ Qs e (or_introl eq_refl)) as (HsC & He & Hwe).
      assert (Hvn : sink e < n) by (apply (b_rem _ _ _ B); auto).
      destruct (set_spec rem (sink e) false (b_W _ _ _ B) ltac:(lia)) as (rem' & Er & HW' & _). rewrite Er.
      destruct (clear_bit rem (sink e) rem' (b_W _ _ _ B) ltac:(lia) Er) as [_ Hr'].
      assert (Es : sbs_Singleton (sink e) = Some (2 ^ sink e)).
      { unfold sbs_Singleton, CAPACITY. destruct (N.ltb_spec (sink e) 64); [|lia]. rewrite W64_shl1 by lia. reflexivity. }
      rewrite Es. assert (Hmin' : forall a v, In a C -> mem v rem -> edge m a v -> (w (source e) (sink e) <= w a v)%Z) by (intros; rewrite <- Hwe; auto).
      destruct (step_inv rem MSF T C (source e) (sink e) rem' B Tr HsC Hv0 He Hmin' HW' Hr') as [B' Tr'].
      pose proof (popcount_clear rem rem' (sink e) (b_W _ _ _ B) Hr' Hv0) as Hpc.
      destruct (IH rem' Q' _ _ (sink e :: C) (sink e) ltac:(lia) Hvn (or_introl eq_refl) B' Tr') as (r & M & T' & E & P1 & P2 & P3).
      + constructor.
        * intros x Hx. destruct (q_sound _ _ _ _ Qs x (or_intror Hx)) as (X1 & X2). split; [right; auto|auto].
        * intros a v [Ha|Ha] Hk Hv Hav; [congruence|]. apply Hr' in Hv. destruct Hv as [Hv Hnv].
          destruct (q_complete _ _ _ _ Qs a v Ha I Hv Hav) as (x & Hx & <- & <-). exists x. split; [|auto]. destruct Hx as [<-|]; [congruence|auto].
      + exists r, M, T'. split; [exact E|]. split; [auto|]. split; [lia|]. auto.
    - exists rem, MSF, T. split; [reflexivity|]. split; [auto|]. split; [lia|]. intros a v Ha Hv Hav.
      destruct (in_dec N.eq_dec a C) as [Hin|Hout]; [eapply Sp; eauto|]. eapply (t_closed _ _ _ Tr); eauto.
  Qed.

  Lemma forest_spec : forall fuel rem MSF T, (N.to_nat (popcount rem) < fuel)%nat -> popcount rem < 66 -> base rem MSF T ->
    (forall a v, ~ mem a rem -> mem v rem -> ~ edge m a v) ->
    exists MSF' T', forest push pop m w fuel rem MSF = Some MSF' /\ base 0 MSF' T'.
  Proof.
    induction fuel as [|f IH]; intros rem MSF T Hf H66 B Hcl; [lia|]. cbn [forest].
    destruct (sbs_empty rem) eqn:Ee.
    - unfold sbs_empty in Ee. apply N.eqb_eq in Ee. subst rem. eauto.
    - unfold sbs_empty in Ee. apply N.eqb_neq in Ee. destruct (as_set_inhabited rem (b_W _ _ _ B) Ee) as [-> Hu]. set (u := ctz rem) in *.
      assert (Hun : u < n) by (apply (b_rem _ _ _ B); auto). pose proof n_le as Hn.
      set (rem1 := sbs_diff rem (2 ^ u)). assert (HW1 : W64 rem1) by (apply W64_diff, B).
      assert (Hr1 : forall y, mem y rem1 <-> mem y rem /\ y <> u).
      { intros y. unfold rem1. rewrite mem_diff by (try apply B; apply pow_W64; lia). rewrite mem_pow2. tauto. }
      pose proof (popcount_clear rem rem1 u (b_W _ _ _ B) Hr1 Hu) as Hpc.
      assert (B' : base rem1 MSF T).
      { destruct B as [B1 B2 B3 B4 B5 B6 B7]. constructor; auto.
        - intros x Hx. apply Hr1 in Hx. apply B1; tauto.
        - intros a b Hab. destruct (B3 a b Hab) as (? & ? & ? & ? & ? & ?). rewrite !Hr1. tauto.
        - intros a b Hab Ha Hb. rewrite Hr1 in Ha, Hb.
          destruct (N.eq_dec a u) as [->|Hna]; [destruct (N.eq_dec b u) as [->|Hnb]; [apply Forest.J_refl|]|].
          + exfalso. apply (Hcl b u); [tauto|exact Hu|apply Hs, Hab].
          + destruct (N.eq_dec b u) as [->|Hnb]; [exfalso; apply (Hcl a u); auto; intros X; apply Ha; auto|].
            apply B5; [auto|intros X; apply Ha; auto|intros X; apply Hb; auto]. }
      assert (Tr : tree rem1 T [u]).
      { constructor.
        - intros x [<-|[]]. rewrite Hr1. tauto.
        - intros C1 a C2 b v EC Hb. destruct C1 as [|c [|]]; [destruct Hb|discriminate|discriminate].
        - intros a v Ha Hac Hv Hav. rewrite Hr1 in Ha, Hv. apply (Hcl a v); try tauto. intros X. apply Ha. split; auto. intros ->. apply Hac; left; auto. }
      destruct (prim_spec 66 rem1 [] MSF T [u] u ltac:(lia) Hun (or_introl eq_refl) B' Tr) as (r & M & T' & -> & P1 & P2 & P3).
      { constructor; [intros e []|]. intros a v [<-|[]] H; congruence. }
      apply (IH r M T'); auto; lia.
  Qed.
End Inv.

Lemma linked_rev (R R' : N -> N -> Prop) : (forall x y, R x y -> R' y x) -> forall x y, linked R x y -> linked R' y x.
Proof. intros H x y L. induction L as [x y Hs|x|x y z _ I1 _ I2]; [apply rt_step; auto|apply rt_refl|eapply rt_trans; eauto]. Qed.

Lemma acyc_edges n m F : spanning_forest n m F -> Forest.acyc [] (edges n F).
Proof.
  intros SF A x y B E Hj. cbn [app] in Hj.
  assert (Hin : In (x, y) (edges n F)) by (rewrite E; apply in_app_iff; right; left; auto).
  apply in_edges in Hin. destruct Hin as (Hlt & _ & Hxy). apply (sf_acyclic _ _ _ SF x y Hxy).
  eapply J_linked; [| |exact Hj].
  - intros a b (H1 & H2 & H3). split; [apply (sf_symmetric _ _ _ SF); auto|]. tauto.
  - intros a b Hab.
    assert (Hab' : In (a, b) (edges n F)) by (rewrite E; apply Forest.incl_mid; auto).
    apply in_edges in Hab'. destruct Hab' as (Hlt' & _ & He). split; [auto|]. split.
    + intros [-> ->]. pose proof (edges_nodup n F) as D. rewrite E in D. apply NoDup_remove_2 in D. auto.
    + intros [-> ->]. lia.
Qed.

Lemma linked_edges n F : graph n F -> symmetric F -> forall x y, edge F x y -> Forest.J (edges n F) x y.
Proof.
  intros [_ HG] HS x y He. destruct (N.lt_trichotomy x y) as [H|[->|H]].
  - apply Forest.J_in, in_edges. split; [auto|]. split; [|auto]. apply HG in He. tauto.
  - apply Forest.J_refl.
  - apply Forest.J_sym, Forest.J_in, in_edges. split; [auto|]. split; [apply HG in He; tauto|]. apply HS; auto.
Qed.

(** Prim's algorithm on every undirected graph of up to 64 vertices, with symmetric weights and any priority queue: it
    terminates without assertion failure with a spanning forest of least total weight. *)
Theorem C13_minimum_spanning_forest : forall push pop n m w,
  priority_queue push pop -> graph n m -> symmetric m -> (forall i j, w i j = w j i) ->
  exists F, minimum_spanning_forest push pop m w n = Some F /\ spanning_forest n m F /\
    forall F', spanning_forest n m F' -> (total w n F <= total w n F')%Z.
Proof.
  intros push pop n m w HQ Hg Hs Hw.
  assert (R : exists F T, minimum_spanning_forest push pop m w n = Some F /\ base n m w 0 F T).
  { unfold minimum_spanning_forest. destruct (N.eqb_spec n 0) as [->|Hn0].
    - exists (fun _ => 0), []. split; [reflexivity|]. constructor.
      + intros x H. elim (mem_0 x H). + reflexivity. + intros a b [].
      + intros A x y B E. destruct A; discriminate.
      + intros a b H. apply Hg in H. lia.
      + intros a b. split; [intros H; elim (mem_0 b H)|intros [[]|[]]].
      + intros; reflexivity.
    - destruct Hg as [Hn Hg']. destruct (All_spec n Hn) as (all & -> & HW & Hall).
      assert (Hm : forall x, mem x all <-> x < n) by (intros x; unfold mem; rewrite Hall; apply N.ltb_lt).
      assert (Hp : popcount all < 66).
      { apply (N.le_lt_trans _ (popcount (N.ones 64))); [|rewrite popcount_ones; lia]. apply popcount_mono; [reflexivity|]. apply mem_Sub.
        intros i Hi. unfold mem. apply Hm in Hi. apply N.ones_spec_low. lia. }
      destruct (forest_spec push pop n m w HQ (conj Hn Hg') Hs Hw 66 all (fun _ => 0) []) as (F & T & -> & B); [lia|auto| | |exists F, T; auto].
      + constructor; auto.
        * intros x Hx. apply Hm; auto.
        * intros a b [].
        * intros A x y B E. destruct A; discriminate.
        * intros a b Hab Ha. elim Ha. apply Hm. apply Hg' in Hab. tauto.
        * intros a b. split; [intros H; elim (mem_0 b H)|intros [[]|[]]].
        * intros; reflexivity.
      + intros a v Ha Hv Hav. apply Ha, Hm. apply Hg' in Hav. tauto. }
  destruct R as (F & T & E & B). exists F. split; [exact E|]. destruct B as [_ _ B3 B4 B5 B6 B7].
  assert (B5' : forall a b, edge m a b -> Forest.J (upto w (w a b) T) a b) by (intros; apply B5; auto; apply mem_0).
  assert (HF : symmetric F) by (intros i j H; apply B6; apply B6 in H; tauto).
  assert (HFm : forall i j, edge F i j -> edge m i j).
  { intros i j H. apply B6 in H. destruct H as [H|H]; apply B3 in H; [tauto|]. apply Hs; tauto. }
  assert (SF : spanning_forest n m F).
  { constructor; auto.
    - split; [apply Hg|]. intros i j H. apply Hg, HFm; auto.
    - intros i j H. induction H as [x y H|x|x y z _ I1 _ I2]; [|apply rt_refl|eapply rt_trans; eauto].
      apply (J_linked (edge F) (upto w (w x y) T)); auto. intros a b Hab. apply filter_In in Hab. apply B6. tauto.
    - intros i j Hij Hl. apply B6 in Hij.
      assert (G : forall a b, In (a, b) T -> ~ linked (fun x y => edge F x y /\ ~ (x = a /\ y = b) /\ ~ (x = b /\ y = a)) a b).
      { intros a b Hab L. destruct (in_split _ _ Hab) as (A & B & ET). apply (B4 A a b B ET). cbn [app].
        eapply linked_J; [|exact L]. intros x y (He & N1 & N2). apply B6 in He.
        assert (Hin : forall p q, In (p, q) T -> ~ (p = a /\ q = b) -> In (p, q) (A ++ B)).
        { intros p q Hpq Hne. rewrite ET in Hpq. apply in_app_iff in Hpq. apply in_app_iff. destruct Hpq as [X|[X|X]]; [left; exact X| |right; exact X]. elim Hne. split; congruence. }
        destruct He as [He|He]; [apply Forest.J_in, Hin; [exact He|exact N1]|apply Forest.J_sym, Forest.J_in, Hin; [exact He|tauto]]. }
      destruct Hij as [H|H]; [apply (G i j H Hl)|]. apply (G j i H).
      assert (Hsy : forall x y, (edge F x y /\ ~ (x = i /\ y = j) /\ ~ (x = j /\ y = i)) -> edge F y x /\ ~ (y = j /\ x = i) /\ ~ (y = i /\ x = j)).
      { intros x y (H1 & H2 & H3). split; [apply HF; auto|]. tauto. }
      revert Hl. apply linked_rev, Hsy. }
  split; [exact SF|]. intros F' SF'. rewrite !total_sum. apply (Forest.exchange (wt w) _ []).
  - apply (acyc_edges n m); auto.
  - apply (acyc_edges n m); auto.
  - intros x y Hxy. cbn [app]. apply in_edges in Hxy. destruct Hxy as (_ & _ & Hxy).
    apply (linked_J (edge F')); [apply linked_edges; [apply SF'|apply SF']|]. apply (sf_connects _ _ _ SF'). apply rt_step; auto.
  - intros x y Hxy. cbn [app]. apply in_edges in Hxy. destruct Hxy as (_ & _ & Hxy). apply (sf_subgraph _ _ _ SF') in Hxy.
    specialize (B5' x y Hxy). eapply Forest.J_sub; [|exact B5']. intros a b Hab. apply filter_In in Hab. destruct Hab as [Hab Hle].
    assert (Hn : a < n /\ b < n) by (apply B3 in Hab; tauto). assert (Hne : a <> b) by (apply B3 in Hab; tauto).
    destruct (N.lt_ge_cases a b) as [Hlt|Hge].
    + apply Forest.J_in, filter_In. split; [|exact Hle]. apply in_edges. split; [auto|]. split; [tauto|]. apply B6; auto.
    + apply Forest.J_sym, Forest.J_in, filter_In. split; [apply in_edges; split; [lia|]; split; [tauto|]; apply B6; auto|].
      unfold wt in *. cbn [fst snd] in *. rewrite (Hw b a). exact Hle.
Qed.

(** The priority queue of the model is one. *)
Lemma pop_min_spec Q : match pop_min Q with None => Q = [] | Some (e, Q') => Permutation Q (e :: Q') /\ forall x, In x Q -> (weight e <= weight x)%Z end.
Proof.
  induction Q as [|a r IH]; cbn; auto. destruct (pop_min r) as [[x r']|].
  - destruct IH as [P M]. destruct (Z.ltb_spec (weight x) (weight a)).
    + split; [rewrite P; constructor|]. intros y [<-|Hy]; [lia|auto].
    + split; [auto|]. intros y [<-|Hy]; [lia|]. specialize (M y Hy). lia.
  - subst r. split; [auto|]. intros x [<-|[]]. lia.
Qed.
Example queue_exists : priority_queue push_list pop_min.
Proof.
  split; [|split; [reflexivity|]].
  - intros e Q. unfold push_list. rewrite Permutation_app_comm. reflexivity.
  - intros Q HQ. pose proof (pop_min_spec Q) as H. destruct (pop_min Q) as [[e Q']|]; [eauto|congruence].
Qed.

(** Two components, {0,1,2,3} with the cycle 0-1-2-3-0 and the chord 0-2, and {4}. *)
Definition ex_m : N -> N := fun i => match i with 0 => 14 | 1 => 5 | 2 => 11 | 3 => 5 | _ => 0 end.
Definition ex_w : N -> N -> Z := fun i j => match N.min i j, N.max i j with 0, 1 => 5%Z | 1, 2 => 1%Z | 2, 3 => 2%Z | 0, 3 => 4%Z | 0, 2 => 3%Z | _, _ => 9%Z end.
Example ex_msf : exists F, minimum_spanning_forest push_list pop_min ex_m ex_w 5 = Some F /\ edges 5 F = [(0, 2); (1, 2); (2, 3)] /\ total ex_w 5 F = 6%Z.
Proof. eexists. split; [vm_compute; reflexivity|]. vm_compute. auto. Qed.
Example ex_hyps : graph 5 ex_m /\ symmetric ex_m /\ forall i j, ex_w i j = ex_w j i.
Proof.
  assert (D : forall i j, edge ex_m i j -> In (i, j) [(0,1);(0,2);(0,3);(1,0);(1,2);(2,0);(2,1);(2,3);(3,0);(3,2)]).
  { assert (Hbit : forall x j, x < 16 -> N.testbit x j = true -> j < 4).
    { intros x j Hx Hj. destruct (N.lt_ge_cases j 4); auto. rewrite N.bits_above_log2 in Hj; [discriminate|].
      destruct (N.eq_dec x 0) as [->|]; [cbn; lia|]. apply N.log2_lt_pow2; [lia|]. apply (N.lt_le_trans _ _ _ Hx). change 16 with (2 ^ 4). apply N.pow_le_mono_r; lia. }
    intros i j H. unfold edge, mem in H.
    assert (Hi : ex_m i < 16) by (unfold ex_m; destruct i as [|[[|[]|]|[|[]|]|]]; reflexivity).
    pose proof (Hbit _ _ Hi H) as Hj. assert (Hi4 : i < 4).
    { destruct (N.lt_ge_cases i 4); auto. exfalso. assert (E : ex_m i = 0) by (unfold ex_m; destruct i as [|[[|[]|]|[|[]|]|]]; reflexivity || lia). rewrite E in H. rewrite N.bits_0 in H. discriminate. }
    assert (Ci : i = 0 \/ i = 1 \/ i = 2 \/ i = 3) by lia. assert (Cj : j = 0 \/ j = 1 \/ j = 2 \/ j = 3) by lia.
    destruct Ci as [->|[->|[->| ->]]], Cj as [->|[->|[->| ->]]]; cbn in H; try discriminate; cbn; tauto. }
  split; [|split].
  - split; [lia|]. intros i j H. apply D in H. cbn in H. repeat (destruct H as [H|H]; [injection H as <- <-; lia|]). destruct H.
  - intros i j H. apply D in H. cbn in H. repeat (destruct H as [H|H]; [injection H as <- <-; reflexivity|]). destruct H.
  - intros i j. unfold ex_w. rewrite N.min_comm, N.max_comm. reflexivity.
Qed.

(** ** Directed trees *)

(** [steps m r d x]: a walk of [d] edges from [r] to [x]; [dist m r x d]: the shortest has [d] edges. *)
Inductive steps (m : N -> N) (r : N) : nat -> N -> Prop :=
  | steps_0 : steps m r 0 r
  | steps_S d x y : steps m r d x -> edge m x y -> steps m r (S d) y.
Definition dist (m : N -> N) (r x : N) (d : nat) : Prop := steps m r d x /\ forall d', (d' < d)%nat -> ~ steps m r d' x.

Section Directed.
  Context (n : N) (m : N -> N) (r : N) (Hg : graph n m) (Hr : r < n).

  Lemma steps_lt d x : steps m r d x -> x < n.
  Proof. destruct 1 as [|d x y _ H]; auto. apply Hg in H. tauto. Qed.

  Lemma steps_dec d : forall x, {steps m r d x} + {~ steps m r d x}.
  Proof.
    induction d as [|d IH]; intros x.
    - destruct (N.eq_dec x r) as [->|H]; [left; constructor|right; intros X; inversion X; auto].
    - destruct (Exists_dec (fun y => steps m r d y /\ edge m y x) (vertices n)) as [H|H].
      + intros y. destruct (IH y); [|right; tauto]. destruct (mem_dec x (m y)); [left; split; auto|right; unfold edge; tauto].
      + left. apply Exists_exists in H. destruct H as (y & _ & H1 & H2). econstructor; eauto.
      + right. intros X. inversion X as [|d' y x' H1 H2]; subst. apply H. apply Exists_exists. exists y. split; [|auto]. apply in_vertices. eapply steps_lt; eauto.
  Qed.

  Lemma steps_dist d x : steps m r d x -> exists d', (d' <= d)%nat /\ dist m r x d'.
  Proof.
    revert x. induction d as [d IH] using lt_wf_ind. intros x H.
    assert (G : forall k, (k <= d)%nat -> (exists d', (d' < k)%nat /\ steps m r d' x) \/ forall d', (d' < k)%nat -> ~ steps m r d' x).
    { induction k as [|k IHk]; intros Hk; [right; lia|]. destruct (IHk ltac:(lia)) as [(d' & H1 & H2)|H1]; [left; exists d'; split; [lia|auto]|].
      destruct (steps_dec k x) as [H2|H2]; [left; exists k; split; [lia|auto]|]. right. intros d' Hd'.
      destruct (Nat.eq_dec d' k) as [->|]; auto. apply H1. lia. }
    destruct (G d ltac:(lia)) as [(d' & H1 & H2)|H1].
    - destruct (IH d' H1 x H2) as (e & He & D). exists e. split; [lia|auto].
    - exists d. split; [lia|]. split; auto.
  Qed.

  Lemma dist_unique x d d' : dist m r x d -> dist m r x d' -> d = d'.
  Proof using m r. clear Hr Hg n.
    intros [H1 H2] [H3 H4]. destruct (lt_eq_lt_dec d d') as [[H|H]|H]; auto; [elim (H4 d H); auto|elim (H2 d' H); auto].
  Qed.

  Lemma dist_pred x d : dist m r x (S d) -> exists y, dist m r y d /\ edge m y x.
  Proof using m r. clear Hr Hg n.
    intros [H1 H2]. inversion H1 as [|d' y x' Hy He]; subst. exists y. split; [|auto]. split; auto.
    intros d' Hd' Hs. apply (H2 (S d') ltac:(lia)). econstructor; eauto.
  Qed.

  Lemma dist_step x y d : dist m r x d -> edge m x y -> exists d', (d' <= S d)%nat /\ dist m r y d'.
  Proof. intros [H1 _] He. apply (steps_dist (S d) y). econstructor; eauto. Qed.

  Lemma assign_rows_spec V X T k : W64 V -> assign_rows m V X T k = if N.testbit V k then sbs_diff (m k) X else T k.
  Proof.
    intros HV. unfold assign_rows.
    assert (G : forall l T k, fold_left (fun T v k => if k =? v then sbs_diff (m v) X else T k) l T k = if existsb (N.eqb k) l then sbs_diff (m k) X else T k).
    { clear. induction l as [|v l IH]; intros T k; cbn; auto. rewrite IH. destruct (N.eqb_spec k v) as [->|]; cbn; destruct (existsb _ l); auto. }
    rewrite G. assert (E : existsb (N.eqb k) (sbs_list V) = N.testbit V k); [|rewrite E; reflexivity].
    destruct (N.testbit V k) eqn:Ek.
    - apply existsb_exists. exists k. split; [|apply N.eqb_refl]. apply in_sbs_list; auto.
    - destruct (existsb (N.eqb k) (sbs_list V)) eqn:Ex; auto. apply existsb_exists in Ex. destruct Ex as (x & Hx & E). apply N.eqb_eq in E. subst x.
      apply in_sbs_list in Hx; auto. unfold mem in Hx. congruence.
  Qed.

  Definition oriented (k : nat) (a b : N) : Prop := edge m a b /\ exists d, (d < k)%nat /\ dist m r a d /\ dist m r b (S d).

  Lemma directed_spec : forall fuel d V X T, (64 - N.to_nat (popcount X) < fuel)%nat ->
    W64 V -> W64 X -> (forall x, W64 (T x)) ->
    (forall x, mem x V <-> dist m r x d) -> (forall x, mem x X <-> exists d', (d' < d)%nat /\ dist m r x d') ->
    (forall a b, edge T a b <-> oriented d a b) ->
    exists T', directed_loop m fuel V X T = Some T' /\ (forall a b, edge T' a b <-> edge m a b /\ exists d, dist m r a d /\ dist m r b (S d)).
  Proof.
    induction fuel as [|f IH]; intros d V X T Hf HV HX HT IV IX IT; [lia|]. cbn [directed_loop].
    destruct (sbs_empty V) eqn:Ee.
    - exists T. split; [reflexivity|]. intros a b. rewrite IT. unfold oriented. split; [intros (H & e & _ & H1); eauto|].
      intros (H & e & H1 & H2). split; [auto|]. exists e. split; [|auto].
      destruct (Nat.lt_ge_cases e d) as [|Hge]; auto. exfalso.
      assert (Hd : forall k x, dist m r x (d + k) -> False).
      { induction k as [|k IHk]; intros x Hx.
        - rewrite Nat.add_0_r in Hx. apply IV in Hx. apply empty_mem with (i := x) in Ee. auto.
        - rewrite Nat.add_succ_r in Hx. apply dist_pred in Hx. destruct Hx as (y & Hy & _). eapply IHk; eauto. }
      apply (Hd (e - d)%nat a). replace (d + (e - d))%nat with e by lia. auto.
    - apply empty_false_mem in Ee. destruct Ee as (x0 & Hx0).
      set (X' := sbs_union X V). assert (HX' : W64 X') by (apply W64_union; auto).
      assert (IX' : forall x, mem x X' <-> exists d', (d' < S d)%nat /\ dist m r x d').
      { intros x. unfold X'. rewrite mem_union, IX, IV. split.
        - intros [(d' & H1 & H2)|H]; [exists d'|exists d]; split; auto; lia.
        - intros (d' & H1 & H2). destruct (Nat.eq_dec d' d) as [->|]; [auto|left; exists d'; split; [lia|auto]]. }
      set (T' := assign_rows m V X' T).
      assert (HT' : forall x, W64 (T' x)). { intros x. unfold T'. rewrite assign_rows_spec by auto. destruct (N.testbit V x); auto. apply W64_diff, (graph_W64 n m Hg). }
      assert (Hfar : forall a b, dist m r a d -> edge m a b -> (~ mem b X' <-> dist m r b (S d))).
      { intros a b Ha He. rewrite IX'. split.
        - intros H. destruct (dist_step a b d Ha He) as (d' & H1 & H2). destruct (Nat.eq_dec d' (S d)) as [->|]; auto. elim H. exists d'. split; [lia|auto].
        - intros H (d' & H1 & H2). pose proof (dist_unique b _ _ H H2). lia. }
      assert (IT' : forall a b, edge T' a b <-> oriented (S d) a b).
      { intros a b. unfold edge, T'. rewrite assign_rows_spec by auto. destruct (N.testbit V a) eqn:Ea.
        - assert (Ha : dist m r a d) by (apply IV; exact Ea). rewrite mem_diff by (auto; apply (graph_W64 n m Hg)). fold (edge m a b). split.
          + intros [H1 H2]. split; [auto|]. exists d. split; [lia|]. split; [auto|]. apply (Hfar a b); auto.
          + intros (H1 & e & _ & H2 & H3). split; [auto|]. apply (Hfar a b); auto. rewrite (dist_unique a _ _ Ha H2). auto.
        - fold (edge T a b). rewrite IT. unfold oriented. split; intros (H1 & e & H2 & H3 & H4); (split; [auto|]); exists e; (split; [|auto]); [lia|].
          destruct (Nat.eq_dec e d) as [->|]; [|lia]. apply IV in H3. unfold mem in H3. congruence. }
      apply (IH (S d)); auto.
      + assert (Hlt : popcount X < popcount X').
        { apply (popcount_strict X X' x0); auto.
          - apply mem_Sub. intros i Hi. unfold X'. apply mem_union; auto.
          - unfold X'. apply mem_union; auto.
          - intros Hx. apply IX in Hx. destruct Hx as (d' & H1 & H2). apply IV in Hx0. pose proof (dist_unique x0 _ _ Hx0 H2). lia. }
        assert (H64 : popcount X' <= 64).
        { apply (N.le_trans _ (popcount (N.ones 64))); [|rewrite popcount_ones; lia]. apply popcount_mono; [reflexivity|]. apply mem_Sub.
          intros i Hi. unfold mem. apply N.ones_spec_low. apply (mem_lt64 i X'); auto. }
        lia.
      + apply W64_diff, W64_union_over; auto; reflexivity.
      + intros b. assert (HgT : graph n T').
        { split; [apply Hg|]. intros i j H. apply IT' in H. destruct H as [H _]. apply Hg; auto. }
        rewrite (neighbors_spec n T' V b HgT HV). split.
        * intros [H1 (a & Ha & He)]. apply IV in Ha. apply IT' in He. destruct He as (He & e & _ & H3 & H4). rewrite (dist_unique a _ _ Ha H3). auto.
        * intros H. split; [intros Hb; apply IV in Hb; pose proof (dist_unique b _ _ H Hb); lia|].
          destruct (dist_pred b d H) as (a & Ha & He). exists a. split; [apply IV; auto|]. apply IT'. split; [auto|]. exists d. split; [lia|auto].
  Qed.
End Directed.

Lemma dist_0 m r x : dist m r x 0 <-> x = r.
Proof.
  split; [intros [H _]; inversion H; auto|]. intros ->. split; [constructor|]. intros; lia.
Qed.

(** In every graph, the result has exactly the edges that lead one step further away from the root. *)
Theorem C13_directed_away : forall n m r, graph n m -> r < n ->
  exists T, tree_directed_away_from m (2 ^ r) = Some T /\
    forall a b, edge T a b <-> edge m a b /\ exists d, dist m r a d /\ dist m r b (S d).
Proof.
  intros n m r Hg Hr. assert (Hr64 : r < 64) by (destruct Hg; lia). unfold tree_directed_away_from.
  assert (Es : sbs_is_singleton (2 ^ r) = true).
  { unfold sbs_is_singleton, sbs_size. rewrite <- (N.mul_1_l (2 ^ r)), popcount_mul_pow2. reflexivity. }
  rewrite Es. apply (directed_spec n m r Hg Hr 66 0).
  - lia.
  - apply pow_W64; auto.
  - reflexivity.
  - intros; reflexivity.
  - intros x. rewrite mem_pow2, dist_0. reflexivity.
  - intros x. split; [intros H; elim (mem_0 x H)|intros (d' & H & _); lia].
  - intros a b. split; [intros H; elim (mem_0 b H)|intros (_ & d & H & _); lia].
Qed.

(** Undirected graphs without cycles. *)
Definition acyclic (m : N -> N) : Prop := forall i j, edge m i j ->
  ~ linked (fun x y => edge m x y /\ ~ (x = i /\ y = j) /\ ~ (x = j /\ y = i)) i j.

Lemma linked_up n m r : graph n m -> r < n -> symmetric m -> forall (R : N -> N -> Prop), (forall x y, R x y -> R y x) -> forall k,
  (forall x y d, (d < k)%nat -> edge m x y -> dist m r x d -> dist m r y (S d) -> R x y) ->
  forall x, dist m r x k -> linked R r x.
Proof.
  intros Hg Hr Hs R HR. induction k as [|k IH]; intros HL x Hx.
  - apply dist_0 in Hx. subst x. apply rt_refl.
  - destruct (dist_pred m r x k Hx) as (y & Hy & He). assert (HL' : forall x y d, (d < k)%nat -> edge m x y -> dist m r x d -> dist m r y (S d) -> R x y) by (intros a b d Hd; apply HL; lia).
    eapply rt_trans; [exact (IH HL' y Hy)|]. apply rt_step. apply (HL y x k); auto.
Qed.

(** In a tree, every edge that can be reached from the root is given exactly one direction; the root has no parent, and every
    other vertex that can be reached exactly one. *)
Theorem C13_directed_tree : forall n m r T, graph n m -> symmetric m -> acyclic m -> r < n ->
  tree_directed_away_from m (2 ^ r) = Some T ->
  (forall a b, linked (edge m) r a -> edge m a b -> (edge T a b /\ ~ edge T b a) \/ (edge T b a /\ ~ edge T a b)) /\
  (forall a, ~ edge T a r) /\
  (forall b, linked (edge m) r b -> b <> r -> exists a, edge T a b /\ forall a', edge T a' b -> a' = a) /\
  (forall b, linked (edge m) r b -> linked (edge T) r b).
Proof.
  intros n m r T Hg Hs Ha Hr HT. destruct (C13_directed_away n m r Hg Hr) as (T' & E & IT). rewrite HT in E. injection E as <-.
  assert (Hdist : forall a, linked (edge m) r a -> exists d, dist m r a d).
  { intros a H. apply clos_rt_rtn1 in H. assert (S : exists d, steps m r d a).
    { induction H as [|a b Hab _ [d IH]]; [exists 0%nat; constructor|]. exists (S d). econstructor; eauto. }
    destruct S as (d & S). destruct (steps_dist n m r Hg Hr d a S) as (d' & _ & D). eauto. }
  assert (Hne : forall a b d, edge T a b -> dist m r b d -> exists e, d = S e /\ dist m r a e).
  { intros a b d H Hb. apply IT in H. destruct H as (_ & e & H1 & H2). exists e. split; [|auto]. eapply dist_unique; eauto. }
  assert (Hlevel : forall a b d, edge m a b -> dist m r a d -> dist m r b d -> False).
  { intros a b d He H1 H2. set (R := fun x y => edge m x y /\ ~ (x = a /\ y = b) /\ ~ (x = b /\ y = a)).
    assert (HR : forall x y, R x y -> R y x) by (intros x y (X1 & X2 & X3); split; [apply Hs; auto|tauto]).
    assert (HL : forall x y e, (e < d)%nat -> edge m x y -> dist m r x e -> dist m r y (S e) -> R x y).
    { intros x y e He' Hxy Hx Hy. split; [auto|]. split; intros [-> ->]; [pose proof (dist_unique m r _ _ _ Hx H1)|pose proof (dist_unique m r _ _ _ Hx H2)]; lia. }
    apply (Ha a b He). eapply rt_trans; [apply (linked_rev R R HR r a)|]; apply (linked_up n m r Hg Hr Hs R HR d HL); auto. }
  split; [|split; [|split]].
  - intros a b Hl He. destruct (Hdist a Hl) as (d & Hd). destruct (dist_step n m r Hg Hr a b d Hd He) as (d' & Hle & Hd').
    destruct (dist_step n m r Hg Hr b a d' Hd' (Hs _ _ He)) as (d'' & Hle' & Hd''). pose proof (dist_unique m r _ _ _ Hd Hd'') as <-.
    assert (Hex : forall x y, edge T x y -> ~ edge T y x).
    { intros x y H1 H2. apply IT in H1. apply IT in H2. destruct H1 as (_ & e & X1 & X2), H2 as (_ & e' & X3 & X4).
      pose proof (dist_unique m r _ _ _ X1 X4). pose proof (dist_unique m r _ _ _ X2 X3). lia. }
    destruct (Nat.eq_dec d' (S d)) as [->|H1]; [left; assert (edge T a b) by (apply IT; eauto); auto|].
    destruct (Nat.eq_dec d (S d')) as [->|H2]; [right; assert (edge T b a) by (apply IT; split; [apply Hs; auto|]; eauto); auto|].
    assert (d = d') by lia. subst d'. elim (Hlevel a b d He Hd Hd').
  - intros a H. destruct (Hne a r 0%nat H ltac:(apply dist_0; auto)) as (e & H1 & _). discriminate.
  - intros b Hl Hbr. destruct (Hdist b Hl) as (d & Hd). destruct d as [|d]; [apply dist_0 in Hd; congruence|].
    destruct (dist_pred m r b d Hd) as (a & Had & He). exists a. split; [apply IT; eauto|].
    intros a' Ha'. destruct (Hne a' b _ Ha' Hd) as (e & E & Ha'd). injection E as <-. apply IT in Ha'. destruct Ha' as [He' _].
    destruct (N.eq_dec a' a) as [|Hneq]; auto. exfalso.
    set (R := fun x y => edge m x y /\ ~ (x = a /\ y = b) /\ ~ (x = b /\ y = a)).
    assert (HR : forall x y, R x y -> R y x) by (intros x y (X1 & X2 & X3); split; [apply Hs; auto|tauto]).
    assert (HL : forall x y e, (e < d)%nat -> edge m x y -> dist m r x e -> dist m r y (S e) -> R x y).
    { intros x y e Hlt Hxy Hx Hy. split; [auto|]. split; intros [-> ->]; [pose proof (dist_unique m r _ _ _ Hy Hd)|pose proof (dist_unique m r _ _ _ Hx Hd)]; lia. }
    apply (Ha a b He). eapply rt_trans; [apply (linked_rev R R HR r a); apply (linked_up n m r Hg Hr Hs R HR d HL); auto|].
    eapply rt_trans; [apply (linked_up n m r Hg Hr Hs R HR d HL a'); auto|]. apply rt_step. split; [auto|]. split; [tauto|].
    intros [X1 X2]. subst a'. pose proof (dist_unique m r _ _ _ Hd Ha'd). lia.
  - intros b Hl. destruct (Hdist b Hl) as (d & Hd). clear Hl. revert b Hd. induction d as [|d IH]; intros b Hd.
    + apply dist_0 in Hd. subst b. apply rt_refl.
    + destruct (dist_pred m r b d Hd) as (a & Had & He). eapply rt_trans; [apply IH; eauto|]. apply rt_step. apply IT. eauto.
Qed.

(** The minimum spanning forest of a graph can be directed. *)
Theorem C13_forest_can_be_directed : forall n m F, spanning_forest n m F -> graph n F /\ symmetric F /\ acyclic F.
Proof. intros n m F SF. split; [apply SF|]. split; [apply SF|]. exact (sf_acyclic _ _ _ SF). Qed.

Example ex_tree : exists F T, minimum_spanning_forest push_list pop_min ex_m ex_w 5 = Some F /\
  tree_directed_away_from F (2 ^ 3) = Some T /\ map T [0; 1; 2; 3; 4] = [0; 0; 3; 4; 0].
Proof. eexists. eexists. split; [vm_compute; reflexivity|]. split; [vm_compute; reflexivity|]. vm_compute. reflexivity. Qed.
