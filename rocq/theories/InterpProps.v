(** * The interpreter computes what the plan says: proofs *)
From Coq Require Import NArith ZArith QArith List Bool Arith Lia Permutation Sorted.
From Verif Require Import Word WordProofs Interp InterpSpec InterpProofs InterpJoins InterpOps InterpAggs.
Import ListNotations.

Section Plans.
Context {R : Type}.

(** ** Induction over plans *)
Definition plan_rect' (P : plan -> Prop)
  (HS : forall rows, P (Scan rows)) (HF : forall p c, P c -> P (Filter p c)) (HD : forall ps c, P c -> P (Disjunctive ps c))
  (HJ : forall p cat cs, Forall P cs -> P (Join p cat cs)) (HP : forall f c, P c -> P (Project f c)) (HO : forall r, P (ProjectOnce r))
  (HL : forall l o c, P c -> P (Limit l o c)) (HG : forall keys aggs mk c, P c -> P (Group keys aggs mk c))
  (HA : forall aggs mk c, P c -> P (Aggregate aggs mk c)) (HT : forall o c, P c -> P (Sort o c)) : forall p : @plan R, P p :=
  fix go p := match p with
  | Scan rows => HS rows
  | Filter q c => HF q c (go c)
  | Disjunctive qs c => HD qs c (go c)
  | Join q cat cs => HJ q cat cs ((fix all cs := match cs return Forall P cs with [] => Forall_nil _ | c :: cs' => Forall_cons c (go c) (all cs') end) cs)
  | Project f c => HP f c (go c)
  | ProjectOnce r => HO r
  | Limit l o c => HL l o c (go c)
  | Group keys aggs mk c => HG keys aggs mk c (go c)
  | Aggregate aggs mk c => HA aggs mk c (go c)
  | Sort o c => HT o c (go c)
  end.

Context (shuffle : forall A : Type, list A -> list A) (shuffle_perm : any_order shuffle).
Context (std_sort : (R -> R -> bool) -> list R -> list R) (sort_ok : sorts std_sort).
Notation push := (push shuffle).
Notation exec := (exec shuffle std_sort).
Implicit Types (sts : list (@state R)) (bs : list (@block R)) (fs : list (@frame R)).

Definition okk (u : bool) (p : plan) (bs : list block) : Prop :=
  Forall bok bs /\ answer p (flat_map tuples bs) /\
  forall fs sts, (u = true -> keeps (push fs)) -> sim (exec p fs sts) (feed (push fs) sts bs).

Lemma keeps_sink (f : @frame R) fs : (forall k s sts b s' sts' b' u, Interp.step shuffle f k s sts b = Some (s', sts', b', u) -> b' = b) -> keeps (push (f :: fs)).
Proof.
  intros H sts b sts' b' u. cbn [Interp.push]. destruct (Interp.step shuffle f (push fs) (hd state0 sts) (tl sts) b) as [[[[s1 st1] b1] u1]|] eqn:E; [|discriminate].
  intros [= <- <- <-]. exact (H _ _ _ _ _ _ _ _ E).
Qed.
Lemma keeps_frame (f : @frame R) fs : match f with FFilter _ | FDisjunctive _ | FLimit _ _ => False | _ => True end -> keeps (push (f :: fs)).
Proof.
  intros H. apply keeps_sink. intros k s sts b s' sts' b' u. destruct f; try contradiction; cbn [Interp.step].
  all: try (intros [= _ _ <- _]; reflexivity).
  - destruct (probe _ _ _ _ _ _ _) as [[? ?]|]; [|discriminate]. intros [= _ _ <- _]. reflexivity.
  - destruct (nested_loops _ _ _ _ _ _) as [[? ?]|]; [|discriminate]. intros [= _ _ <- _]. reflexivity.
  - destruct (k sts _) as [[[? ?] ?]|]; [|discriminate]. intros [= _ _ <- _]. reflexivity.
  - destruct (fold_left _ _ _). intros [= _ _ <- _]. reflexivity.
Qed.

(** a child that ends in a sink *)
Lemma sink_ok (c : plan) bs (f : frame) (T : state -> list R -> state) fs s sts k :
  okk true c bs -> match f with FFilter _ | FDisjunctive _ | FLimit _ _ => False | _ => True end ->
  (forall k s sts b, Interp.step shuffle f k s sts b = Some (T s (tuples b), sts, b, false)) ->
  (forall s l1 l2, T (T s l1) l2 = T s (l1 ++ l2)) ->
  sink (exec c (f :: fs) (s :: sts)) k = k (match bs with [] => s | _ => T s (flat_map tuples bs) end) sts.
Proof.
  intros [_ [_ H]] Hf H1 H2. specialize (H (f :: fs) (s :: sts) (fun _ => keeps_frame f fs Hf)).
  destruct bs as [|b bs].
  - cbn [feed sim] in H. destruct H as [u [-> Hu]]. destruct u; [specialize (Hu eq_refl); discriminate|]. reflexivity.
  - rewrite (feed_sink shuffle f T H1 H2) in H by discriminate. cbn [sim] in H. destruct H as [u [-> Hu]]. destruct u; [specialize (Hu eq_refl); discriminate|]. reflexivity.
Qed.

Lemma scan_ok u rows : okk u (Scan rows) (chunks false rows).
Proof.
  destruct (chunks_ok false rows) as [A B]. split; [exact A|]. split; [rewrite B; constructor|].
  intros fs sts _. cbn [Interp.exec]. rewrite push_rows_eq. apply sim_refl.
Qed.
Lemma pass_ok u c bs keep f p :
  (forall k s sts b, Interp.step shuffle f k s sts b = if N.eqb (bmask (drop_unless keep b)) 0 then Some (s, sts, drop_unless keep b, false) else match k sts (drop_unless keep b) with Some (sts', b'', u) => Some (s, sts', b'', u) | None => None end) ->
  (forall fs sts, exec p fs sts = pop (exec c (f :: fs) (state0 :: sts))) ->
  (forall l, answer c l -> answer p (filter keep l)) ->
  okk false c bs -> okk u p (filter nonempty (map (drop_unless keep) bs)).
Proof.
  intros Hf He Ha [A [B C]].
  assert (A' : Forall bok (map (drop_unless keep) bs)) by (apply Forall_map; eapply Forall_impl; [|exact A]; intros b Hb; apply bok_drop, Hb).
  split; [apply Forall_filter, A'|]. split.
  - rewrite tuples_nonempty by exact A'. replace (flat_map tuples (map (drop_unless keep) bs)) with (filter keep (flat_map tuples bs)); [apply Ha, B|].
    clear. induction bs as [|b bs IH]; cbn; [reflexivity|]. rewrite filter_app, drop_unless_tuples, IH. reflexivity.
  - intros fs sts _. rewrite He. apply (sim_pop state0). rewrite <- (feed_pass shuffle f (drop_unless keep) Hf). apply C. discriminate.
Qed.
Lemma any3_true (l : list (option bool)) : match any3 l with Some true => true | _ => false end = existsb is_true l.
Proof.
  induction l as [|x l IH]; [reflexivity|]. cbn [any3 fold_right existsb]. fold (any3 l). rewrite <- IH. destruct x as [[|]|]; cbn; destruct (any3 l) as [[|]|]; reflexivity.
Qed.
Lemma project_ok u c f bs : okk true c bs -> okk u (Project f c) (map (project_block f) bs).
Proof.
  intros [A [B C]]. split; [apply Forall_map; eapply Forall_impl; [|exact A]; intros b; apply bok_project|]. split.
  - replace (flat_map tuples (map (project_block f) bs)) with (map f (flat_map tuples bs)); [constructor; exact B|].
    clear. induction bs as [|b bs IH]; cbn [map flat_map]; [reflexivity|]. rewrite map_app, project_tuples, IH. reflexivity.
  - intros fs sts _. cbn [Interp.exec]. apply (sim_pop state0). rewrite <- feed_project. apply C. intros _. apply keeps_frame. exact I.
Qed.
Lemma single_ok (r : R) : bok (load [r] 1) /\ tuples (load [r] 1) = [r].
Proof. destruct (tuples_load [r] 1 eq_refl) as [A B]; [lia|]. change (N.ones (N.of_nat 1)) with 1%N in *. auto. Qed.
Lemma push_single fs sts b : match push fs sts b with Some (sts', _, u) => Some (sts', u) | None => None end = feed (push fs) sts [b].
Proof. cbn [feed]. destruct (push fs sts b) as [[[s b'] [|]]|]; reflexivity. Qed.
Lemma once_ok u r : okk u (ProjectOnce r) [load [r] 1].
Proof.
  destruct (single_ok r) as [A B]. split; [constructor; [exact A|constructor]|]. split; [cbn [flat_map]; rewrite B; constructor|].
  intros fs sts _. cbn [Interp.exec]. rewrite push_single. apply sim_refl.
Qed.
Lemma limit_ok u limit offset c bs : (limit + offset < 2 ^ 64)%N -> okk false c bs -> okk u (Limit limit offset c) (filter nonempty (limit_blocks limit offset 0 bs)).
Proof.
  intros Hlo [A [B C]]. destruct (limit_blocks_ok limit offset bs A 0%N) as [D E]. split; [apply Forall_filter, D|]. split.
  - rewrite tuples_nonempty, E, good_firstn by assumption. constructor. exact B.
  - intros fs sts _. cbn [Interp.exec]. specialize (C (FLimit limit offset :: fs) (state0 :: sts) ltac:(discriminate)).
    pose proof (feed_limit shuffle limit offset fs bs A state0 sts) as F. cbn [counter state0] in F.
    destruct (feed (push fs) sts (filter nonempty (limit_blocks limit offset 0 bs))) as [[sts' u0]|].
    + destruct F as [s' [u' F]]. rewrite F in C. cbn [sim] in C. destruct C as [u'' [-> _]]. cbn. exists false. split; [reflexivity|discriminate].
    + rewrite F in C. cbn [sim] in C. rewrite C. reflexivity.
Qed.
Lemma rows_ok u (p : plan) rows : answer p rows -> (forall fs sts, exec p fs sts = push_rows shuffle fs true rows sts) -> okk u p (chunks true rows).
Proof.
  intros Ha He. destruct (chunks_ok true rows) as [A B]. split; [exact A|]. split; [rewrite B; exact Ha|]. intros fs sts _. rewrite He, push_rows_eq. apply sim_refl.
Qed.

(** *** Grouping *)
Lemma group_ok u keys aggs mk c bs : okk true c bs ->
  (forall l, answer c l -> (N.of_nat (length l) < 2 ^ 32)%N /\ (forall r e, In r l -> In e keys -> no_string (e r)) /\
        (forall k a, In k (map (key_of keys) l) -> In a aggs -> agg_safe (members keys l k) a)) ->
  exists bs', okk u (Group keys aggs mk c) bs'.
Proof.
  intros OK Hs. pose proof OK as [A [B C]]. destruct (Hs _ B) as [H1 [H2 H3]]. set (l := flat_map tuples bs) in *.
  set (gs := fold_left (fun gs t => add_to_group aggs (map (fun e => e t) keys) t gs) l []).
  eexists. apply (rows_ok u _ (map (fun g => mk (gkey g) (gaggs g)) (shuffle _ gs))).
  - destruct (groups_ok keys aggs l H1) as [G1 [G2 G3]].
    { intros r Hr. apply Forall_forall. intros x Hx. unfold key_of in Hx. apply in_map_iff in Hx as [e [<- He]]. exact (H2 r e Hr He). }
    fold gs in G1, G2, G3.
    apply (ans_group keys aggs mk c l (map gkey (shuffle _ gs))); [exact B| | |].
    + eapply Permutation_NoDup; [|exact G2]. apply Permutation_map, Permutation_sym, shuffle_perm.
    + intros k. rewrite <- G3. split; apply Permutation_in; [|apply Permutation_sym]; apply Permutation_map, shuffle_perm.
    + assert (G1' : Forall (gok keys aggs l) (shuffle _ gs)) by (eapply Permutation_Forall; [apply Permutation_sym, shuffle_perm|exact G1]).
      assert (G3' : forall g, In g (shuffle _ gs) -> In (gkey g) (map (key_of keys) l)) by (intros g Hg; apply G3, in_map; eapply Permutation_in; [apply shuffle_perm|exact Hg]).
      clear -G1' G3' H3. induction G1' as [|g gs' [E1 E2] G1' IH]; cbn [map]; constructor; [|apply IH; intros g' Hg'; apply G3'; right; exact Hg'].
      exists (gaggs g). split; [reflexivity|]. rewrite E1. specialize (G3' g (or_introl eq_refl)). clear -G3' H3.
      induction aggs as [|a aggs IH]; cbn [map]; constructor.
      * apply aval_ok; [right; split; [reflexivity|apply members_some, G3']|]. exact (H3 (gkey g) a G3' (or_introl eq_refl)).
      * apply IH. intros k b Hk Hb. apply H3; [exact Hk|right; exact Hb].
  - intros fs sts. cbn [Interp.exec].
    rewrite (sink_ok c bs (FGroup keys aggs) (fun s l => with_groups s (fold_left (fun gs t => add_to_group aggs (map (fun e => e t) keys) t gs) l (groups s))) fs state0 sts _ OK I).
    + destruct bs; reflexivity.
    + reflexivity.
    + intros s l1 l2. unfold with_groups. cbn [groups buffer table counter cells seen]. rewrite fold_left_app. reflexivity.
Qed.
Lemma aggregate_ok u aggs mk c bs : okk true c bs -> (forall l a, answer c l -> In a aggs -> agg_safe l a) -> exists bs', okk u (Aggregate aggs mk c) bs'.
Proof.
  intros OK Hs. pose proof OK as [A [B C]]. set (l := flat_map tuples bs) in *. specialize (Hs l).
  exists [load [mk (map (fun a => aval a (agg_init a) l) aggs)] 1]. destruct (single_ok (mk (map (fun a => aval a (agg_init a) l) aggs))) as [S1 S2]. split; [constructor; [exact S1|constructor]|]. split.
  - cbn [flat_map]. rewrite S2. apply (ans_aggregate aggs mk c l); [exact B|]. clear -Hs B. induction aggs as [|a aggs IH]; cbn [map]; constructor.
    + apply aval_ok; [left; reflexivity|]. exact (Hs a B (or_introl eq_refl)).
    + apply IH. intros b Hb Hin. apply Hs; [exact Hb|right; exact Hin].
  - intros fs sts _. cbn [Interp.exec].
    rewrite (sink_ok c bs (FAggregate aggs) (fun s l => let '(cs, n) := fold_left (fun '(cs, n) t => (aggs_step aggs (n + 1)%N t cs, (n + 1)%N)) l (cells s, counter s) in with_cells s cs n) fs _ sts _ OK I).
    + rewrite push_single. replace (cells _) with (map (fun a => aval a (agg_init a) l) aggs); [apply sim_refl|].
      unfold l. destruct bs as [|b bs0]; [reflexivity|]. cbn [cells counter with_cells]. rewrite aggregate_fold. reflexivity.
    + intros k s sts' b. cbn [Interp.step]. destruct (fold_left _ _ _). reflexivity.
    + intros s l1 l2. rewrite fold_left_app. destruct (fold_left _ l1 _) as [cs n]. cbn [cells counter with_cells]. destruct (fold_left _ l2 _). reflexivity.
Qed.

(** *** Hash join *)
Lemma cell_same_sql x y : hashable x y -> cell_same x y = sql_equal x y.
Proof.
  intros H. unfold sql_equal. destruct x as [x|], y as [y|]; try reflexivity; [|destruct H].
  destruct (datum_eq_dec x y) as [E|E].
  - subst y. apply cell_same_refl. destruct x; [exact I|exact I|destruct H].
  - destruct (cell_same (Some x) (Some y)) eqn:F; [|reflexivity]. apply cell_same_eq in F. congruence.
Qed.
Lemma key_same_sql (ks : list ((R -> option datum) * (R -> option datum))) x y : (forall f g, In (f, g) ks -> hashable (f x) (g y)) ->
  key_same (map (fun e => e x) (map fst ks)) (map (fun e => e y) (map snd ks)) = forallb (fun '(f, g) => sql_equal (f x) (g y)) ks.
Proof.
  induction ks as [|[f g] ks IH]; intros H; cbn [map key_same forallb fst snd]; [reflexivity|].
  rewrite (cell_same_sql _ _ (H f g (or_introl eq_refl))), IH; [reflexivity|]. intros f' g' Hin. apply H. right. exact Hin.
Qed.
Lemma filter_ext_in' {A} (f g : A -> bool) l : (forall x, In x l -> f x = g x) -> filter f l = filter g l.
Proof. intros H. induction l as [|x l IH]; cbn; [reflexivity|]. rewrite H by (left; reflexivity). rewrite IH; [reflexivity|]. intros y Hy. apply H. right. exact Hy. Qed.
Lemma Permutation_filter' {A} (f : A -> bool) l l' : Permutation l l' -> Permutation (filter f l) (filter f l').
Proof. induction 1; cbn; [constructor|destruct (f x); [constructor|]; assumption|destruct (f x), (f y); try apply Permutation_refl; apply perm_swap|eapply Permutation_trans; eassumption]. Qed.
Lemma cell_same_cells x y : cell_same x y = same_cells x y.
Proof.
  destruct x as [[u|u|u]|], y as [[v|v|v]|]; cbn [same_cells]; try reflexivity; apply cell_same_sql; exact I.
Qed.
Lemma key_same_keys (ks : list ((R -> option datum) * (R -> option datum))) x y :
  key_same (map (fun e => e x) (map fst ks)) (map (fun e => e y) (map snd ks)) = same_keys ks [x; y].
Proof.
  cbn [same_keys]. induction ks as [|[f g] ks IH]; cbn [map key_same forallb fst snd]; [reflexivity|]. rewrite cell_same_cells, IH. reflexivity.
Qed.
Lemma matches_ok ks (ll : list R) t :
  Permutation (matches shuffle (map snd ks) (map (fun x => (map (fun e => e x) (map fst ks), x)) ll) t) (filter (fun x => same_keys ks [x; t]) ll).
Proof.
  unfold matches. eapply Permutation_trans.
  { apply Permutation_map, Permutation_filter', shuffle_perm. }
  rewrite filter_map_comm, map_map. cbn [fst snd]. rewrite map_id. erewrite filter_ext; [apply Permutation_refl|].
  intros x. apply key_same_keys.
Qed.
Lemma equi_gen ks cat c c' bs bs' : okk true c bs -> okk true c' bs' ->
  exists bs'', Forall bok bs'' /\ Permutation (flat_map tuples bs'') (map cat (filter (same_keys ks) (product [flat_map tuples bs; flat_map tuples bs']))) /\
  forall fs sts, keeps (push fs) -> sim (exec (Join (JEqui ks) cat [c; c']) fs sts) (feed (push fs) sts bs'').
Proof.
  intros OK OK'. pose proof OK as [A [B C]]. pose proof OK' as [A' [B' C']].
  set (ll := flat_map tuples bs) in *. set (lr := flat_map tuples bs') in *.
  set (ht := map (fun x => (map (fun e => e x) (map fst ks), x)) ll).
  assert (EX : forall fs sts, exec (Join (JEqui ks) cat [c; c']) fs sts = match ht with [] => Some (sts, false) | _ => pop (exec c' (FProbe (map snd ks) cat ht :: fs) (state0 :: sts)) end).
  { intros fs sts. cbn [Interp.exec].
    rewrite (sink_ok c bs (FBuild (map fst ks)) (fun s l => with_table s (table s ++ map (fun t => (map (fun e => e t) (map fst ks), t)) l)) fs state0 sts _ OK I).
    - replace (table _) with ht; [destruct ht; reflexivity|]. unfold ht, ll. destruct bs; reflexivity.
    - reflexivity.
    - intros s l1 l2. unfold with_table; cbn. rewrite map_app, app_assoc. reflexivity. }
  assert (D : ll = [] \/ exists x0 ll0, ll = x0 :: ll0) by (destruct ll; eauto). destruct D as [El|[x0 [ll0 El]]].
  - assert (Eh : ht = []) by (unfold ht; rewrite El; reflexivity). rewrite Eh in EX. exists []. split; [constructor|]. split.
    + rewrite El. cbn. constructor.
    + intros fs sts _. rewrite EX. cbn. eauto.
  - assert (Hht : exists y ys, ht = y :: ys) by (unfold ht; rewrite El; cbn; eauto). destruct Hht as [y [ys Hht]].
    destruct (probe_all_blocks shuffle (map snd ks) cat ht bs') as [P1 P2].
    eexists. split; [exact P1|]. split.
    + rewrite P2. fold lr. cbn [product]. eapply Permutation_trans.
      { apply flat_map_perm_ext. intros t Ht. apply Permutation_map. unfold ht. apply matches_ok. }
      rewrite filter_flat_map, map_flat_map. apply Permutation_sym.
      erewrite flat_map_ext.
      2:{ intros x. rewrite (filter_map_comm (cons x)), map_map. reflexivity. }
      cbn beta.
      eapply Permutation_trans; [|eapply Permutation_trans; [apply (flat_map_swap (fun x t => if same_keys ks [x; t] then [cat [x; t]] else []) ll lr)|]].
      * apply flat_map_perm_ext. intros x Hx. clear. induction lr as [|t lr IH]; cbn [flat_map map filter app]; [constructor|].
        destruct (same_keys ks [x; t]); cbn [map app]; [constructor|]; exact IH.
      * apply flat_map_perm_ext. intros t Ht. clear. induction ll as [|x ll IH]; cbn [flat_map map filter app]; [constructor|].
        destruct (same_keys ks [x; t]); cbn [map app]; [constructor|]; exact IH.
    + intros fs sts K. rewrite EX. rewrite Hht. rewrite <- Hht. apply (sim_pop state0). rewrite <- feed_probe by exact K. apply C'. intros _. apply keeps_frame. exact I.
Qed.
Lemma product_two (ll lr : list R) rs : In rs (product [ll; lr]) -> exists x y, rs = [x; y] /\ In x ll /\ In y lr.
Proof.
  cbn [product]. intros H. apply in_flat_map in H as [x [Hx H]]. apply in_map_iff in H as [r [<- H]]. apply in_flat_map in H as [y [Hy H]]. destruct H as [<-|[]]. eauto.
Qed.
Lemma equi_ok ks cat c c' bs bs' : okk true c bs -> okk true c' bs' ->
  (forall l l' x y f g, answer c l -> answer c' l' -> In x l -> In y l' -> In (f, g) ks -> hashable (f x) (g y)) ->
  exists bs'', okk true (Join (JEqui ks) cat [c; c']) bs''.
Proof.
  intros OK OK' Hs. destruct (equi_gen ks cat c c' bs bs' OK OK') as [bs'' [H1 [H2 H3]]]. pose proof OK as [_ [B _]]. pose proof OK' as [_ [B' _]].
  exists bs''. split; [exact H1|]. split; [|intros fs sts K; apply H3, K; reflexivity].
  apply (ans_join _ cat [c; c'] [flat_map tuples bs; flat_map tuples bs']); [repeat constructor; assumption|].
  eapply Permutation_trans; [exact H2|]. rewrite (filter_ext_in' (same_keys ks) (jholds (JEqui ks))); [apply Permutation_refl|].
  intros rs Hrs. apply product_two in Hrs as [x [y [-> [Hx Hy]]]]. rewrite <- key_same_keys. apply key_same_sql. intros f g Hin. exact (Hs _ _ x y f g B B' Hx Hy Hin).
Qed.

(** *** Nested-loops join *)
Definition nl_children (q : option (list R -> option bool)) (cat : list R -> R) (fs : list (@frame R)) :=
  fix children (cs : list (@plan R)) (bufs : list (list R)) (sts : list (@state R)) {struct cs} : option (list (@state R) * bool) :=
    match cs with
    | [] => Some (sts, false)
    | [c] => pop (exec c (FLast q cat bufs :: fs) (state0 :: sts))
    | c :: cs' =>
        sink (exec c (FBuffer :: fs) (state0 :: sts)) (fun s sts' =>
          match buffer s with
          | [] => Some (sts', false)
          | l => children cs' (bufs ++ [l]) sts'
          end)
    end.
Lemma product_nil (ls : list (list R)) : In [] ls -> product ls = [].
Proof.
  induction ls as [|l ls IH]; [intros []|]. intros [->|H]; [reflexivity|]. cbn [product]. rewrite IH by exact H. induction l as [|x l IHl]; [reflexivity|exact IHl].
Qed.
Lemma nl_ok q cat cs : Forall (fun c => exists bs, okk true c bs) cs -> forall bufs, cs <> [] -> bufs <> [] \/ (2 <= length cs)%nat ->
  exists ls bs, Forall2 answer cs ls /\ Forall bok bs /\ Permutation (flat_map tuples bs) (map cat (filter (jtest q) (product (bufs ++ ls)))) /\
    forall fs sts, sim (nl_children q cat fs cs bufs sts) (feed (push fs) sts bs).
Proof.
  induction 1 as [|c cs [bs OK] HF IH]; intros bufs Hne Hb; [congruence|]. pose proof OK as [A [B C]].
  destruct cs as [|c' cs].
  - destruct Hb as [Hb|Hb]; [|cbn in Hb; lia]. destruct (last_tuples q cat bufs bs A) as [L1 L2].
    exists [flat_map tuples bs], (flat_map (fun b => nl_blocks q cat b [] bufs) bs). split; [repeat constructor; exact B|]. split; [exact L1|]. split; [exact L2|].
    intros fs sts. cbn [nl_children]. apply (sim_pop state0). rewrite <- (feed_last shuffle q cat bufs fs state0 bs Hb). apply C. intros _. apply keeps_frame. exact I.
  - assert (EX : forall fs sts, nl_children q cat fs (c :: c' :: cs) bufs sts = match flat_map tuples bs with [] => Some (sts, false) | l => nl_children q cat fs (c' :: cs) (bufs ++ [l]) sts end).
    { intros fs sts. change (nl_children q cat fs (c :: c' :: cs) bufs sts) with (sink (exec c (FBuffer :: fs) (state0 :: sts)) (fun s sts' =>
          match buffer s with [] => Some (sts', false) | l => nl_children q cat fs (c' :: cs) (bufs ++ [l]) sts' end)).
      rewrite (sink_ok c bs FBuffer (fun s l => with_buffer s (buffer s ++ l)) fs state0 sts _ OK I).
      - destruct bs as [|b bs0]; [reflexivity|]. cbn [with_buffer buffer state0 app]. reflexivity.
      - reflexivity.
      - intros s l1 l2. unfold with_buffer; cbn. rewrite app_assoc. reflexivity. }
    destruct (IH (bufs ++ [flat_map tuples bs])) as [ls [bs' [I1 [I2 [I3 I4]]]]]; [discriminate|left; destruct bufs; discriminate|].
    rewrite <- app_assoc in I3. cbn [app] in I3.
    exists (flat_map tuples bs :: ls). destruct (flat_map tuples bs) as [|x l] eqn:El.
    + exists []. split; [constructor; assumption|]. split; [constructor|]. split.
      * rewrite product_nil by (apply in_app_iff; right; left; reflexivity). constructor.
      * intros fs sts. rewrite EX. cbn. eauto.
    + exists bs'. split; [constructor; assumption|]. split; [exact I2|]. split; [exact I3|]. intros fs sts. rewrite EX. apply I4.
Qed.
Lemma nl_join_ok u jp q cat cs : (jp = JTrue /\ q = None) \/ (exists q', jp = JPred q' /\ q = Some q') -> Forall (fun c => exists bs, okk true c bs) cs -> (2 <= length cs)%nat ->
  exists bs, okk u (Join jp cat cs) bs.
Proof.
  intros Hq HF Hl. destruct (nl_ok q cat cs HF []) as [ls [bs [H1 [H2 [H3 H4]]]]]; [destruct cs; [cbn in Hl; lia|discriminate]|right; exact Hl|].
  exists bs. split; [exact H2|]. split.
  - apply (ans_join jp cat cs ls); [exact H1|]. eapply Permutation_trans; [exact H3|]. cbn [app]. apply Permutation_map.
    erewrite filter_ext; [apply Permutation_refl|]. intros rs. destruct Hq as [[-> ->]|[q' [-> ->]]]; reflexivity.
  - intros fs sts _. destruct Hq as [[-> ->]|[q' [-> ->]]]; apply H4.
Qed.

(** *** Sorting *)
Lemma comparable_sortable (e : R -> option datum) (l l' : list R) : comparable e l -> incl l' l -> sortable e l'.
Proof.
  intros H Hi. destruct H as [H|[H|H]]; [exists 0%nat|exists 1%nat|exists 2%nat]; apply Forall_forall; intros r Hr; destruct (H r (Hi r Hr)) as [z ->]; eauto.
Qed.
Section Order.
Context (order : list ((R -> option datum) * bool)).
Definition tied (x y : R) : Prop := forall e asc, In (e, asc) order -> cell_eq (e x) (e y).
Lemma sort_cmp_tied : forall x y, (forall e asc, In (e, asc) order -> sortable e [x; y]) -> (sort_cmp order x y = Some 0%Z <-> tied x y).
Proof.
  unfold tied. induction order as [|[e asc] o IH]; intros x y H.
  - cbn. split; [intros _ e asc []|reflexivity].
  - destruct (H e asc (or_introl eq_refl)) as [n Hn]. inversion Hn as [|? ? Hx Hn']; subst. inversion Hn' as [|? ? Hy _]; subst.
    destruct (cmp_cell_spec _ _ n Hx Hy) as [c [E [_ [Z0 _]]]]. cbn [sort_cmp]. rewrite E.
    assert (S0 : ((if asc then c else (- c)) = 0 <-> c = 0)%Z) by (destruct asc; lia).
    destruct (Z.eqb_spec (if asc then c else (- c)%Z) 0) as [E0|E0].
    + rewrite IH by (intros e' a' Hin; exact (H e' a' (or_intror Hin))). split.
      * intros T e' a' [[= <- <-]|Hin]; [apply Z0, S0, E0|exact (T e' a' Hin)].
      * intros T e' a' Hin. exact (T e' a' (or_intror Hin)).
    + split; [intros [= F]; congruence|]. intros T. exfalso. apply E0, S0, Z0. exact (T e asc (or_introl eq_refl)).
Qed.
Context (l : list R) (HC : forall e asc, In (e, asc) order -> comparable e l).
Lemma pair_sortable x y : In x l -> In y l -> forall e asc, In (e, asc) order -> sortable e [x; y].
Proof. intros Hx Hy e asc Hin. apply (comparable_sortable e l); [exact (HC e asc Hin)|]. intros z [<-|[<-|[]]]; assumption. Qed.
Lemma sort_less_spec x y : In x l -> In y l -> (sort_less order x y = true <-> precedes order x y).
Proof.
  intros Hx Hy. destruct (sort_cmp_spec order x y (pair_sortable x y Hx Hy)) as [c [E [L _]]]. unfold sort_less. rewrite E. rewrite Z.ltb_lt. exact L.
Qed.
Lemma incomparable_tied x y : In x l -> In y l -> (sort_less order x y = false /\ sort_less order y x = false <-> tied x y).
Proof.
  intros Hx Hy. rewrite <- (sort_cmp_tied x y (pair_sortable x y Hx Hy)). destruct (sort_cmp_spec order x y (pair_sortable x y Hx Hy)) as [c [E [L G]]].
  assert (A : sort_less order x y = false <-> ~ (c < 0)%Z) by (unfold sort_less; rewrite E, Z.ltb_ge; lia).
  assert (B : sort_less order y x = false <-> ~ (0 < c)%Z).
  { rewrite G. rewrite <- (sort_less_spec y x Hy Hx). destruct (sort_less order y x); intuition congruence. }
  rewrite A, B, E. split; [intros [H1 H2]; f_equal; lia|intros [= ->]; lia].
Qed.
Lemma sorted_ok : Permutation (std_sort (sort_less order) l) l /\ StronglySorted (fun x y => ~ precedes order y x) (std_sort (sort_less order) l).
Proof.
  destruct (sort_ok (sort_less order) l) as [P S].
  - intros x Hx. destruct (sort_less order x x) eqn:E; [|reflexivity]. apply sort_less_spec in E; [|assumption|assumption]. exfalso. revert E. apply precedes_irrefl.
    intros e asc Hin. apply (comparable_sortable e l); [exact (HC e asc Hin)|]. intros z [<-|[]]; assumption.
  - intros x y z Hx Hy Hz E1 E2. apply sort_less_spec in E1; [|assumption|assumption]. apply sort_less_spec in E2; [|assumption|assumption]. apply sort_less_spec; [assumption|assumption|]. eapply precedes_trans; eassumption.
  - intros x y z Hx Hy Hz E1 E2 E3 E4. apply incomparable_tied; [assumption|assumption|].
    assert (T1 : tied x y) by (apply incomparable_tied; auto). assert (T2 : tied y z) by (apply incomparable_tied; auto).
    intros e asc Hin. eapply cell_eq_trans; [exact (T1 e asc Hin)|exact (T2 e asc Hin)].
  - split; [exact P|].
    assert (Hi : incl (std_sort (sort_less order) l) l) by (intros x; apply Permutation_in, P). revert S Hi. generalize (std_sort (sort_less order) l). intros s S. clear P.
    induction S as [|x s S IH Hx]; intros Hi; constructor; [apply IH; intros y Hy; apply Hi; right; exact Hy|].
    apply Forall_forall. intros y Hy. rewrite Forall_forall in Hx. specialize (Hx y Hy). rewrite <- sort_less_spec; [congruence|apply Hi; right; exact Hy|apply Hi; left; reflexivity].
Qed.
Lemma defined_ok : sort_defined order l = true.
Proof.
  assert (F : forallb (fun x => forallb (fun y => match sort_cmp order x y with Some _ => true | None => false end) l) l = true).
  { apply forallb_forall. intros x Hx. apply forallb_forall. intros y Hy. destruct (sort_cmp_spec order x y (pair_sortable x y Hx Hy)) as [c [-> _]]. reflexivity. }
  unfold sort_defined. destruct l as [|x [|y l']]; [reflexivity|reflexivity|exact F].
Qed.
End Order.
Lemma cmp_chars_refl (c : list N) : cmp_chars c c = 0%Z.
Proof. induction c as [|x c IH]; cbn; [reflexivity|]. rewrite N.ltb_irrefl. exact IH. Qed.
Lemma sort_cmp_refl (order : list ((R -> option datum) * bool)) x : sort_cmp order x x = None \/ sort_cmp order x x = Some 0%Z.
Proof.
  induction order as [|[e asc] order IH]; cbn [sort_cmp]; [auto|].
  assert (H : cmp_cell (e x) (e x) = None \/ cmp_cell (e x) (e x) = Some 0%Z).
  { destruct (e x) as [[z|q|c]|]; cbn; auto; right; [rewrite Z.compare_refl; reflexivity| |rewrite cmp_chars_refl; reflexivity].
    replace (q ?= q)%Q with Eq by (symmetry; apply Qeq_alt, Qeq_refl). reflexivity. }
  destruct H as [->| ->]; [auto|]. destruct asc; exact IH.
Qed.
Lemma short_ok (order : list ((R -> option datum) * bool)) (l : list R) : (length l <= 1)%nat -> std_sort (sort_less order) l = l /\ sort_defined order l = true.
Proof.
  intros Hl. assert (Hn : forall x, sort_less order x x = false) by (intros x; unfold sort_less; destruct (sort_cmp_refl order x) as [-> | ->]; reflexivity).
  destruct (sort_ok (sort_less order) l) as [P _].
  - intros x _. apply Hn.
  - intros x y z Hx Hy Hz. destruct l as [|a [|b l]]; [destruct Hx| |cbn in Hl; lia]. destruct Hx as [<-|[]], Hy as [<-|[]], Hz as [<-|[]]. auto.
  - intros x y z Hx Hy Hz. destruct l as [|a [|b l]]; [destruct Hx| |cbn in Hl; lia]. destruct Hx as [<-|[]], Hy as [<-|[]], Hz as [<-|[]]. auto.
  - destruct l as [|a [|b l]]; [|  |cbn in Hl; lia].
    + apply Permutation_sym, Permutation_nil in P. rewrite P. auto.
    + apply Permutation_sym, Permutation_length_1_inv in P. rewrite P. auto.
Qed.
Lemma sort_ok' u order c bs : okk true c bs -> (forall l, answer c l -> (length l <= 1)%nat \/ forall e asc, In (e, asc) order -> comparable e l) ->
  exists bs', okk u (Sort order c) bs'.
Proof.
  intros OK Hs. pose proof OK as [A [B C]]. specialize (Hs _ B). set (l := flat_map tuples bs) in *.
  assert (S : Permutation (std_sort (sort_less order) l) l /\ StronglySorted (fun x y => ~ precedes order y x) (std_sort (sort_less order) l) /\ sort_defined order l = true).
  { destruct Hs as [Hs|Hs].
    - destruct (short_ok order l Hs) as [E D]. rewrite E. split; [apply Permutation_refl|]. split; [|exact D].
      clear -Hs. destruct l as [|a [|b l]]; [constructor|constructor; constructor|cbn in Hs; lia].
    - destruct (sorted_ok order l Hs) as [P S]. split; [exact P|]. split; [exact S|]. apply defined_ok. exact Hs. }
  destruct S as [S1 [S2 S3]]. assert (ANS : answer (Sort order c) (std_sort (sort_less order) l)) by (eapply ans_sort; eassumption).
  assert (EX : forall fs sts, exec (Sort order c) fs sts = match bs with [] => Some (sts, false) | _ => push_rows shuffle fs true (std_sort (sort_less order) l) sts end).
  { intros fs sts. cbn [Interp.exec]. rewrite (sink_ok c bs FSort (fun s l => with_buffer s (buffer s ++ l)) fs state0 sts _ OK I).
    - unfold l in *. destruct bs as [|b bs0]; [reflexivity|]. cbn [with_buffer buffer state0 app seen]. rewrite S3. reflexivity.
    - reflexivity.
    - intros s l1 l2. unfold with_buffer; cbn. rewrite app_assoc. reflexivity. }
  destruct bs as [|b bs0].
  - exists []. split; [constructor|]. split.
    + cbn. cbn in l. unfold l in *. apply Permutation_sym, Permutation_nil in S1. rewrite S1 in ANS. exact ANS.
    + intros fs sts _. rewrite EX. cbn. eauto.
  - eexists. apply rows_ok; [exact ANS|exact EX].
Qed.

(** ** Every plan *)
Lemma exec_ok p : forall u, safe u p -> exists bs, okk u p bs.
Proof.
  induction p as [rows|q c IH|qs c IH|jp cat cs IH|f c IH|r|lim off c IH|keys aggs mk c IH|aggs mk c IH|o c IH] using plan_rect'; intros u Hs; inversion Hs; subst.
  - eexists. apply scan_ok.
  - destruct (IH false) as [bs OK]; [assumption|]. eexists. eapply (pass_ok u c bs (fun r => is_true (q r)) (FFilter q)); [reflexivity|reflexivity| |exact OK].
    intros l Hl. apply ans_filter, Hl.
  - destruct (IH false) as [bs OK]; [assumption|]. eexists. eapply (pass_ok u c bs (fun r => existsb (fun p => is_true (p r)) qs) (FDisjunctive qs)); [reflexivity|reflexivity| |exact OK].
    intros l Hl. erewrite filter_ext; [apply ans_disjunctive, Hl|]. intros r. cbn beta. rewrite any3_true. clear. induction qs as [|q qs IH]; cbn; [reflexivity|]. rewrite IH. reflexivity.
  - apply (nl_join_ok u JTrue None); [left; auto| |cbn; lia]. eapply Forall_impl; [|apply Forall_and; [exact IH|eassumption]]. cbn beta. intros x [Ha Hb]. exact (Ha true Hb).
  - apply (nl_join_ok u (JPred q) (Some q)); [right; eauto| |cbn; lia]. eapply Forall_impl; [|apply Forall_and; [exact IH|eassumption]]. cbn beta. intros x [Ha Hb]. exact (Ha true Hb).
  - inversion IH as [|? ? I1 I2]; subst. inversion I2 as [|? ? I3 _]; subst. destruct (I1 true) as [bs OK]; [assumption|]. destruct (I3 true) as [bs' OK']; [assumption|]. eapply equi_ok; eassumption.
  - destruct (IH true) as [bs OK]; [assumption|]. eexists. apply project_ok. exact OK.
  - eexists. apply once_ok.
  - destruct (IH false) as [bs OK]; [assumption|]. eexists. apply limit_ok; [assumption|exact OK].
  - destruct (IH true) as [bs OK]; [assumption|]. eapply group_ok; eassumption.
  - destruct (IH true) as [bs OK]; [assumption|]. eapply aggregate_ok; eassumption.
  - destruct (IH true) as [bs OK]; [assumption|]. eapply sort_ok'; eassumption.
Qed.
Lemma run_blocks (p : plan) bs : (forall fs sts, keeps (push fs) -> sim (exec p fs sts) (feed (push fs) sts bs)) -> run shuffle std_sort p = Some (flat_map tuples bs).
Proof.
  intros C. specialize (C [FCallback] [state0] (keeps_frame FCallback [] I)). unfold run. destruct bs as [|b bs].
  - cbn [feed sim] in C. destruct C as [u [-> _]]. reflexivity.
  - rewrite (feed_sink shuffle FCallback (fun s l => with_buffer s (buffer s ++ l))) in C; [|reflexivity|intros s l1 l2; unfold with_buffer; cbn; rewrite app_assoc; reflexivity|discriminate].
    cbn [sim] in C. destruct C as [u [-> _]]. reflexivity.
Qed.
Lemma run_okk u p bs : okk u p bs -> run shuffle std_sort p = Some (flat_map tuples bs) /\ answer p (flat_map tuples bs).
Proof. intros [A [B C]]. split; [|exact B]. apply run_blocks. intros fs sts K. apply C. intros _. exact K. Qed.
End Plans.
