(** * Operations on schemas (for C53) *)
From Coq Require Import NArith ZArith List Bool Arith Lia.
From Verif Require Import Interp InterpSpec Finish FinishSpec FinishProps Minimize MinimizeSpec MinimizeSim.
Import ListNotations.

Definition mem (S : schema) (id : ident) : bool := existsb (ident_eqb id) S.
Lemma mem_spec S id : reflect (In id S) (mem S id).
Proof.
  unfold mem. destruct (existsb (ident_eqb id) S) eqn:E; constructor.
  - apply existsb_exists in E. destruct E as [x [I E]]. destruct (ident_eqb_spec id x); [subst; exact I|discriminate].
  - intros I. assert (X : existsb (ident_eqb id) S = true) by (apply existsb_exists; exists id; split; [exact I|destruct (ident_eqb_spec id id); congruence]). congruence.
Qed.
Lemma mem_in S id : mem S id = true <-> In id S. Proof. destruct (mem_spec S id); split; intros; congruence || tauto. Qed.
Lemma find_in S id : NoDup S -> In id S -> exists i, nth_error S i = Some id /\ positions S id 0 = [i].
Proof.
  intros ND I. apply In_nth_error in I. destruct I as [i Hi]. exists i. split; [exact Hi|]. pose proof (find_nodup S id i ND Hi) as F. unfold find_id in F. destruct (positions S id 0) as [|a [|b l]]; congruence.
Qed.
Lemma has_spec S id : NoDup S -> has S id = Some (mem S id).
Proof.
  intros ND. unfold has. destruct (mem_spec S id) as [I|I]; [destruct (find_in S id ND I) as [i [_ ->]]|rewrite positions_none by exact I]; reflexivity.
Qed.
Lemma inter_spec L S : NoDup S -> inter L S = Some (filter (mem S) L).
Proof. intros ND. induction L as [|id L IH]; [reflexivity|]. cbn [inter filter]. rewrite (has_spec S id ND), IH. destruct (mem S id); reflexivity. Qed.
Lemma filter_all {A} (p : A -> bool) l : (forall x, In x l -> p x = true) -> filter p l = l.
Proof. induction l as [|x l IH]; intros H; [reflexivity|]. cbn [filter]. rewrite (H x (or_introl eq_refl)), IH by (intros; apply H; right; assumption). reflexivity. Qed.
Lemma inter_incl L S : NoDup S -> incl L S -> inter L S = Some L.
Proof. intros ND H. rewrite (inter_spec L S ND). f_equal. apply filter_all. intros x Hx. apply mem_in, H, Hx. Qed.
Lemma all_in_incl A S : NoDup S -> incl A S -> all_in A S = Some true.
Proof. intros ND. induction A as [|id A IH]; intros H; [reflexivity|]. cbn [all_in]. rewrite (has_spec S id ND). replace (mem S id) with true by (symmetry; apply mem_in, H; left; reflexivity). apply IH. intros x Hx. apply H. right. exact Hx. Qed.
Lemma insist_ok R S : NoDup R -> NoDup S -> incl R S -> insist_subset R S = Some true.
Proof. intros NR NS H. unfold insist_subset. rewrite (inter_incl R S NS H). unfold same_names. rewrite (all_in_incl R R NR (incl_refl R)). reflexivity. Qed.
Lemma searchable_ok S C : NoDup C -> searchable S C = true.
Proof. intros ND. induction S as [|id S IH]; [reflexivity|]. cbn [searchable]. rewrite (has_spec C id ND). exact IH. Qed.
Lemma nodup_snoc (S : schema) id : NoDup S -> ~ In id S -> NoDup (S ++ [id]).
Proof. intros ND H. apply NoDup_rev in ND. rewrite <- (rev_involutive (S ++ [id])). apply NoDup_rev. rewrite rev_app_distr. cbn. constructor; [rewrite <- in_rev; exact H|exact ND]. Qed.
Lemma union_spec A : forall S, NoDup S -> exists T, union S A = Some (S ++ T) /\ NoDup (S ++ T) /\ forall id, In id (S ++ T) <-> In id S \/ In id A.
Proof.
  induction A as [|id A IH]; intros S ND; [exists []; rewrite app_nil_r; split; [reflexivity|]; split; [exact ND|]; cbn; tauto|].
  cbn [union]. rewrite (has_spec S id ND). destruct (mem_spec S id) as [I|I].
  - destruct (IH S ND) as [T [E [NT HT]]]. exists T. split; [exact E|]. split; [exact NT|]. intros x. rewrite HT. cbn. split; [tauto|]. intros [X|[<-|X]]; tauto.
  - destruct (IH (S ++ [id]) (nodup_snoc S id ND I)) as [T [E [NT HT]]]. exists (id :: T). rewrite <- app_assoc in E, NT, HT. cbn [app] in *. split; [exact E|]. split; [exact NT|].
    intros x. rewrite HT. rewrite in_app_iff. cbn. tauto.
Qed.
Lemma union_incl S A : NoDup S -> incl A S -> union S A = Some S.
Proof.
  intros ND. induction A as [|id A IH]; intros H; [reflexivity|]. cbn [union]. rewrite (has_spec S id ND). replace (mem S id) with true by (symmetry; apply mem_in, H; left; reflexivity). apply IH. intros x Hx. apply H. right. exact Hx.
Qed.
Lemma add_name_spec S id : NoDup S -> NoDup (add_name S id) /\ forall x, In x (add_name S id) <-> In x S \/ x = id.
Proof.
  intros ND. unfold add_name. rewrite (has_spec S id ND). destruct (mem_spec S id) as [I|I].
  - split; [exact ND|]. intros x. split; [tauto|]. intros [X| ->]; assumption.
  - split; [apply nodup_snoc; assumption|]. intros x. rewrite in_app_iff. cbn. split; intros [X|X]; try tauto; [destruct X as [<-|[]]; tauto|subst; tauto].
Qed.
Lemma need_spec e : forall S, NoDup S -> NoDup (need e S) /\ forall x, In x (need e S) <-> In x S \/ In x (uses e).
Proof.
  induction e as [t n k|n|v|f e IH|o e IH|o l IHl r IHr]; intros S ND; cbn [need uses].
  - destruct (add_name_spec S (t, n) ND) as [A B]. split; [exact A|]. intros x. rewrite B. cbn. intuition congruence.
  - destruct (add_name_spec S (None, n) ND) as [A B]. split; [exact A|]. intros x. rewrite B. cbn. intuition congruence.
  - split; [exact ND|]. cbn. tauto.
  - apply IH, ND.
  - apply IH, ND.
  - destruct (IHl S ND) as [A B]. destruct (IHr _ A) as [C D]. split; [exact C|]. intros x. rewrite D, B, in_app_iff. tauto.
Qed.
Lemma required_by_spec e x : In x (required_by e) <-> In x (uses e).
Proof. unfold required_by. destruct (need_spec e [] (NoDup_nil _)) as [_ H]. rewrite H. cbn. tauto. Qed.
Lemma unions_spec es : forall S, NoDup S -> exists T, unions S es = Some (S ++ T) /\ NoDup (S ++ T) /\ forall id, In id (S ++ T) <-> In id S \/ exists e, In e es /\ In id (uses e).
Proof.
  induction es as [|e es IH]; intros S ND; [exists []; rewrite app_nil_r; split; [reflexivity|]; split; [exact ND|]; intros id; split; [tauto|]; intros [X|[e [[] _]]]; exact X|].
  cbn [unions]. destruct (union_spec (required_by e) S ND) as [T1 [E1 [N1 H1]]]. rewrite E1. destruct (IH _ N1) as [T2 [E2 [N2 H2]]]. rewrite <- app_assoc in E2, N2. exists (T1 ++ T2). split; [exact E2|]. split; [exact N2|].
  intros id. rewrite app_assoc, H2, H1, required_by_spec. split.
  - intros [[X|X]|[e' [I X]]]; [tauto|right; exists e; cbn; tauto|right; exists e'; cbn; tauto].
  - intros [X|[e' [[<-|I] X]]]; [tauto|tauto|right; exists e'; tauto].
Qed.
Lemma cnf_required_spec f : forall S, NoDup S -> exists T, cnf_required f S = Some (S ++ T) /\ NoDup (S ++ T) /\
  forall id, In id (S ++ T) <-> In id S \/ exists cl l, In cl f /\ In l cl /\ In id (uses (snd l)).
Proof.
  induction f as [|cl f IH]; intros S ND; [exists []; rewrite app_nil_r; split; [reflexivity|]; split; [exact ND|]; intros id; split; [tauto|]; intros [X|[cl [l [[] _]]]]; exact X|].
  cbn [cnf_required]. destruct (unions_spec (map snd cl) [] (NoDup_nil _)) as [T0 [E0 [N0 H0]]]. rewrite E0. cbn [app] in *. destruct (union_spec T0 S ND) as [T1 [E1 [N1 H1]]]. rewrite E1.
  destruct (IH _ N1) as [T2 [E2 [N2 H2]]]. rewrite <- app_assoc in E2, N2. exists (T1 ++ T2). split; [exact E2|]. split; [exact N2|].
  intros id. rewrite app_assoc, H2, H1, H0. split.
  - intros [[X|[[]|[e [I X]]]]|[cl' [l [I [I' X]]]]]; [tauto| |right; exists cl', l; cbn; tauto]. apply in_map_iff in I. destruct I as [l [<- I]]. right. exists cl, l. cbn. tauto.
  - intros [X|[cl' [l [[<-|I] [I' X]]]]]; [tauto| |right; exists cl', l; tauto]. left. right. right. exists (snd l). split; [apply in_map, I'|exact X].
Qed.
Lemma j_required_spec j : exists T, j_required j = Some T /\ NoDup T /\
  forall id, In id T <-> match j with JColumns ks => exists k, In k ks /\ (id = fst k \/ id = snd k) | JCnf f => exists cl l, In cl f /\ In l cl /\ In id (uses (snd l)) end.
Proof.
  destruct j as [ks|f]; cbn [j_required].
  - assert (G : forall S, NoDup S -> exists T, (fix go ks (S : schema) := match ks with [] => Some S | k :: ks' => match union S (add_name [fst k] (snd k)) with Some S' => go ks' S' | None => None end end) ks S = Some T /\ NoDup T /\
      forall id, In id T <-> In id S \/ exists k, In k ks /\ (id = fst k \/ id = snd k)).
    { induction ks as [|k ks IH]; intros S ND; [exists S; split; [reflexivity|]; split; [exact ND|]; intros id; split; [tauto|]; intros [X|[k [[] _]]]; exact X|].
      destruct (add_name_spec [fst k] (snd k)) as [NA HA]; [constructor; [intros []|constructor]|]. destruct (union_spec (add_name [fst k] (snd k)) S ND) as [T1 [E1 [N1 H1]]]. rewrite E1.
      destruct (IH _ N1) as [T [E [NT HT]]]. exists T. split; [exact E|]. split; [exact NT|]. intros id. rewrite HT, H1, HA. cbn [In]. split.
      - intros [[X|[[X|[]]|X]]|[k' [I X]]]; [tauto|right; exists k; split; [tauto|left; congruence]|right; exists k; tauto|right; exists k'; tauto].
      - intros [X|[k' [[<-|I] [X|X]]]]; [tauto|left; right; left; left; congruence|tauto|right; exists k'; tauto|right; exists k'; tauto]. }
    destruct (G [] (NoDup_nil _)) as [T [E [NT HT]]]. exists T. split; [exact E|]. split; [exact NT|]. intros id. rewrite HT. cbn. tauto.
  - destruct (cnf_required_spec f [] (NoDup_nil _)) as [T [E [NT HT]]]. exists T. split; [exact E|]. split; [exact NT|]. intros id. rewrite (HT id). cbn. tauto.
Qed.

(** ** what stays *)
Definition mask_of (R : schema) (top : bool) (ids : list ident) : list bool := map (fun id => if top then true else mem R id) ids.
Lemma keep_columns_spec R top es S : (top = false -> NoDup R) -> length es = length S -> keep_columns R top es S = Some (pick (mask_of R top S) es, pick (mask_of R top S) S).
Proof.
  intros NR. revert S. induction es as [|e es IH]; intros [|id S] H; cbn [keep_columns length] in *; try discriminate; [reflexivity|]. rewrite IH by lia. unfold mask_of. cbn [map pick].
  destruct top; [reflexivity|]. rewrite (has_spec R id (NR eq_refl)). destruct (mem R id); reflexivity.
Qed.
Lemma keep_aggs_spec R top aggs S : (top = false -> NoDup R) -> NoDup S -> incl (map agg_id aggs) S -> keep_aggs R top aggs S = Some (pick (mask_of R top (map agg_id aggs)) aggs).
Proof.
  intros NR NS. induction aggs as [|a aggs IH]; intros H; [reflexivity|]. unfold mask_of. cbn [keep_aggs map pick]. fold (mask_of R top (map agg_id aggs)).
  rewrite (IH (fun x Hx => H x (or_intror Hx))). rewrite (has_spec S (agg_id a) NS). replace (mem S (agg_id a)) with true by (symmetry; apply mem_in, H; left; reflexivity).
  destruct top; [reflexivity|]. rewrite (has_spec R _ (NR eq_refl)). destruct (mem R (agg_id a)); reflexivity.
Qed.
Lemma pick_mask R top ids : pick (mask_of R top ids) ids = if top then ids else filter (mem R) ids.
Proof. unfold mask_of. induction ids as [|id ids IH]; cbn [map pick filter]; [destruct top; reflexivity|]. rewrite IH. destruct top; [reflexivity|]. destruct (mem R id); reflexivity. Qed.
Lemma mask_length R top ids : length (mask_of R top ids) = length ids. Proof. apply map_length. Qed.
