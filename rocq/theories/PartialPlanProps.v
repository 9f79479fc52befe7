(** * Theorems about complete partial plans *)
From Coq Require Import NArith List Bool Permutation String Ascii Lia Arith.
From Verif Require Import ArithProps PartialPlan PartialPlanSpec PartialPlanProofs.
Import ListNotations.
Local Open Scope nat_scope.

Lemma ones_tree : forall PT n, 1 <= n -> plan PT (N.ones (N.of_nat n)) -> exists t, wf t /\ of_PT PT t /\ root t = N.ones (N.of_nat n) /\ (n = 1 <-> t = Leaf 0).
Proof.
  intros PT n L P. destruct (plan_tree _ _ P) as (t & W & O & E). exists t. split; [auto|]. split; [auto|]. split; [auto|].
  assert (B0 : N.testbit (root t) 0 = true) by (rewrite E; apply N.ones_spec_low; lia). split.
  - intros ->. destruct t as [i|l r]; [|exfalso; apply (node_not_pow l r 0 W); exact E]. f_equal. cbn [root] in B0. rewrite N.pow2_bits_eqb in B0. now apply N.eqb_eq in B0.
  - intros ->. destruct n as [|[|n]]; [lia|auto|]. assert (B1 : N.testbit (root (Leaf 0)) 1 = true) by (rewrite E; apply N.ones_spec_low; lia). discriminate.
Qed.

(** Every complete partial plan is found exactly once (in some order of its parts), and nothing else; no assertion fails. *)
Theorem C58_enumerates : forall PT n, 1 <= n -> plan PT (N.ones (N.of_nat n)) ->
  exists found, (exists rounds, forall fuel, rounds <= fuel -> for_each_complete_partial_plan PT n fuel = Some found) /\
    (forall c, In c found -> complete_partial_plan PT (N.ones (N.of_nat n)) c) /\
    (forall p, complete_partial_plan PT (N.ones (N.of_nat n)) p -> exists c, In c found /\ Permutation p c) /\
    NoDup found /\ (forall c c', In c found -> In c' found -> Permutation c c' -> c = c').
Proof.
  intros PT n L P. destruct (ones_tree PT n L P) as (t & W & O & E & One). exists (cuts t). split.
  - destruct n as [|[|n]]; [lia| |].
    + exists 0. intros fuel _. rewrite (proj1 One eq_refl). reflexivity.
    + destruct (run_tree PT t W O) as (fuel & R). exists fuel. intros k Lk. specialize (R k Lk). unfold for_each_complete_partial_plan. rewrite <- E.
      destruct t as [i|l r]; [exfalso; cbn [root] in E; assert (B : N.testbit (2 ^ i)%N 0 = true /\ N.testbit (2 ^ i)%N 1 = true) by (rewrite E; split; apply N.ones_spec_low; lia);
        rewrite !N.pow2_bits_eqb in B; destruct B as [B0 B1]; apply N.eqb_eq in B0, B1; congruence|]. destruct O as (Er & _). rewrite Er. exact R.
  - rewrite <- E. split; [intros c I; now apply (cuts_sound PT)|]. split; [intros p Cp; now apply (cuts_complete PT)|]. split; [now apply (cuts_NoDup PT)|]. intros c c' I I' Pm. now apply (cuts_perm PT t).
Qed.
(** Without relations nothing is found. *)
Theorem C58_no_relations : forall PT fuel, for_each_complete_partial_plan PT 0 fuel = Some [].
Proof. reflexivity. Qed.
(** The first one is the final plan itself. *)
Theorem C58_first : forall PT n, 1 <= n -> plan PT (N.ones (N.of_nat n)) ->
  exists rounds, forall fuel, rounds <= fuel -> exists rest, for_each_complete_partial_plan PT n fuel = Some ([N.ones (N.of_nat n)] :: rest).
Proof.
  intros PT n L P. destruct (ones_tree PT n L P) as (t & W & O & E & One). destruct n as [|[|n]]; [lia| |].
  - exists 0. intros fuel _. exists []. reflexivity.
  - destruct (run_tree PT t W O) as (fuel & R). exists fuel. intros k Lk. specialize (R k Lk). unfold for_each_complete_partial_plan. rewrite <- E.
    destruct t as [i|l r]; [exfalso; cbn [root] in E; assert (B : N.testbit (2 ^ i)%N 0 = true /\ N.testbit (2 ^ i)%N 1 = true) by (rewrite E; split; apply N.ones_spec_low; lia);
      rewrite !N.pow2_bits_eqb in B; destruct B as [B0 B1]; apply N.eqb_eq in B0, B1; congruence|]. destruct O as (Er & _). rewrite Er. cbn [fst snd]. cbn [cuts root] in R |- *. eauto.
Qed.

(** Trees are written in prefix notation. *)
Theorem C58_notation : forall PT source s, plan PT s -> exists text, notation PT source s text /\
  exists rounds, forall fuel, rounds <= fuel -> write_tree PT (fun i => source (N.of_nat i)) fuel s = text.
Proof.
  intros PT source s P. destruct (plan_tree _ _ P) as (t & W & O & <-). clear P. induction t as [i|l IHl r IHr].
  - exists (source i). split; [constructor|]. exists 1. intros [|fuel] L; [lia|]. cbn [write_tree root]. rewrite singleton_leaf. rewrite N.log2_pow2 by lia. now rewrite N2Nat.id.
  - pose proof W as (_ & Wl & Wr). pose proof O as (E & Ol & Or). destruct (IHl Wl Ol) as (tl & Nl & fl & Rl), (IHr Wr Or) as (tr & Nr & fr & Rr).
    exists ("@ " ++ tl ++ " " ++ tr)%string. split; [eapply not_join; [intros i; now apply node_not_pow|exact E|auto|auto]|]. exists (S (fl + fr)). intros [|fuel] L; [lia|].
    cbn [write_tree]. rewrite (singleton_node l r W), E. cbn [fst snd]. rewrite Rl, Rr by lia. reflexivity.
Qed.

Lemma append_assoc : forall a b c : string, ((a ++ b) ++ c = a ++ (b ++ c))%string.
Proof. induction a; intros; cbn; [auto|]. now rewrite IHa. Qed.
Lemma append_nil : forall a : string, (a ++ "" = a)%string.
Proof. induction a; cbn; [auto|]. now rewrite IHa. Qed.
Lemma write_trees_json : forall name p, write_trees name true p = concat ", " (map (fun s => String (ascii_of_nat 34) s ++ String (ascii_of_nat 34) "")%string (map name p)).
Proof.
  assert (G : forall name p, write_trees name false p = match p with [] => ""%string | _ => (", " ++ concat ", " (map (fun s => String (ascii_of_nat 34) s ++ String (ascii_of_nat 34) "")%string (map name p)))%string end).
  { intros name. induction p as [|s p IH]; [reflexivity|]. cbn [write_trees map concat]. rewrite IH. destruct p as [|s' p]; unfold quote; cbn [map concat append].
    - now rewrite ?append_assoc.
    - now rewrite ?append_assoc. }
  intros name [|s p]; [reflexivity|]. cbn [write_trees map concat]. rewrite G. destruct p as [|s' p]; unfold quote; cbn [map concat append]; now rewrite ?append_assoc.
Qed.
Lemma write_plan_json : forall name f p, write_partial_plan name f p = ((if f then "" else ",") ++ json_plan (map name p))%string.
Proof. intros. unfold write_partial_plan, json_plan. rewrite write_trees_json. reflexivity. Qed.
(** The first output of the process is the JSON array of the plans. *)
Theorem C58_json : forall name ps, fst (write_partial_plans_JSON name true ps) = json (map (map name) ps).
Proof.
  assert (G : forall name ps, fst (write_all name false ps) = match ps with [] => ""%string | _ => ("," ++ concat "," (map json_plan (map (map name) ps)))%string end).
  { intros name. induction ps as [|p ps IH]; [reflexivity|]. cbn [write_all]. destruct (write_all name false ps) as [o f]. cbn [fst] in *. subst o. rewrite write_plan_json. destruct ps as [|p' ps]; cbn [map concat append].
    - now rewrite ?append_nil.
    - rewrite ?append_assoc. reflexivity. }
  intros name ps. unfold write_partial_plans_JSON, json. destruct ps as [|p ps]; [reflexivity|]. cbn [write_all]. pose proof (G name ps) as E. destruct (write_all name false ps) as [o f]. cbn [fst] in *. subst o. rewrite write_plan_json.
  destruct ps as [|p' ps]; cbn [map concat append]; rewrite ?append_nil, ?append_assoc; reflexivity.
Qed.
(** Every later output begins with a comma after the bracket, [is_first] being static: it is no JSON array. *)
Theorem C58_refuted_json_second : forall name name' p ps p' ps',
  let (_, is_first) := write_partial_plans_JSON name true (p :: ps) in
  exists rest, fst (write_partial_plans_JSON name' is_first (p' :: ps')) = ("[," ++ rest)%string.
Proof.
  assert (G : forall name ps, snd (write_all name false ps) = false) by (intros name; induction ps as [|p ps IH]; [auto|]; cbn [write_all]; destruct (write_all name false ps); auto).
  intros. unfold write_partial_plans_JSON. cbn [write_all]. pose proof (G name ps) as E. destruct (write_all name false ps) as [o f]. cbn [snd] in E. subst f.
  destruct (write_all name' false ps') as [o' f']. cbn [fst]. rewrite write_plan_json. rewrite ?append_assoc. cbn [append]. eexists. reflexivity.
Qed.

(** ** An example: (A B) (C D) *)
Definition PT1 (s : N) : N * N := if (s =? 15)%N then (3, 12)%N else if (s =? 3)%N then (1, 2)%N else if (s =? 12)%N then (4, 8)%N else (0, 0)%N.
Example C58_ex_plan : plan PT1 (N.ones (N.of_nat 4)).
Proof.
  change (plan PT1 15). apply plan_join with 3%N 12%N; try reflexivity.
  - apply plan_join with 1%N 2%N; try reflexivity; [exact (plan_relation PT1 0)|exact (plan_relation PT1 1)].
  - apply plan_join with 4%N 8%N; try reflexivity; [exact (plan_relation PT1 2)|exact (plan_relation PT1 3)].
Qed.
Example C58_ex : for_each_complete_partial_plan PT1 4 100 = Some [[15]; [12; 3]; [12; 2; 1]; [8; 4; 3]; [8; 4; 2; 1]]%N.
Proof. vm_compute. reflexivity. Qed.
Example C58_ex_text : fst (write_partial_plans_JSON (write_tree PT1 (fun i => String (ascii_of_nat (65 + i)) "") 10) true [[15]; [12; 3]]%N)
  = json [["@ @ A B @ C D"%string]; ["@ C D"%string; "@ A B"%string]].
Proof. vm_compute. reflexivity. Qed.
