(** * What a command line says *)
From Coq Require Import Arith List Bool ZArith.
From Verif Require Import ArgParser.
Import ListNotations.

(** ** Values *)
(** Decimal numerals *)
Inductive numeral : str -> Z -> Prop :=
| N_nil : numeral [] 0
| N_snoc ds z d : numeral ds z -> d < 10 -> numeral (ds ++ [48 + d]) (10 * z + Z.of_nat d).
Definition space (c : nat) : Prop := In c [32; 9; 10; 11; 12; 13].
Definition no_digit_first (s : str) : Prop := match s with [] => True | c :: _ => c < 48 \/ 57 < c end.
(** After white space and a sign there is a number; what follows it does not matter. *)
Inductive says : str -> Z -> Prop :=
| S_plain ws ds rest z : Forall space ws -> ds <> [] -> numeral ds z -> no_digit_first rest -> says (ws ++ ds ++ rest) z
| S_plus ws ds rest z : Forall space ws -> ds <> [] -> numeral ds z -> no_digit_first rest -> says (ws ++ 43 :: ds ++ rest) z
| S_minus ws ds rest z : Forall space ws -> ds <> [] -> numeral ds z -> no_digit_first rest -> says (ws ++ 45 :: ds ++ rest) (- z).
(** The parts joined by commas *)
Fixpoint join (l : list str) : str := match l with [] => [] | [p] => p | p :: l' => p ++ 44 :: join l' end.
Definition no_comma (p : str) : Prop := ~ In 44 p.

Inductive value_of : kind -> str -> value -> Prop :=
| V_signed w s z : says s z -> (- 2 ^ (w - 1) <= z < 2 ^ (w - 1))%Z -> value_of (KSigned w) s (VInt z)
| V_unsigned w s x : says s x -> (- 2 ^ 64 < x < 2 ^ 64)%Z -> (x mod 2 ^ 64 < 2 ^ w)%Z -> value_of (KUnsigned w) s (VInt (x mod 2 ^ 64))
| V_string s : value_of KString s (VStr s)
| V_empty : value_of KList [] (VList [])
| V_list l : join l <> [] -> Forall no_comma l -> value_of KList (join l) (VList l).
Definition good_kind (k : kind) : Prop := match k with KSigned w => (1 <= w <= 64)%Z | KUnsigned w => (0 <= w <= 64)%Z | _ => True end.

(** ** Options *)
Definition names (o : opt) : list str := match short_name o with Some n => [n] | None => [] end ++ match long_name o with Some n => [n] | None => [] end.
(** [n] is a name of option [i], which is of this kind. *)
Definition named (opts : list opt) (n : str) (i : nat) (k : kind) : Prop := exists o, nth_error opts i = Some o /\ In n (names o) /\ o_kind o = k.
Definition good_options (opts : list opt) : Prop := NoDup (flat_map names opts) /\ Forall (fun o => good_kind (o_kind o)) opts.

(** ** Command lines *)
Inductive item :=
| Flag (n : str) (i : nat)
| Valued (n v : str) (i : nat) (x : value)
| Unknown (n : str)
| Positional (a : str).
Definition render (it : item) : list str := match it with Flag n _ => [n] | Valued n v _ _ => [n; v] | Unknown n => [n] | Positional a => [a] end.
Definition events_of (it : item) : list (nat * value) := match it with Flag _ i => [(i, VBool)] | Valued _ _ i x => [(i, x)] | _ => [] end.
Definition args_of (it : item) : list str := match it with Positional a => [a] | _ => [] end.
Definition not_named (opts : list opt) (n : str) : Prop := forall i k, ~ named opts n i k.
Definition good_item (opts : list opt) (it : item) : Prop :=
  match it with
  | Flag n i => n <> [45; 45] /\ named opts n i KBool
  | Valued n v i x => n <> [45; 45] /\ exists k, k <> KBool /\ named opts n i k /\ value_of k v x
  | Unknown n => n <> [45; 45] /\ not_named opts n /\ exists s, n = 45 :: 45 :: s
  | Positional a => not_named opts a /\ forall s, a <> 45 :: 45 :: s
  end.
(** The end of the command line: nothing, or two dashes and further arguments *)
Inductive ending : list str -> list str -> Prop :=
| End_nothing : ending [] []
| End_dashes args : ending ([45; 45] :: args) args.
