(** * What a sort order says about the rows *)
From Coq Require Import List Bool Sorted.
From Verif Require Import Condition.
Import ListNotations.

(** A total order of values. *)
Definition linear {V} (leb : V -> V -> bool) : Prop :=
  (forall a b, leb a b = true \/ leb b a = true) /\ (forall a b, leb a b = true -> leb b a = true -> a = b) /\ (forall a b c, leb a b = true -> leb b c = true -> leb a c = true).
Definition row (V : Type) := Identifier -> V.
Section Spec.
  Context {V : Type} (leb : V -> V -> bool).
  (** [r] may stand before [s]. *)
  Fixpoint before (os : orders) (r s : row V) : Prop :=
    match os with
    | [] => True
    | (a, o) :: os => (r a <> s a /\ match o with O_ASC => leb (r a) (s a) = true | O_DESC => leb (s a) (r a) = true | O_UNDEF => True end) \/ (r a = s a /\ before os r s)
    end.
  Definition sorted_by (os : orders) (rows : list (row V)) : Prop := StronglySorted (before os) rows.
  (** The rows fulfil a promised sort order: attributes of undefined order have one value only. *)
  Definition fulfils (os : orders) (rows : list (row V)) : Prop :=
    (forall a, In (a, O_UNDEF) os -> forall r s, In r rows -> In s rows -> r a = s a) /\ sorted_by os rows.
  (** Rows with the same keys are next to each other. *)
  Definition same (keys : list Identifier) (r s : row V) : Prop := forall k, In k keys -> r k = s k.
  Definition grouped (keys : list Identifier) (rows : list (row V)) : Prop :=
    forall l1 r l2 s l3, rows = l1 ++ r :: l2 ++ s :: l3 -> same keys r s -> forall t, In t l2 -> same keys r t.
End Spec.
Definition keys_of (os : orders) : list Identifier := map fst os.
Definition defined (os : orders) : Prop := forall a o, In (a, o) os -> o <> O_UNDEF.
(** A requested order, as in ORDER BY. *)
Definition requested (order_by : list (Identifier * bool)) : orders := map (fun p => (fst p, if snd p : bool then O_ASC else O_DESC)) order_by.
