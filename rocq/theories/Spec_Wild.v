(* Spec_Wild.v - which rows a pattern stands for, and the patterns counted correctly. *)
From Verif Require Import Base M_Bell Spec_Row Spec_Music.
Open Scope nat_scope.

(* there are exactly n things with the property P *)
Definition Card {A : Type} (P : A -> Prop) (n : nat) : Prop :=
  exists l, NoDup l /\ (forall x, In x l <-> P x) /\ length l = n.

(* the rows on b bells that the pattern p describes *)
Definition described (sym : symtab) (b : nat) (p : pattern) (r : list nat) : Prop :=
  is_row r /\ length r = b /\ exists w, matches sym p r w.

(* the bells named outside [..] *)
Definition fixed_of (t : item) : list ascii := match t with Named c => [c] | _ => [] end.
Definition fixed (p : pattern) : list ascii := concat (map fixed_of p).
(* a [..] offers no bell that is named later in the pattern *)
Definition choices_free (p : pattern) : Prop :=
  forall a l z c, p = a ++ OneOf l :: z -> In c l -> ~ In c (fixed z).
(* a bell is always written with the same character *)
Definition one_spelling (sym : symtab) (p : pattern) : Prop :=
  forall t t' c c' x, In t p -> In t' p -> In c (named_in t) -> In c' (named_in t') -> names sym c x -> names sym c' x -> c = c'.
(* between a * and the next there is a named bell, unless there is nothing *)
Definition fixed_between (p : pattern) : Prop :=
  forall a q z, p = a ++ AnyBells :: q ++ AnyBells :: z -> has_star q = false -> q <> [] -> fixed q <> [].

Definition countable (sym : symtab) (b : nat) (p : pattern) : Prop :=
  pattern_ok sym p /\ bells_below sym b p /\ width p <= b /\ NoDup (fixed p) /\
  choices_free p /\ one_spelling sym p /\ fixed_between p.
