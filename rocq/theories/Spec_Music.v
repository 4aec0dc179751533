(* Spec_Music.v - what a music pattern means. *)
From Verif Require Import Base M_Bell Spec_Row.

(* A pattern is a sequence of items: a named bell, ? (any bell), [..] (one of several bells),
   * (any number of bells). *)
Inductive item := Named (c : ascii) | AnyBell | OneOf (l : list ascii) | AnyBells.
Definition pattern := list item.
Definition item_text (t : item) : list ascii :=
  match t with
  | Named c => [c]
  | AnyBell => [chr "?"]
  | OneOf l => chr "[" :: l ++ [chr "]"]
  | AnyBells => [chr "*"]
  end.
Definition text (p : pattern) : list ascii := concat (map item_text p).
Definition is_star (t : item) : bool := match t with AnyBells => true | _ => false end.
Definition has_star (p : pattern) : bool := existsb is_star p.
(* the number of bells the items other than * stand for *)
Definition width (p : pattern) : nat := length (filter (fun t => negb (is_star t)) p).

Section Meaning.
Variable sym : symtab.
(* the character c names the bell b *)
Definition names (c : ascii) (b : nat) : Prop := read_char sym c = Ret b.

(* fits p r w: the bells r, in order, are those described by p, and w are those
   standing for a ? or a * *)
Inductive fits : pattern -> list nat -> list nat -> Prop :=
| fits_end : fits [] [] []
| fits_named c b p r w : names c b -> fits p r w -> fits (Named c :: p) (b :: r) w
| fits_any b p r w : fits p r w -> fits (AnyBell :: p) (b :: r) (b :: w)
| fits_one c l b p r w : In c l -> names c b -> fits p r w -> fits (OneOf l :: p) (b :: r) w
| fits_star u p r w : fits p r w -> fits (AnyBells :: p) (u ++ r) (u ++ w).
(* a pattern without * describes the beginning of a row *)
Definition matches (p : pattern) (r w : list nat) : Prop :=
  fits (if has_star p then p else p ++ [AnyBells]) r w.

(* The same, but a * that is followed by other items and by no further * stands for at
   least one bell. *)
Inductive fits1 : pattern -> list nat -> list nat -> Prop :=
| fits1_end : fits1 [] [] []
| fits1_named c b p r w : names c b -> fits1 p r w -> fits1 (Named c :: p) (b :: r) w
| fits1_any b p r w : fits1 p r w -> fits1 (AnyBell :: p) (b :: r) (b :: w)
| fits1_one c l b p r w : In c l -> names c b -> fits1 p r w -> fits1 (OneOf l :: p) (b :: r) w
| fits1_star u p r w : (p <> [] -> has_star p = false -> u <> []) ->
    fits1 p r w -> fits1 (AnyBells :: p) (u ++ r) (u ++ w).
Definition matches1 (p : pattern) (r w : list nat) : Prop :=
  fits1 (if has_star p then p else p ++ [AnyBells]) r w.

(* the symbols used are bell symbols *)
Definition item_ok (t : item) : Prop :=
  match t with
  | Named c => is_symbol sym c = true
  | OneOf l => Forall (fun c => is_symbol sym c = true) l
  | _ => True
  end.
Definition pattern_ok (p : pattern) : Prop := Forall item_ok p.
(* the bells named are among the first b *)
Definition named_in (t : item) : list ascii :=
  match t with Named c => [c] | OneOf l => l | _ => [] end.
Definition bells_below (b : nat) (p : pattern) : Prop :=
  forall t c x, In t p -> In c (named_in t) -> names c x -> x < b.

(* no bell twice in one [..] *)
Definition choices_distinct (p : pattern) : Prop :=
  forall l xs, In (OneOf l) p -> Forall2 names l xs -> NoDup xs.
(* between a * and the next there is a named bell *)
Fixpoint anchored (p : pattern) (seen : bool) : Prop :=   (* seen: no * yet, or a bell since the last *)
  match p with
  | [] => True
  | Named _ :: p => anchored p true
  | AnyBells :: p => seen = true /\ anchored p false
  | _ :: p => anchored p seen
  end.
(* a * before another * is followed by a text long enough for b bells *)
Fixpoint reach (b : nat) (p : pattern) : Prop :=
  match p with
  | [] => True
  | AnyBells :: q => (has_star q = true -> b <= width q + length (text p) + 2) /\ reach b q
  | _ :: q => reach b q
  end.
End Meaning.

(* the numbers of rows at handstroke and at backstroke with a property; the first row is
   at backstroke if back *)
Inductive tally (P : list nat -> Prop) : list (list nat) -> bool -> nat -> nat -> Prop :=
| tally_nil back : tally P [] back 0 0
| tally_hand r l h b : P r -> tally P l true h b -> tally P (r :: l) false (S h) b
| tally_back r l h b : P r -> tally P l false h b -> tally P (r :: l) true h (S b)
| tally_miss r l back h b : ~ P r -> tally P l (negb back) h b -> tally P (r :: l) back h b.

(* the bells l come together, in that order, in the row r: anywhere, first, or last *)
Definition run_anywhere (l r : list nat) : Prop := exists u v, r = u ++ l ++ v.
Definition run_first (l r : list nat) : Prop := exists v, r = l ++ v.
Definition run_last (l r : list nat) : Prop := exists u, r = u ++ l.

(* the patterns for which counts are what one expects, in rows of b bells *)
Definition clean (sym : symtab) (b : nat) (p : pattern) : Prop :=
  pattern_ok sym p /\ choices_distinct sym p /\ anchored p true /\ reach b p /\ (has_star p = false -> width p <= b).
(* a last * that is not the end of the pattern is the only one, and a bell is left for it *)
Definition open_ended (b : nat) (p : pattern) : Prop :=
  has_star p = false \/ (exists a, p = a ++ [AnyBells]) \/
  (width p < b /\ exists a q, p = a ++ AnyBells :: q /\ has_star a = false /\ has_star q = false).
