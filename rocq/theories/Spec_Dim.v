(* Spec_Dim.v - rational values and the documented text formats of dimensions. *)
From Verif Require Import Base M_Bell M_Dim.

(* in lowest terms with a positive denominator, and worth n/d of unit u *)
Definition reduced (x : dim) : Prop := (0 < dd x)%Z /\ Z.gcd (dn x) (dd x) = 1%Z.
Definition worth (x : dim) (n d : Z) : Prop := (dn x * d = n * dd x)%Z.

Definition all_digits (l : list ascii) : Prop := forallb is_digit l = true /\ l <> [].
Definition all_space (l : list ascii) : Prop := forallb is_space l = true.
(* the number written by decimal digits *)
Fixpoint dec_value (l : list ascii) : Z :=
  match l with [] => 0 | c :: t => digit_val c * 10 ^ Z.of_nat (length t) + dec_value t end%Z.

(* after the unit the text ends or white space follows *)
Definition ends (l : list ascii) : Prop := match l with [] => True | c :: _ => is_space c = true end.

(* [text] writes the number N/D *)
Inductive writes : list ascii -> Z -> Z -> Prop :=
| w_int ds : all_digits ds -> writes ds (dec_value ds) 1
| w_dec ds fs : all_digits ds -> forallb is_digit fs = true ->
    writes (ds ++ chr "." :: fs) (dec_value (ds ++ fs)) (10 ^ Z.of_nat (length fs))
| w_frac ns w1 w2 ms : all_digits ns -> all_digits ms -> all_space w1 -> all_space w2 ->
    writes (ns ++ w1 ++ chr "/" :: w2 ++ ms) (dec_value ns) (dec_value ms)
| w_mixed ds w0 ns w1 w2 ms : all_digits ds -> all_space w0 -> w0 <> [] ->
    all_digits ns -> all_digits ms -> all_space w1 -> all_space w2 ->
    writes (ds ++ w0 ++ ns ++ w1 ++ chr "/" :: w2 ++ ms)
      (dec_value ds * dec_value ms + dec_value ns) (dec_value ms).

(* an int other than INT_MIN *)
Definition in_int (z : Z) : Prop := (- int_max <= z <= int_max)%Z.
(* a name of the unit, from the table of dimension.cpp:41-52 *)
Definition unit_word (w : list ascii) (u : units) : Prop := In (w, u) unit_names.
