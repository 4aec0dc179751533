(* Spec_Gsiril.v - specification for gsiril: the block of changes a static program stands for,
   the rows it produces, and when they prove true. *)
From Verif Require Import Base M_Bell M_Change M_Row M_Proof M_Gsiril Spec_Proof.
Set Implicit Arguments.
Unset Strict Implicit.
Open Scope nat_scope.

(* no row more than n times *)
Definition at_most (n : Z) (rows : list row) : Prop := forall r, (Z.of_nat (count_occ req rows r) <= n)%Z.

(* the rows got by ringing the changes one after the other from r (not counting r) *)
Inductive rung : row -> list change -> list row -> Prop :=
| rung_nil r : rung r [] []
| rung_cons r ch cs r' rows : row_mul_change r ch = Ret r' -> rung r' cs rows -> rung r (ch :: cs) (r' :: rows).

(* rows each got from the one before by ringing a change or by a transposition *)
Definition moved (r r' : row) : Prop := (exists ch, row_mul_change r ch = Ret r') \/ (exists t, mul r t = Ret r').
Inductive follows : row -> list row -> Prop :=
| follows_nil r : follows r []
| follows_cons r r' rows : moved r r' -> follows r' rows -> follows r (r' :: rows).

(* Replacing part of a block: the replacement is laid over as many changes as it has,
   ending at the end of the block ... *)
Inductive overlay : list change -> list change -> list change -> Prop :=
| over_end pre old cs : pre ++ old <> [] -> length old = length cs -> overlay cs (pre ++ old) (pre ++ cs).
(* ... starting at the off-th change ... *)
Inductive overlay_at (off : Z) : list change -> list change -> list change -> Prop :=
| over_at pre old post cs : Z.of_nat (length pre) = (off - 1)%Z -> length old = length cs ->
    overlay_at off cs (pre ++ old ++ post) (pre ++ cs ++ post).
(* ... or starting where off + 1 changes are left *)
Inductive overlay_from_end (off : Z) : list change -> list change -> list change -> Prop :=
| over_from_end pre old post cs : Z.of_nat (length (old ++ post)) = (off + 1)%Z -> (0 <= off)%Z ->
    length old = length cs -> overlay_from_end off cs (pre ++ old ++ post) (pre ++ cs ++ post).

(* What a program without tests, assignments or output stands for.  The symbols are looked
   up in [look].  [block] is for expressions that are blocks of changes (they can be replaced
   in and asked for their changes), not just executable. *)
Inductive means (look : text -> option expr) : bool -> expr -> list change -> Prop :=
| m_nop : means look false ENop []
| m_pn k cs nm : means look k (EPn cs nm) cs
| m_list k a b x y : means look k a x -> means look k b y -> means look k (EList a b) (x ++ y)
| m_repeat k n a x : n <> (-1)%Z -> means look k a x -> means look k (ERepeat n a) (concat (repeat x (Z.to_nat n)))
| m_times_l n a x : n <> (-1)%Z -> (int_min <= n <= int_max)%Z -> means look false a x ->
    means look false (EMult (EInt n) a) (concat (repeat x (Z.to_nat n)))
| m_times_r n a x : n <> (-1)%Z -> (int_min <= n <= int_max)%Z -> means look false a x ->
    means look false (EMult a (EInt n)) (concat (repeat x (Z.to_nat n)))
| m_reverse k a x : means look k a x -> means look k (EReverse a) (rev x)
| m_sym k n e x : n <> str "loop_counter" -> look n = Some e -> means look k e x -> means look k (ESym n) x
| m_merge k b r x y : means look true b x -> replaces look r x y -> means look k (EMerge b r) y
with replaces (look : text -> option expr) : expr -> list change -> list change -> Prop :=
| r_pn cs nm x y : overlay cs x y -> replaces look (EPn cs nm) x y
| r_at a cs off x y : means look true a cs -> overlay_at off cs x y -> replaces look (EReplace a (EInt off) true) x y
| r_end a cs off x y : means look true a cs -> overlay_from_end off cs x y -> replaces look (EReplace a (EInt off) false) x y
| r_sym n e x y : n <> str "loop_counter" -> look n = Some e -> replaces look e x y -> replaces look (ESym n) x y.

Scheme means_ind' := Induction for means Sort Prop
  with replaces_ind' := Induction for replaces Sort Prop.
Combined Scheme means_replaces_ind from means_ind', replaces_ind'.

(* the symbols seen in a state are those of [look], but for the loop counter *)
Definition sees (look : text -> option expr) (s : st) : Prop :=
  forall n, n <> str "loop_counter" -> find_sym s n = look n.

(* executing the symbol always ends with abort (and defines no symbols), or always ends *)
Definition aborts (c : cfg) (look : text -> option expr) (n : text) : Prop :=
  exists e N, look n = Some e /\ forall fuel s, N <= fuel -> sees look s -> (0 <= g_nodes (s_g s))%Z ->
    exists s', gs_run c fuel (QExec e true) s = Ret (s', inr SAbort) /\ sees look s'.
Definition settles (c : cfg) (look : text -> option expr) (n : text) : Prop :=
  exists e N, look n = Some e /\ forall fuel s, N <= fuel -> sees look s -> (0 <= g_nodes (s_g s))%Z ->
    exists s' v, gs_run c fuel (QExec e true) s = Ret (s', v).

(* UTF-8 (RFC 3629): the bytes of a character *)
Inductive utf8_bytes : Z -> list Z -> Prop :=
| utf8_1 v : (0 <= v < 128)%Z -> utf8_bytes v [v]
| utf8_2 v : (128 <= v < 2048)%Z -> utf8_bytes v [192 + v / 64; 128 + v mod 64]%Z
| utf8_3 v : (2048 <= v < 65536)%Z -> utf8_bytes v [224 + v / 4096; 128 + v / 64 mod 64; 128 + v mod 64]%Z
| utf8_4 v : (65536 <= v < 1114112)%Z ->
    utf8_bytes v [240 + v / 262144; 128 + v / 4096 mod 64; 128 + v / 64 mod 64; 128 + v mod 64]%Z.
Definition byte_val (a : ascii) : Z := Z.of_nat (nat_of_ascii a).
(* the value of a string of hexadecimal digits *)
Definition hex_digit (a : ascii) (d : Z) : Prop :=
  (0 <= d < 16)%Z /\ In a [nth (Z.to_nat d) (str "0123456789ABCDEF") (chr "0"); nth (Z.to_nat d) (str "0123456789abcdef") (chr "0")].
Inductive hex_number : text -> Z -> Prop :=
| hex_nil : hex_number [] 0
| hex_snoc t v a d : hex_number t v -> hex_digit a d -> hex_number (t ++ [a]) (16 * v + d).
(* how a text is written in a literal *)
Definition quote_char (a : ascii) : text :=
  if Ascii.eqb a (chr "\") then [chr "\"; chr "\"]
  else if Ascii.eqb a (ascii_of_nat 34) then [chr "\"; chr "'"]
  else if Ascii.eqb a (ascii_of_nat 10) then [chr "\"; chr "n"]
  else if Ascii.eqb a (ascii_of_nat 9) then [chr "\"; chr "t"] else [a].
Definition quote (t : text) : text := flat_map quote_char t.
