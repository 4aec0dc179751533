(* Spec_Mslib.v - what a MicroSIRIL library says, in terms of its lines. *)
From Verif Require Import Base M_Bell M_Mslib Spec_Dim Spec_Litelib Spec_Basename.
Set Implicit Arguments.
Unset Strict Implicit.
Open Scope nat_scope.

Definition is_sp (c : ascii) : bool := nat_of_ascii c =? 32.
Definition no_sp (s : list ascii) : Prop := ~ In (chr " ") s.
Definition letter (c : ascii) : bool := is_upper c || is_lower c.

(* the number at the front of a text: 0 when there is none *)
Definition leading_int (t : list ascii) : Z :=
  match drop_while is_space t with
  | c :: u => if nat_of_ascii c =? 45 then (- dec_value (take_while is_digit u))%Z
              else if nat_of_ascii c =? 43 then dec_value (take_while is_digit u)
              else dec_value (take_while is_digit (c :: u))
  | [] => 0%Z
  end.
(* a header line starts with a star; the bells it gives are what follows the letters after its
   first space, if anything does *)
Definition header (l : list ascii) : Prop := exists t, l = chr "*" :: t.
Definition header_text (l : list ascii) : list ascii := drop_while letter (tl (drop_while (fun c => negb (is_sp c)) l)).
Definition header_bells (l : list ascii) (b : Z) : Z := match header_text l with [] => b | t => leading_int t end.
(* the reading stops at a line of the Central Council's, or one that has not two spaces *)
Definition cc_line (l : list ascii) : Prop := occurs (str "Name") l /\ occurs (str "No.") l.
Definition three_fields (l name code p : list ascii) : Prop :=
  no_sp name /\ no_sp code /\ no_sp p /\ l = name ++ chr " " :: code ++ chr " " :: p.
Definition stops (l : list ascii) : Prop := ~ header l /\ l <> [] /\ (cc_line l \/ forall name code p, ~ three_fields l name code p).

(* the place notation: what follows the second space without white space at its end and, unless it
   starts with a plus, the lead head change: the code if it ends in z, or 2nds or 1sts place *)
Definition no_end_space (s : list ascii) : list ascii := rev (drop_while is_space (rev s)).
Definition seconds_code (code : list ascii) : Prop := exists c t, code = c :: t /\ In c (str "abcdefpq").
Inductive ms_notation (code p : list ascii) : list ascii -> Prop :=
| mn_plus t : no_end_space p = chr "+" :: t -> ms_notation code p (no_end_space p)
| mn_z q : (forall t, no_end_space p <> chr "+" :: t) -> code = q ++ [chr "z"] -> ms_notation code p (no_end_space p ++ chr "," :: q)
| mn_seconds : (forall t, no_end_space p <> chr "+" :: t) -> (forall q, code <> q ++ [chr "z"]) -> seconds_code code ->
    ms_notation code p (no_end_space p ++ str ",2")
| mn_firsts : (forall t, no_end_space p <> chr "+" :: t) -> (forall q, code <> q ++ [chr "z"]) -> ~ seconds_code code ->
    ms_notation code p (no_end_space p ++ str ",1").

(* the entries of a list of lines, b bells at first: bells, name, place notation *)
Inductive ms_entries : Z -> list (list ascii) -> list (Z * list ascii * list ascii) -> Prop :=
| ms_nil b : ms_entries b [] []
| ms_blank b ls es : ms_entries b ls es -> ms_entries b ([] :: ls) es
| ms_head b l ls es : header l -> (int_min <= header_bells l b <= int_max)%Z -> ms_entries (header_bells l b) ls es -> ms_entries b (l :: ls) es
| ms_stop b l ls : stops l -> ms_entries b (l :: ls) []
| ms_take b l ls es name code p q : ~ header l -> ~ cc_line l -> three_fields l name code p -> ms_notation code p q -> ms_entries b ls es ->
    ms_entries b (l :: ls) ((b, name, q) :: es).
(* the lines are read as far as a header whose number is too big for an int *)
Inductive ms_overflow : Z -> list (list ascii) -> Prop :=
| mo_here b l ls : header l -> ~ (int_min <= header_bells l b <= int_max)%Z -> ms_overflow b (l :: ls)
| mo_blank b ls : ms_overflow b ls -> ms_overflow b ([] :: ls)
| mo_head b l ls : header l -> (int_min <= header_bells l b <= int_max)%Z -> ms_overflow (header_bells l b) ls -> ms_overflow b (l :: ls)
| mo_take b l ls name code p : ~ header l -> ~ cc_line l -> three_fields l name code p -> ms_overflow b ls -> ms_overflow b (l :: ls).
(* what an entry answers *)
Definition ms_says (e : ms_entry) (v : Z * list ascii * list ascii) : Prop :=
  let '(b, n, q) := v in me_b e = b /\ ms_name e = Ret n /\ ms_pn e = Ret q.
