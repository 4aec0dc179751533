(* Props_Row.v - property theorems about rows. *)
From Verif Require Import Base M_Bell M_Change M_Math M_Row Spec_Row Spec_Change Spec_Cycle
  P_Math P_Row P_Bell P_Cycle P_RowText P_Order P_Power P_Conj P_Named.
Set Implicit Arguments.
Unset Strict Implicit.
Open Scope nat_scope.

(* C01 *)
Theorem C01_row_constructor : forall d,
  (is_row d -> row_of_vector d = Ret d) /\
  (~ is_row d -> row_of_vector d = Throw RowInvalid).
Proof. exact row_of_vector_spec. Qed.
Print Assumptions C01_row_constructor.

(* from text: a permutation or an exception *)
Theorem C01_row_from_text : forall s, exists o, row_of_string default_symtab s = o /\
  match o with Ret r => is_row r | Throw e => e = RowInvalid \/ e = BellInvalid | _ => False end.
Proof. exact row_of_string_total. Qed.
Print Assumptions C01_row_from_text.

Example C01_case : row_of_vector [2;0;3;1] = Ret [2;0;3;1] /\ row_of_vector [2;0;3;0] = Throw RowInvalid
  /\ row_of_vector [1;2] = Throw RowInvalid /\ is_row [2;0;3;1].
Proof.
  repeat split; try reflexivity.
  now apply row256_by.
Qed.

(* C02 *)
Theorem C02_multiplication : forall x y, row256 x -> row256 y ->
  exists z, mul x y = Ret z /\ row256 z /\ length z = Nat.max (length x) (length y) /\
    forall i, act z i = act x (act y i).
Proof. exact mul_spec. Qed.
Print Assumptions C02_multiplication.

Example C02_case : mul [1;2;0] [1;0;2;4;3] = Ret [2;1;0;4;3].
Proof. reflexivity. Qed.

(* C03 *)
Theorem C03_assoc : forall x y z, row256 x -> row256 y -> row256 z ->
  bind (mul x y) (fun p => mul p z) = bind (mul y z) (fun p => mul x p).
Proof. exact mul_assoc. Qed.
Print Assumptions C03_assoc.

Theorem C03_identity_r : forall x n, row256 x -> n <= 256 -> mul x (rounds n) = Ret (pad n x).
Proof. exact mul_id_r. Qed.
Print Assumptions C03_identity_r.

Theorem C03_identity_l : forall x n, row256 x -> n <= 256 -> mul (rounds n) x = Ret (pad n x).
Proof. exact mul_id_l. Qed.
Print Assumptions C03_identity_l.

Theorem C03_inverse : forall x, row256 x -> exists z, inverse x = Ret z /\ row256 z /\
  length z = length x /\
  mul x z = Ret (rounds (length x)) /\ mul z x = Ret (rounds (length x)).
Proof. exact mul_inverse. Qed.
Print Assumptions C03_inverse.

Theorem C03_division : forall x y, row256 x -> row256 y ->
  div x y = bind (inverse y) (fun z => mul x z).
Proof. exact div_mul_inverse. Qed.
Print Assumptions C03_division.

Theorem C03_division_cancels : forall x y, row256 x -> row256 y ->
  bind (div x y) (fun d => mul d y) = Ret (pad (length y) x).
Proof. exact div_mul. Qed.
Print Assumptions C03_division_cancels.

Theorem C03_rounds : forall n, n <= 256 -> row256 (rounds n) /\ rounds n = id_row n.
Proof. exact rounds_row256. Qed.
Print Assumptions C03_rounds.

Example C03_case : div [1;2;0;3] [1;0] = Ret [2;1;0;3] /\ inverse [1;2;0;3] = Ret [2;0;1;3].
Proof. split; reflexivity. Qed.

(* C10 *)
Theorem C10_print_parse : forall r, row256 r -> length r <= 33 ->
  row_of_string default_symtab (row_print default_symtab r) = Ret r.
Proof. exact row_print_parse. Qed.
Print Assumptions C10_print_parse.

Theorem C10_ostream_parse : forall r, row256 r ->
  row_of_string default_symtab (row_ostream default_symtab r) = Ret r.
Proof. exact row_ostream_parse. Qed.
Print Assumptions C10_ostream_parse.

Example C10_case : row_of_string default_symtab (str "2143e") = Throw RowInvalid /\
  row_print default_symtab [1;0;3;2] = str "2143".
Proof. split; reflexivity. Qed.

(* C11 *)
Theorem C11_order : forall x, row256 x -> length x <= 58 ->
  exists k, 0 < k /\ order default_symtab x = Ret (Z.of_nat k) /\
    (forall i, act_pow x k i = i) /\
    forall j, 0 < j < k -> exists i, act_pow x j i <> i.
Proof. exact order_least_58. Qed.
Print Assumptions C11_order.

(* on any number of bells, if order returns then it returns the right number *)
Theorem C11_order_any : forall x o, row256 x -> order default_symtab x = Ret o ->
  exists k, 0 < k /\ o = Z.of_nat k /\
    (forall i, act_pow x k i = i) /\
    forall j, 0 < j < k -> exists i, act_pow x j i <> i.
Proof. exact order_least. Qed.
Print Assumptions C11_order_any.

(* a row on 129 bells whose order is 2*3*5*...*29 > INT_MAX overflows *)
Theorem C11_order_overflow_refuted : exists x, row256 x /\ length x = 129 /\ order default_symtab x = UB.
Proof. exact order_overflow. Qed.
Print Assumptions C11_order_overflow_refuted.

Theorem C11_sign_mul : forall sym x y z, row256 x -> row256 y -> mul x y = Ret z ->
  exists sx sy, sign sym x = Ret sx /\ sign sym y = Ret sy /\ sign sym z = Ret (sx * sy)%Z.
Proof. exact sign_mul. Qed.
Print Assumptions C11_sign_mul.

Theorem C11_sign_rounds : forall sym n, n <= 256 -> sign sym (rounds n) = Ret 1%Z.
Proof. exact sign_rounds. Qed.
Print Assumptions C11_sign_rounds.

Theorem C11_sign_exchange : forall sym x y a b, is_row x -> is_row y -> length y = length x ->
  a < length x -> b < length x -> a <> b ->
  (forall i, act y i = act x (transp a b i)) ->
  exists s, (s = 1 \/ s = -1)%Z /\ sign sym x = Ret s /\ sign sym y = Ret (- s)%Z.
Proof. exact sign_transp. Qed.
Print Assumptions C11_sign_exchange.

Example C11_case : order default_symtab [1;2;0;4;3] = Ret 6%Z /\ sign default_symtab [1;2;0;4;3] = Ret (-1)%Z.
Proof. split; reflexivity. Qed.

(* C12 *)
Theorem C12_cycles : forall sym x, row256 x ->
  exists cs, decomp (act x) (length x) cs /\ heads_ok 0 cs /\
    num_cycles x = Ret (length cs) /\
    cycles sym x = Ret (join_comma (map (map (to_char sym)) cs)).
Proof. exact cycles_full. Qed.
Print Assumptions C12_cycles.

Theorem C12_cycle_size : forall x b, is_row x -> b < length x ->
  exists m, cycle_size x b = Ret m /\ 0 < m <= length x /\ act_pow x m b = b /\
    forall i, 0 < i < m -> act_pow x i b <> b.
Proof. exact cycle_size_spec. Qed.
Print Assumptions C12_cycle_size.

Example C12_case : cycles default_symtab [1;2;0;4;3;5] = Ret (str "123,45,6")
  /\ cycle_size [1;2;0;4;3;5] 2 = Ret 3.
Proof. split; reflexivity. Qed.

(* C13: any exponent on up to 18 bells, exponents up to bells^2 on more. *)
Theorem C13_power : forall x n, row256 x -> (int_min < n <= int_max)%Z ->
  (Z.abs n <= Z.of_nat (length x) * Z.of_nat (length x))%Z \/ length x <= 18 ->
  exists z, power default_symtab x n = Ret z /\ row256 z /\ length z = length x /\
    ((0 <= n)%Z -> forall i, act z i = act_pow x (Z.to_nat n) i) /\
    ((n < 0)%Z -> forall i, act z (act_pow x (Z.to_nat (- n)) i) = i).
Proof. exact power_signed. Qed.
Print Assumptions C13_power.

(* From 19 bells on, an exponent between bells^2 and the order recurses forever. *)
Theorem C13_power_refuted : exists x n, row256 x /\ length x = 19 /\ n = 400%Z /\
  forall fuel, power_f fuel default_symtab x n = Diverge.
Proof. exact power_diverges. Qed.
Print Assumptions C13_power_refuted.

Theorem C13_int_min_refuted : forall x, row256 x -> power default_symtab x int_min = UB.
Proof. exact power_int_min. Qed.
Print Assumptions C13_int_min_refuted.

Example C13_case : power default_symtab [1;2;0;4;3] (-2)%Z = Ret [1;2;0;3;4]
  /\ power default_symtab [1;2;0;4;3] 1000000001%Z = Ret [2;0;1;4;3].
Proof. split; vm_compute; reflexivity. Qed.

(* C14: r conjugates x to y when y = r^-1 * x * r (conj_by). *)
Theorem C14_are_conjugate : forall srt x y, is_sort srt -> row256 x -> row256 y ->
  exists b, are_conjugate srt default_symtab x y = Ret b /\
    (b = true <-> length x = length y /\ exists r, conj_by r x y).
Proof. exact are_conjugate_spec. Qed.
Print Assumptions C14_are_conjugate.

Theorem C14_conjugator : forall srt x y, is_sort srt -> row256 x -> row256 y -> length x <= 33 ->
  (length x = length y /\ (exists r, conj_by r x y) ->
     exists r, conjugator srt default_symtab x y = Ret r /\ conj_by r x y) /\
  (~ (length x = length y /\ (exists r, conj_by r x y)) -> conjugator srt default_symtab x y = Ret []).
Proof. exact conjugator_spec. Qed.
Print Assumptions C14_conjugator.

Theorem C14_conjugator_large : forall srt x y, is_sort srt -> row256 x -> row256 y -> 33 < length x ->
  length x = length y -> (exists r, conj_by r x y) ->
  conjugator srt default_symtab x y = Throw BellInvalid.
Proof. exact conjugator_large. Qed.
Print Assumptions C14_conjugator_large.

(* insertion sort is one such sort *)
Fixpoint ins (a : list ascii) (l : list (list ascii)) : list (list ascii) :=
  match l with [] => [a] | b :: t => if length a <=? length b then a :: l else b :: ins a t end.
Example C14_case : conjugator (fold_right ins []) default_symtab [1;2;0;4;3] [1;0;3;4;2] = Ret [3;4;0;1;2] /\
  conj_by [3;4;0;1;2] [1;2;0;4;3] [1;0;3;4;2].
Proof. split; [vm_compute; reflexivity|]. split; [now apply row256_by|]. split; reflexivity. Qed.

(* C15 *)
Theorem C15_queens : forall n, n <= 256 ->
  exists r, queens n = Ret r /\ row256 r /\ r = filter Nat.even (seq 0 n) ++ filter Nat.odd (seq 0 n).
Proof. exact queens_full. Qed.
Print Assumptions C15_queens.

Theorem C15_kings : forall n, 2 < n <= 256 ->
  exists r, kings n = Ret r /\ row256 r /\ r = rev (filter Nat.even (seq 0 n)) ++ filter Nat.odd (seq 0 n).
Proof. exact kings_full. Qed.
Print Assumptions C15_kings.

Theorem C15_tittums : forall n, n <= 256 ->
  exists r, tittums n = Ret r /\ row256 r /\ length r = n /\
    (forall k, 2 * k < n -> act r (2 * k) = k) /\
    (forall k, 2 * k + 1 < n -> act r (2 * k + 1) = (n + 1) / 2 + k).
Proof. exact tittums_full. Qed.
Print Assumptions C15_tittums.

Theorem C15_reverse_rounds : forall n, n <= 256 ->
  exists r, reverse_rounds n = Ret r /\ row256 r /\ r = rev (seq 0 n).
Proof. exact reverse_rounds_full. Qed.
Print Assumptions C15_reverse_rounds.

Theorem C15_reverse_rounds3 : forall nw nh nt,
  (nt = 0 \/ nh + nw <= nt) -> nh + nw <= 256 -> nt <= 256 ->
  exists r, reverse_rounds3 nw nh nt = Ret r /\ row256 r /\
    r = seq 0 nh ++ rev (seq nh nw) ++ seq (nh + nw) ((if nt =? 0 then nh + nw else nt) - (nh + nw)).
Proof. exact reverse_rounds3_full. Qed.
Print Assumptions C15_reverse_rounds3.

(* too small a total writes out of range *)
Theorem C15_reverse_rounds3_ub : forall nw nh nt, nt <> 0 -> nh <= nt -> nt < nh + nw -> nh + nw <= 256 ->
  reverse_rounds3 nw nh nt = UB.
Proof. exact reverse_rounds3_short. Qed.
Print Assumptions C15_reverse_rounds3_ub.

Theorem C15_cyclic : forall n h c, n <= 256 ->
  length (cyclic n h c) = n /\
  forall i, act (cyclic n h c) i =
    if (h <=? i) && (i <? n) then h + Z.to_nat ((Z.of_nat (i - h) + c) mod Z.of_nat (n - h)) else i.
Proof. exact cyclic_spec. Qed.
Print Assumptions C15_cyclic.

Theorem C15_cyclic_row : forall n h c, n <= 256 -> row256 (cyclic n h c).
Proof. exact cyclic_is_row. Qed.
Print Assumptions C15_cyclic_row.

Theorem C15_pblh : forall n h, n <= 256 ->
  exists r, pblh n h = Ret r /\ row256 r /\ length r = n /\
    forall i, act r i = if i <? h then i else h + pb (n - h) (i - h).
Proof. exact pblh_spec. Qed.
Print Assumptions C15_pblh.

Example C15_case : queens 6 = Ret [0;2;4;1;3;5] /\ kings 6 = Ret [4;2;0;1;3;5] /\
  tittums 6 = Ret [0;3;1;4;2;5] /\ pblh 8 1 = Ret [0;2;4;1;6;3;7;5] /\ cyclic 6 1 (-1)%Z = [0;5;1;2;3;4] /\
  reverse_rounds3 3 1 6 = Ret [0;3;2;1;4;5] /\ map (pb 7) (seq 0 7) = [1;3;0;5;2;6;4].
Proof. repeat split; reflexivity. Qed.

(* C16 *)
Theorem C16_ispblh : forall x h, row256 x ->
  exists l v, pblh (length x) h = Ret l /\ ispblh_h x h = Ret v /\
    (forall i, 0 < i < length x - h -> (v = i <-> is_pow x l i)) /\
    (v <> 0 -> 0 < v < length x - h).
Proof. exact ispblh_h_spec. Qed.
Print Assumptions C16_ispblh.

Theorem C16_ispblh_auto : forall x, row256 x -> x <> [] ->
  exists h, h <= length x /\ (forall i, i < h -> act x i = i) /\ (h < length x -> act x h <> h) /\
    ispblh x = if h =? 0 then Ret 0 else ispblh_h x h.
Proof. exact ispblh_spec. Qed.
Print Assumptions C16_ispblh_auto.

Example C16_case : ispblh [0;4;6;2;7;1;5;3] = Ret 2 /\ ispblh [0;2;1;3;4;5] = Ret 0
  /\ ispblh [0;1;3;5;2;4] = Ret 1.
Proof. repeat split; reflexivity. Qed.
