(* Props_Dim.v - property theorems about dimensions. *)
From Verif Require Import Base M_Bell M_Dim Spec_Dim P_Dim.
Set Implicit Arguments.
Unset Strict Implicit.
Open Scope nat_scope.

(* C41: reduce keeps the value and puts it in lowest terms, denominator positive *)
Theorem C41_reduce : forall n d u, in_int n -> in_int d -> d <> 0%Z ->
  exists x, reduce (mkDim n d u) = Ret x /\ reduced x /\ worth x n d /\ du x = u.
Proof. exact reduce_spec. Qed.
Print Assumptions C41_reduce.

(* scaling by an integer scales the value *)
Theorem C41_scale : forall x i, reduced x -> in_int (dn x) -> in_int (dd x) -> in_int i ->
  (in_int (dn x * i) -> exists y, dim_mul x i = Ret y /\ reduced y /\ worth y (dn x * i) (dd x) /\ du y = du x) /\
  (in_int (dd x * i) -> i <> 0%Z -> exists y, dim_div x i = Ret y /\ reduced y /\ worth y (dn x) (dd x * i) /\ du y = du x).
Proof. exact dim_scale. Qed.
Print Assumptions C41_scale.

(* every documented format is read as the number it writes *)
Theorem C41_read : forall ws1 (neg : bool) ws2 text ws3 w u tail N D,
  all_space ws1 -> all_space ws2 -> all_space ws3 -> unit_word w u -> ends tail ->
  writes text N D -> (0 < D <= int_max)%Z -> (N <= int_max)%Z ->
  exists x, dim_read (ws1 ++ (if neg then [chr "-"] else []) ++ ws2 ++ text ++ ws3 ++ w ++ tail) = Ret x /\
    reduced x /\ worth x (if neg then - N else N)%Z D /\ du x = u.
Proof. exact dim_read_spec. Qed.
Print Assumptions C41_read.

(* printed dimensions read back, except zero and those strictly between -1 and 0 *)
Theorem C41_print_read : forall x, reduced x -> in_int (dn x) -> in_int (dd x) -> dn x <> 0%Z ->
  (0 < dn x \/ dd x <= - dn x)%Z ->
  exists t, dim_print x = Ret t /\ dim_read t = Ret x.
Proof. exact dim_print_read. Qed.
Print Assumptions C41_print_read.

(* the sign of a value between -1 and 0 is lost: it reads back as its opposite *)
Theorem C41_small_negative_refuted : forall x, reduced x -> in_int (dn x) -> in_int (dd x) ->
  (dn x < 0 -> - dn x < dd x ->
   exists t, dim_print x = Ret t /\ dim_read t = Ret (mkDim (- dn x) (dd x) (du x)))%Z.
Proof. exact dim_print_small_neg. Qed.
Print Assumptions C41_small_negative_refuted.

Theorem C41_zero_refuted : forall u, exists t, dim_print (mkDim 0 1 u) = Ret t /\ dim_read t = Throw DimInvalid.
Proof. exact dim_print_zero. Qed.
Print Assumptions C41_zero_refuted.

(* the text 0/0pt divides by zero *)
Theorem C41_zero_denominator_refuted : dim_read (str "0/0pt") = UB.
Proof. exact dim_read_zero. Qed.
Print Assumptions C41_zero_denominator_refuted.

(* write() ends its string with a NUL character, unlike operator<< *)
Theorem C41_write_nul_refuted : forall x t, dim_print x = Ret t -> dim_write x = Ret (t ++ [zero]) /\ t ++ [zero] <> t.
Proof. exact dim_write_nul. Qed.
Print Assumptions C41_write_nul_refuted.

Example C41_case_read : writes (str "2 3 / 4") 11 4 /\ unit_word (str "in") inches /\
  dim_read (str " - 2 3 / 4in") = Ret (mkDim (-11) 4 inches).
Proof.
  split; [|split; [cbn; tauto|vm_compute; reflexivity]].
  apply (@w_mixed (str "2") [chr " "] (str "3") [chr " "] [chr " "] (str "4")); try (split; [reflexivity|discriminate]); try reflexivity. discriminate.
Qed.
Example C41_case_read2 : writes (str "0.250") 250 1000 /\ dim_read (str "0.250 cm") = Ret (mkDim 1 4 cm).
Proof.
  split; [|vm_compute; reflexivity].
  apply (@w_dec (str "0") (str "250")); [split; [reflexivity|discriminate]|reflexivity].
Qed.
Example C41_case_print : reduced (mkDim (-11) 4 mm) /\ dim_print (mkDim (-11) 4 mm) = Ret (str "-2 3/4 mm").
Proof. split; [split; reflexivity|vm_compute; reflexivity]. Qed.
