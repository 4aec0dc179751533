(* Props_Change.v - property theorems about bells, changes and mathutils. *)
From Verif Require Import Base M_Bell M_Change M_Math M_Row Spec_Row Spec_Change Spec_Cycle
  P_Math P_Row P_Bell P_Change P_Change2 P_Change3 P_Cycle P_RowText.
From Coq Require Import Znumtheory.
Set Implicit Arguments.
Unset Strict Implicit.
Open Scope nat_scope.

(* C04: row *= change, for rows of at most 256 bells and any well-formed change. *)
Theorem C04_apply_change : forall r c, row256 r -> wf_change c -> cn c <= 256 ->
  exists r', row_mul_change r c = Ret r' /\ row256 r' /\
    length r' = Nat.max (length r) (cn c) /\
    forall i, act r' i = act r (swap_pos (cswaps c) i).
Proof. exact row_mul_change_spec. Qed.
Print Assumptions C04_apply_change.

Theorem C04_change_is_its_row : forall r c, row256 r -> wf_change c -> cn c <= 256 ->
  row_mul_change r c = bind (row_mul_change (rounds (cn c)) c) (fun d => mul r d).
Proof. exact row_mul_change_as_mul. Qed.
Print Assumptions C04_change_is_its_row.

Theorem C04_twice : forall r c, row256 r -> wf_change c -> cn c <= 256 ->
  bind (row_mul_change r c) (fun r' => row_mul_change r' c) = Ret (pad (cn c) r).
Proof. exact row_mul_change_twice. Qed.
Print Assumptions C04_twice.

Example C04_case : wf_change (mkChange 6 [0; 4]) /\
  row_mul_change [2;0;1;3] (mkChange 6 [0; 4]) = Ret [0;2;1;3;5;4].
Proof. split; [cbn; lia|reflexivity]. Qed.

(* C05: every change reachable through the API is well formed, and so moves no
   bell by more than one place; the constructors return or throw. *)
Theorem C05_api_changes_wf : forall c, api_change c ->
  wf_change c /\ cn c <= 255 /\
  forall i, swap_pos (cswaps c) i <= i + 1 /\ i <= swap_pos (cswaps c) i + 1.
Proof.
  exact api_change_near.
Qed.
Print Assumptions C05_api_changes_wf.

Theorem C05_pn_total : forall n pn, n <= 255 ->
  (exists c, change_of_pn default_symtab n pn = Ret c /\ wf_change c /\ cn c = n) \/
  change_of_pn default_symtab n pn = Throw ChangeInvalid \/
  change_of_pn default_symtab n pn = Throw BellInvalid.
Proof. exact change_of_pn_wf. Qed.
Print Assumptions C05_pn_total.

Theorem C05_places_total : forall n pl, n <= 255 ->
  (exists c, change_of_places n pl = Ret c /\ wf_change c /\ cn c = n) \/
  change_of_places n pl = Throw ChangeInvalid.
Proof. exact change_of_places_wf. Qed.
Print Assumptions C05_places_total.

(* At 256 bells the 8-bit position wraps and the property fails. *)
Theorem C05_256_refuted : exists c, change_of_places 256 [255; 2] = Ret c /\ ~ wf_change c.
Proof.
  exact places_256.
Qed.
Print Assumptions C05_256_refuted.

Example C05_case : api_change (mkChange 6 [1; 3]) /\
  change_of_pn default_symtab 6 (str "16") = Ret (mkChange 6 [1; 3]).
Proof.
  assert (E : change_of_pn default_symtab 6 (str "16") = Ret (mkChange 6 [1; 3])) by reflexivity.
  split; auto. apply (@api_pn 6 (str "16")); auto. lia.
Qed.

(* C06: swappair *)
Theorem C06_present : forall c i, wf_change c -> In i (cswaps c) ->
  swappair c i = Ret (mkChange (cn c) (remove Nat.eq_dec i (cswaps c)), false) /\
  wf_change (mkChange (cn c) (remove Nat.eq_dec i (cswaps c))).
Proof. exact swappair_present. Qed.
Print Assumptions C06_present.

Theorem C06_absent : forall c i, wf_change c -> i + 2 <= cn c -> ~ In i (cswaps c) ->
  (forall f s, cswaps c = f ++ [s] -> S s <> i) ->
  exists l, swappair c i = Ret (mkChange (cn c) l, true) /\
    wf_change (mkChange (cn c) l) /\
    forall j, In j l <-> j = i \/ (In j (cswaps c) /\ S j <> i /\ j <> S i).
Proof. exact swappair_absent. Qed.
Print Assumptions C06_absent.

Theorem C06_end_iterator_ub : forall c i, wf_change c -> i + 2 <= cn c ->
  swappair c i = UB <-> exists f s, cswaps c = f ++ [s] /\ S s = i.
Proof. exact swappair_ub. Qed.
Print Assumptions C06_end_iterator_ub.

Theorem C06_throw : forall c i, swappair c i = Throw ChangeOutOfRange <-> cn c < i + 2.
Proof. exact swappair_throw. Qed.
Print Assumptions C06_throw.

Example C06_case : swappair (mkChange 8 [0; 3; 5]) 4 = Ret (mkChange 8 [0; 4], true)
  /\ swappair (mkChange 8 [0; 3; 5]) 6 = UB.
Proof. split; reflexivity. Qed.

(* C07: place notation of a single change *)
Theorem C07_print_parse : forall f c, 1 <= cn c <= 255 -> wf_change c ->
  exists text, change_print default_symtab f c = Ret text /\
    change_of_pn default_symtab (cn c) text = Ret c.
Proof. exact (fun f c H W => @bind_ret_inv _ _ _ _ _ (@change_print_parse f c H W)). Qed.
Print Assumptions C07_print_parse.

Theorem C07_places_rebuild : forall c, cn c <= 255 -> wf_change c ->
  exists pl, places c = Ret pl /\ change_of_places (cn c) pl = Ret c.
Proof. exact (fun c H W => @bind_ret_inv _ _ _ _ _ (@change_of_places_places c H W)). Qed.
Print Assumptions C07_places_rebuild.

Example C07_case : wf_change (mkChange 8 [1; 4]) /\
  change_print default_symtab Cross_dash (mkChange 8 [1; 4]) = Ret (str "1478") /\
  change_print default_symtab Cross_dash (mkChange 8 [0; 2; 4; 6]) = Ret (str "-").
Proof. split; [cbn; lia|split; reflexivity]. Qed.

(* C08: places, findplace, findswap, bell *= change, reverse, sign *)
Theorem C08_places : forall c, cn c <= 255 -> wf_change c ->
  exists pl, places c = Ret pl /\ StronglySorted lt pl /\
    count_places c = Ret (length pl) /\
    forall i, In i pl <-> i < cn c /\ findplace c i = true.
Proof.
  exact places_findplace.
Qed.
Print Assumptions C08_places.

Theorem C08_findplace : forall c i r r', wf_change c -> cn c <= 256 -> row256 r ->
  row_mul_change r c = Ret r' ->
  findplace c i = true <-> act r' i = act r i.
Proof. exact findplace_row. Qed.
Print Assumptions C08_findplace.

Theorem C08_findswap : forall c i r r', wf_change c -> cn c <= 256 -> row256 r -> i + 1 < cn c ->
  row_mul_change r c = Ret r' ->
  findswap c i = true <-> (act r' i = act r (i + 1) /\ act r' (i + 1) = act r i).
Proof. exact findswap_row. Qed.
Print Assumptions C08_findswap.

Theorem C08_bell_follows_row : forall r r' c b, row256 r -> wf_change c -> cn c <= 256 ->
  row_mul_change r c = Ret r' -> act r' (bell_mul b c) = act r b.
Proof. exact bell_follows_row. Qed.
Print Assumptions C08_bell_follows_row.

Theorem C08_reverse_mirrors : forall c i, cn c <= 257 -> wf_change c -> i < cn c ->
  swap_pos (cswaps (change_reverse c)) (cn c - 1 - i) = cn c - 1 - swap_pos (cswaps c) i.
Proof. exact reverse_swap_pos. Qed.
Print Assumptions C08_reverse_mirrors.

Theorem C08_reverse_involution : forall c, cn c <= 257 -> wf_change c ->
  change_reverse (change_reverse c) = c.
Proof. exact reverse_reverse. Qed.
Print Assumptions C08_reverse_involution.

Theorem C08_internal : forall c, wf_change c ->
  internal c = true <-> exists i, 0 < i /\ i + 1 < cn c /\ place_made c i.
Proof. exact internal_spec. Qed.
Print Assumptions C08_internal.

Theorem C08_sign_of_row : forall sym c r, wf_change c -> cn c <= 256 ->
  row_mul_change (rounds (cn c)) c = Ret r -> sign sym r = Ret (change_sign c).
Proof. exact change_sign_row. Qed.
Print Assumptions C08_sign_of_row.

Example C08_case : places (mkChange 8 [1; 4]) = Ret [0; 3; 6; 7] /\
  change_reverse (mkChange 8 [1; 4]) = mkChange 8 [2; 5] /\ bell_mul 5 (mkChange 8 [1; 4]) = 4.
Proof. repeat split; reflexivity. Qed.

(* C09: bell symbols *)
Theorem C09_print_read : forall b rest, b < 256 ->
  read_extended default_symtab (print_bell default_symtab b ++ rest) = Ret (b, rest).
Proof. exact read_extended_print. Qed.
Print Assumptions C09_print_read.

Theorem C09_read_char_accepts : forall c b,
  read_char default_symtab c = Ret b <->
  (b < 33 /\ (to_char default_symtab b = c \/ to_char default_symtab b = to_upper c)) \/
  (b = 0 /\ (c = chr "I" \/ c = chr "i")) \/
  (b = 9 /\ (c = chr "O" \/ c = chr "o")) \/
  (b = 33 /\ c = zero).
Proof. exact read_char_accepts. Qed.
Print Assumptions C09_read_char_accepts.

(* the character of a bell: the standard symbols, and * beyond them *)
Theorem C09_to_char : forall b,
  (b < 33 -> to_char default_symtab b = nth b (str "1234567890ETABCDFGHJKLMNPQRSUVWYZ") (chr "*")) /\
  (33 <= b -> to_char default_symtab b = chr "*").
Proof.
  intros b. unfold to_char. cbn [sym_max default_symtab sym_chars]. destruct (Nat.ltb_spec b 33) as [H|H]; (split; [intros _|lia]) || (split; [lia|intros _]); [|reflexivity].
  apply nth_indep. exact H.
Qed.
Print Assumptions C09_to_char.

Theorem C09_read_char_total : forall c,
  (exists b, read_char default_symtab c = Ret b) \/ read_char default_symtab c = Throw BellInvalid.
Proof. exact read_char_total. Qed.
Print Assumptions C09_read_char_total.

Example C09_case : read_extended default_symtab (str "{40}xyz") = Ret (39, str "xyz") /\
  read_char default_symtab (chr "e") = Ret 10.
Proof. split; reflexivity. Qed.

(* C40: integer mathematics *)
Open Scope Z_scope.
Theorem C40_hcf : forall a b, 0 < a -> 0 < b -> hcf a b = Ret (Z.gcd a b).
Proof. exact hcf_spec. Qed.
Print Assumptions C40_hcf.

Theorem C40_lcm : forall a b, 0 < a -> 0 < b -> a * b <= int_max -> lcm a b = Ret (Z.lcm a b).
Proof. exact lcm_spec. Qed.
Print Assumptions C40_lcm.

Theorem C40_factorial : forall n, factorial n = (zfact n) mod 2 ^ 32.
Proof. exact factorial_spec. Qed.
Print Assumptions C40_factorial.

Theorem C40_fibonacci : forall n, fibonacci n = (zfib n) mod 2 ^ 32.
Proof. exact fibonacci_spec. Qed.
Print Assumptions C40_fibonacci.

Theorem C40_ipower : forall base exp, 0 <= exp ->
  - 9223372036854775808 <= base ^ exp <= 9223372036854775807 -> ipower base exp = Ret (base ^ exp).
Proof. exact ipower_spec. Qed.
Print Assumptions C40_ipower.

Theorem C40_is_prime : forall n, 0 <= n -> is_prime n = true <-> prime n.
Proof. exact is_prime_spec. Qed.
Print Assumptions C40_is_prime.

Theorem C40_next_prime : forall n, 0 <= n < 4294967291 ->
  exists fuel p, next_prime_loop fuel n = Ret p /\ n < p /\ prime p /\
    forall q, n < q < p -> ~ prime q.
Proof. exact next_prime_spec. Qed.
Print Assumptions C40_next_prime.

Example C40_case : hcf 84 36 = Ret 12 /\ lcm 84 36 = Ret 252 /\ ipower (-3) 5 = Ret (-243)
  /\ zfact 5 = 120 /\ next_prime_loop 10 24 = Ret 29.
Proof. repeat split; reflexivity. Qed.
