(* M_HalfLead.v - model of apps/methsearch/search.cpp: the tests of the change at the half lead, the quarter lead and of an
   offset lead head. *)
From Verif Require Import Base M_Bell M_Change M_Row M_Method M_MethSearch M_LeadHeads.
Set Implicit Arguments.
Unset Strict Implicit.
Open Scope nat_scope.

(* the options looked at *)
Record hlargs := mkHlargs { ha_skew : bool; ha_cyclic : bool; ha_hunts : nat; ha_rev_hlh : bool; ha_rev_hle : bool; ha_cyc_hlh : bool; ha_cyc_hle : bool; ha_reg : bool }.
(* search.cpp:745-786 try_halflead_change.  row hl; is the row of no bells; the second component of
   the result is the static variable of is_regular_hl. *)
Definition try_halflead_change (sym : symtab) (fuel : nat) (A : hlargs) (bells : nat) (static : option row) (m : list change) (ch : change) : outcome (option row * bool) :=
  first <- (if ha_skew A && ha_cyclic A && (ha_hunts A =? 1) then hl <- forM m row_mul_change [] ;; is_cyclic_hl hl else Ret true) ;;
  if negb (first : bool) then Ret (static, false)
  else if negb (ha_rev_hlh A || ha_rev_hle A || ha_cyc_hlh A || ha_cyc_hle A || ha_reg A) then Ret (static, true)
  else
    hle <- forM m row_mul_change [] ;;
    hlh <- row_mul_change hle ch ;;
    b <- (if ha_rev_hlh A then is_rev_cyclic_hl hlh else Ret false) ;;
    if (b : bool) then Ret (static, true) else
    b <- (if ha_rev_hle A then is_rev_cyclic_hl hle else Ret false) ;;
    if (b : bool) then Ret (static, true) else
    b <- (if ha_cyc_hlh A then is_cyclic_hl hlh else Ret false) ;;
    if (b : bool) then Ret (static, true) else
    b <- (if ha_cyc_hle A then is_cyclic_hl hle else Ret false) ;;
    if (b : bool) then Ret (static, true) else
    if ha_reg A then
      '(static, b) <- is_regular_hl sym fuel static bells hlh ;;
      if (b : bool) then is_regular_hl sym fuel static bells hle else Ret (static, false)
    else Ret (static, false).

(* search.cpp:818-834 try_offset_start_change; m.lh() is got from rounds on bells bells *)
Definition try_offset_start_change (sym : symtab) (A : lhargs) (m : list change) (ch : change) : outcome bool :=
  l <- forM m row_mul_change (rounds (la_bells A)) ;;
  r <- row_mul_change l ch ;;
  x <- mul r (cyclic (la_bells A) (la_hunts A) 1) ;;
  ri <- inverse r ;;
  lh <- mul x ri ;;
  is_acceptable_leadhead sym A lh.

(* search.cpp:1100-1135 try_quarterlead_change; blows is max_consec_blows.  The half lead so far is
   skipn (m.length()/hl_len*hl_len) m; for hl_len = 0 the division is undefined. *)
Definition try_quarterlead_change (blows bells lead_len : nat) (m : list change) (ch : change) : outcome bool :=
  if negb (lead_len mod 2 =? 0) then Throw AssertFailed else
  let hl_len := lead_len / 2 in
  if negb (change_eqb ch (change_reverse ch)) then Ret false
  else if blows =? 0 then Ret true
  else if existsb (findplace ch) (seq 0 bells) && (hl_len =? 0) then UB
  else
    let half := rev (skipn (length m / hl_len * hl_len) m) in
    Ret (negb (existsb (fun i => findplace ch i &&
      (blows <? run_limited (S blows) (run_limited (S blows) 2 i half) i (map change_reverse half))) (seq 0 bells))).
