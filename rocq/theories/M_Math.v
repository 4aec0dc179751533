(* M_Math.v - model of ringing/mathutils.{h,cpp} (integer part).
   Not modelled: the random number functions (mathutils.cpp:91-155). *)
From Verif Require Import Base.

(* mathutils.cpp:58-66: the do-while loop of hcf.  % by zero is undefined. *)
Fixpoint hcf_loop (fuel : nat) (a b : Z) : outcome Z :=
  match fuel with
  | O => Diverge
  | S fuel =>
    if (b =? 0)%Z then UB else
    let r := Z.rem a b in
    if (r >? 0)%Z then hcf_loop fuel b r else Ret b
  end.

(* mathutils.cpp:53-67 hcf.  C++ % is Z.rem.  The number of iterations is at
   most |b|+1, which is the fuel. *)
Definition hcf (a b : Z) : outcome Z :=
  let '(a, b) := if (a <? b)%Z then (b, a) else (a, b) in
  hcf_loop (S (Z.to_nat (Z.abs b))) a b.

(* mathutils.h:51-57 lcm.  Signed overflow of a*b is undefined. *)
Definition lcm (a b : Z) : outcome Z :=
  if (a =? 1)%Z then Ret b else
  if (b =? 1)%Z then Ret a else
  p <- as_int (a * b)%Z ;;
  h <- hcf a b ;;
  Ret (Z.quot p h).

(* mathutils.h:45-47 sign *)
Definition sign_of_int (a : Z) : Z :=
  if (a >? 0)%Z then 1%Z else if (a <? 0)%Z then (-1)%Z else 0%Z.

(* mathutils.cpp:73-74: f *= n for n-1, ..., 1 (32-bit unsigned) *)
Fixpoint factorial_loop (n : nat) (f : Z) : Z :=
  match n with
  | O => f
  | S n' => factorial_loop n' (u32 (f * Z.of_nat n))
  end.

(* mathutils.cpp:69-76 factorial *)
Definition factorial (n : nat) : Z :=
  match n with
  | O => 1%Z
  | S n' => factorial_loop n' (u32 (Z.of_nat n))
  end.

(* mathutils.cpp:82-87 *)
Fixpoint fib_loop (n : nat) (f1 f2 : Z) : Z :=
  match n with
  | O => f2
  | S n' => fib_loop n' f2 (u32 (f1 + f2))
  end.

(* mathutils.cpp:78-89 fibonacci *)
Definition fibonacci (n : nat) : Z :=
  match n with
  | O => 1%Z
  | S n' => fib_loop n' 1%Z 1%Z
  end.

(* 64-bit signed arithmetic: undefined on overflow *)
Definition as_llong (z : Z) : outcome Z :=
  if (- 9223372036854775808 <=? z)%Z && (z <=? 9223372036854775807)%Z
  then Ret z else UB.

(* mathutils.cpp:159-171 ipower.  Recursion on exp-1 and exp/2 (fuel). *)
Fixpoint ipower_f (fuel : nat) (base exp : Z) : outcome Z :=
  match fuel with
  | O => Diverge
  | S fuel =>
    if (exp =? 0)%Z then Ret 1%Z
    else if (exp <? 0)%Z then Ret 0%Z
    else if negb (Z.rem exp 2 =? 0)%Z then
      t <- ipower_f fuel base (exp - 1)%Z ;; as_llong (base * t)%Z
    else
      t <- ipower_f fuel base (Z.quot exp 2) ;; as_llong (t * t)%Z
  end.
Definition ipower (base exp : Z) : outcome Z :=
  ipower_f (S (2 * Z.to_nat (Z.log2 exp + 1))) base exp.

(* mathutils.cpp:180-183: trial division by p, p+1, ... (k candidates) *)
Fixpoint trial_division (k : nat) (p n : Z) : bool :=
  match k with
  | O => true
  | S k' => if (Z.rem n p =? 0)%Z then false else trial_division k' (p + 1)%Z n
  end.

(* mathutils.cpp:176-184 is_prime.  floor(sqrt((double)n)) is exactly the integer
   square root for 32-bit n (IEEE double sqrt is correctly rounded); modelled as
   Z.sqrt. *)
Definition is_prime (n : Z) : bool :=
  if (n <? 2)%Z then false else
  trial_division (Z.to_nat (Z.sqrt n - 1)) 2%Z n.

(* mathutils.cpp:186-191 next_prime (no wrap below 2^32). *)
Fixpoint next_prime_loop (fuel : nat) (n : Z) : outcome Z :=
  match fuel with
  | O => Diverge
  | S fuel => if is_prime (u32 (n + 1)) then Ret (u32 (n + 1))
              else next_prime_loop fuel (u32 (n + 1))
  end.
