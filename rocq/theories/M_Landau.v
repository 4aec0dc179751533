(* M_Landau.v - model of landau (ringing/mathutils.cpp:199-213).  The bound pmax, computed there
   in floating point (line 204), is a parameter; unsigned is 32 bits.  fuel bounds the number of
   iterations of each loop: the loops end when it is large enough. *)
From Verif Require Import Base M_Math.
Open Scope nat_scope.

(* mathutils.cpp:207-211: for q = p; q <= m; q *= p *)
Fixpoint landau_q (fuel : nat) (p m q : Z) (g : list Z) : outcome (list Z) :=
  if (q <=? m)%Z then
    match fuel with
    | O => Diverge
    | S fuel =>
      x <- vget g (Z.to_nat (m - q)) ;;
      y <- vget g (Z.to_nat m) ;;
      let gm := u32 (q * x) in
      g <- (if (y <? gm)%Z then vset g (Z.to_nat m) gm else Ret g) ;;
      landau_q fuel p m (u32 (q * p)) g
    end
  else Ret g.
(* mathutils.cpp:206: for m = n; m >= 1; --m *)
Fixpoint landau_m (fuel : nat) (p : Z) (m : nat) (g : list Z) : outcome (list Z) :=
  match m with
  | O => Ret g
  | S m' => g <- landau_q fuel p (Z.of_nat m) p g ;; landau_m fuel p m' g
  end.
(* mathutils.cpp:205: for p = 2; p <= pmax; p = next_prime(p); k bounds the primes *)
Fixpoint landau_p (k fuel : nat) (pmax : Z) (n : nat) (p : Z) (g : list Z) : outcome (list Z) :=
  if (p <=? pmax)%Z then
    match k with
    | O => Diverge
    | S k =>
      g <- landau_m fuel p n g ;;
      p <- next_prime_loop fuel p ;;
      landau_p k fuel pmax n p g
    end
  else Ret g.
(* mathutils.cpp:199-213 landau *)
Definition landau (fuel : nat) (pmax : Z) (n : nat) : outcome Z :=
  g <- landau_p fuel fuel pmax n 2 (repeat 1%Z (n + 1)) ;; vget g n.
