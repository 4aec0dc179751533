(* Spec_RowCalc.v - which rows an expression of the row calculator stands for. *)
From Verif Require Import Base M_Row M_Group M_RowCalc Spec_Row Spec_Extent Spec_Group.
Set Implicit Arguments. Unset Strict Implicit.
Open Scope nat_scope.

(* where bell b is; the inverse of a row; a row repeated k times *)
Fixpoint place_of (x : list nat) (b : nat) : nat := match x with [] => 0 | a :: x => if a =? b then 0 else S (place_of x b) end.
Definition inv (x : list nat) : list nat := map (place_of x) (seq 0 (length x)).
Definition pow (x : list nat) (k : nat) : list nat := map (act_pow x k) (seq 0 (length x)).

Definition combined (op : mult_op) (x y : list nat) : list nat :=
  match op with Times => comp x y | Divide => comp x (inv y) | Ldivide => comp (inv x) y end.
Definition conjugated (x y : list nat) : list nat := comp (comp (inv y) x) y.
(* every x with the first y, then every x with the second, and so on *)
Definition each (f : list nat -> list nat -> list nat) (xs ys : list (list nat)) : list (list nat) :=
  concat (map (fun y => map (fun x => f x y) xs) ys).
(* powers of the rows can be worked out (see C13) *)
Definition within (z : Z) (x : list nat) : Prop :=
  (0 <= z <= int_max)%Z /\ ((z <= Z.of_nat (length x) * Z.of_nat (length x))%Z \/ length x <= 18).

(* gives e xs: the expression e stands for the rows xs, in this order. *)
Inductive gives : cexpr -> list (list nat) -> Prop :=
| g_row r : row256 r -> r <> [] -> gives (CRow r) [r]
| g_set es xs : give_all es xs -> gives (CSet es) xs
| g_group es gens v : give_all es gens -> gens <> [] -> StronglySorted lex_lt v ->
    (forall x, In x v <-> generated (max_bells gens) gens x) -> gives (CGroup es) v
| g_diff a b xs ys zs : gives a xs -> gives b ys -> zs = filter (fun x => if in_dec (list_eq_dec Nat.eq_dec) x ys then false else true) xs ->
    gives (CDiff a b) zs
| g_mult op a b xs ys : gives a xs -> gives b ys -> gives (CMult op a b) (each (combined op) xs ys)
| g_conj a b xs ys : gives a xs -> gives b ys -> gives (CExp a b) (each conjugated xs ys)
| g_power a z xs : gives a xs -> Forall (within z) xs -> gives (CExp a (CInt z)) (map (fun x => pow x (Z.to_nat z)) xs)
with give_all : list cexpr -> list (list nat) -> Prop :=
| ga_none : give_all [] []
| ga_more e es xs ys : gives e xs -> give_all es ys -> give_all (e :: es) (xs ++ ys).
Scheme gives_ind2 := Induction for gives Sort Prop
with give_all_ind2 := Induction for give_all Sort Prop.
Combined Scheme gives_ind_all from gives_ind2, give_all_ind2.

(* Is there a set or a group in the expression? (The right of a difference does not matter.) *)
Fixpoint many (e : cexpr) : bool :=
  match e with
  | CInt _ | CRow _ => false
  | CSet _ | CGroup _ => true
  | CDiff a _ => many a
  | CMult _ a b | CExp a b => many a || many b
  end.
(* exactly one row *)
Fixpoint one (e : cexpr) : bool :=
  match e with CRow _ => true | CMult _ a b => one a && one b | CExp a (CInt _) => one a | CExp a b => one a && one b | _ => false end.
(* can be gone through again: the members of sets and groups are single rows, and so are the rows by which others are conjugated *)
Fixpoint again (e : cexpr) : bool :=
  match e with
  | CInt _ | CRow _ => true
  | CSet es | CGroup es => forallb one es
  | CDiff a _ => again a
  | CMult _ a b => again a && again b
  | CExp a b => again a && negb (many b)
  end.
(* regular: the left operand of * / \ and ^ can be gone through again if there are sets on both
   sides, and a difference is not taken for a single row. *)
Fixpoint regular (e : cexpr) : bool :=
  let operand x := regular x && (many x || one x) in
  match e with
  | CInt _ | CRow _ => true
  | CSet es | CGroup es => forallb operand es
  | CDiff a b => operand a && operand b
  | CExp a (CInt _) => operand a
  | CMult _ a b | CExp a b => operand a && operand b && (negb (many a && many b) || again a)
  end.

(* the row written, for a row of the expression, where the number of bells has been given *)
Inductive written (promote : bool) (bells : nat) : list nat -> list nat -> Prop :=
| w_any x : bells = 0 -> written promote bells x x
| w_up x : promote = true -> length x <= bells -> written promote bells x (pad bells x)
| w_down x : promote = true -> 0 < bells -> bells < length x -> is_row (firstn bells x) -> written promote bells x (firstn bells x)
| w_same x : promote = false -> length x = bells -> written promote bells x x.
