(* Spec_RowParse.v - the grammar of the row calculator. *)
From Verif Require Import Base M_Bell M_Row M_Stream M_RowCalc M_RowParse.
Set Implicit Arguments. Unset Strict Implicit.
Open Scope nat_scope.

(* Tokens in which the brackets match are a sequence of trees. *)
Inductive tree := Leaf (t : rtok) | Group (o : rtok) (body : list tree) (c : rtok).
Fixpoint flat1 (x : tree) : list rtok := match x with Leaf t => [t] | Group o b c => o :: flat_map flat1 b ++ [c] end.
Definition flat (xs : list tree) : list rtok := flat_map flat1 xs.
Definition pair_of (o c : rk) : Prop := (o = KOpen /\ c = KClose) \/ (o = KOpenSet /\ c = KCloseSet) \/ (o = KOpenGroup /\ c = KCloseGroup).
Definition bracket (k : rk) : Prop := exists j, pair_of k j \/ pair_of j k.
Inductive wf : tree -> Prop :=
| wf_leaf t : ~ bracket (tk t) -> wf (Leaf t)
| wf_group o b c : pair_of (tk o) (tk c) -> Forall wf b -> wf (Group o b c).

Section Grammar.
(* what a token that may be a row stands for: M is make_row *)
Variable M : list ascii -> outcome row.
(* gram n xs e: the phrase xs stands for e.  0: differences, 1: products and quotients, both taken from the left;
   2: powers and conjugates, taken from the right; 3: rows, sets, groups and parentheses. *)
Inductive gram : nat -> list tree -> cexpr -> Prop :=
| g_minus l t r x y : tk t = KMinus -> gram 0 l x -> gram 1 r y -> gram 0 (l ++ Leaf t :: r) (CDiff x y)
| g_times l t r x y : tk t = KTimes -> gram 1 l x -> gram 2 r y -> gram 1 (l ++ Leaf t :: r) (CMult Times x y)
| g_divide l t r x y : tk t = KDivide -> gram 1 l x -> gram 2 r y -> gram 1 (l ++ Leaf t :: r) (CMult Divide x y)
| g_ldivide l t r x y : tk t = KLdivide -> gram 1 l x -> gram 2 r y -> gram 1 (l ++ Leaf t :: r) (CMult Ldivide x y)
| g_expo l t r x y : tk t = KPower -> gram 3 l x -> exponent r y -> gram 2 (l ++ Leaf t :: r) (CExp x y)
| g_up n xs e : n < 3 -> gram (S n) xs e -> gram n xs e
| g_rows t r : tk t = KNum \/ tk t = KLit -> M (tx t) = Ret r -> gram 3 [Leaf t] (CRow r)
| g_paren o b c e : tk o = KOpen -> gram 0 b e -> gram 3 [Group o b c] e
| g_sets o b c es : tk o = KOpenSet -> members b es -> gram 3 [Group o b c] (CSet es)
| g_groups o b c es : tk o = KOpenGroup -> members b es -> gram 3 [Group o b c] (CGroup es)
(* the exponent: an integer if it has a plus or a single digit, or is not a row; otherwise an expression *)
with exponent : list tree -> cexpr -> Prop :=
| x_plus p t z : tk p = KPlus -> tk t = KNum -> lexical_cast_int (tx t) = Ret z -> exponent [Leaf p; Leaf t] (CInt z)
| x_digit t z : tk t = KNum -> length (tx t) = 1 -> lexical_cast_int (tx t) = Ret z -> exponent [Leaf t] (CInt z)
| x_not_row t z : tk t = KNum -> length (tx t) <> 1 -> M (tx t) = Throw RowInvalid -> lexical_cast_int (tx t) = Ret z -> exponent [Leaf t] (CInt z)
| x_expr xs e : (forall t, xs = [Leaf t] -> tk t = KNum -> length (tx t) <> 1) -> gram 2 xs e -> exponent xs e
(* expressions with commas between them *)
with members : list tree -> list cexpr -> Prop :=
| m_one xs e : gram 0 xs e -> members xs [e]
| m_more xs t ys e es : tk t = KSep -> gram 0 xs e -> members ys es -> members (xs ++ Leaf t :: ys) (e :: es).
End Grammar.
Scheme gram_ind2 := Induction for gram Sort Prop
with exponent_ind2 := Induction for exponent Sort Prop
with members_ind2 := Induction for members Sort Prop.
Combined Scheme gram_ind_all from gram_ind2, exponent_ind2, members_ind2.
(* no integer in the expression is negative *)
Fixpoint no_negative (e : cexpr) : Prop :=
  match e with
  | CInt z => (0 <= z)%Z
  | CRow _ => True
  | CSet es | CGroup es => Forall id (map no_negative es)
  | CDiff a b | CMult _ a b | CExp a b => no_negative a /\ no_negative b
  end.
