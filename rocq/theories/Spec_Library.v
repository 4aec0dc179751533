(* Spec_Library.v - looking things up in a library, and where libraries are looked for. *)
From Verif Require Import Base M_Bell M_Change M_Method M_Library Spec_Method Spec_MethClass Spec_Names Spec_Litelib Spec_Litelib2 Spec_Basename.
Set Implicit Arguments.
Unset Strict Implicit.
Open Scope nat_scope.

(* the same letters, in upper or lower case *)
Definition same_letter (a b : ascii) : Prop :=
  a = b \/ (is_upper a = true /\ nat_of_ascii b = nat_of_ascii a + 32) \/ (is_upper b = true /\ nat_of_ascii a = nat_of_ascii b + 32).
Definition same_text (a b : list ascii) : Prop := Forall2 same_letter a b.

(* the same exception, or the same other failure *)
Inductive same_failure {A B} : outcome A -> outcome B -> Prop :=
| sf_throw x : same_failure (Throw x) (Throw x)
| sf_ub : same_failure UB UB
| sf_diverge : same_failure Diverge Diverge.
(* looking through the entries, at what they answer, for the first with the right answer: found it,
   none there, or an entry (or the end of the library) failed before *)
Section Looked.
Variables (T : Type) (what : lent -> outcome T) (right : lent -> T -> Prop) (l : lib).
Definition wrong (e : lent) : Prop := exists v, what e = Ret v /\ ~ right e v.
Inductive looked : outcome (option lent) -> Prop :=
| lk_found pre e v post : lib_ents l = pre ++ e :: post -> (forall x, In x pre -> wrong x) -> what e = Ret v -> right e v -> looked (Ret (Some e))
| lk_none : (forall x, In x (lib_ents l) -> wrong x) -> lib_end l = Ret tt -> looked (Ret None)
| lk_failed pre e post o : lib_ents l = pre ++ e :: post -> (forall x, In x pre -> wrong x) -> same_failure (what e) o -> looked o
| lk_end o : (forall x, In x (lib_ents l) -> wrong x) -> same_failure (lib_end l) o -> looked o.
End Looked.

(* p is its parts with colons between *)
Fixpoint joined (ds : list (list ascii)) : list ascii :=
  match ds with [] => [] | [d] => d | d :: ds => d ++ chr ":" :: joined ds end.
Definition dirs_of (p : list ascii) (ds : list (list ascii)) : Prop :=
  (p = [] /\ ds = []) \/ (p <> [] /\ ds <> [] /\ joined ds = p /\ forall d, In d ds -> ~ In (chr ":") d).
(* the places a file name is looked for, in order *)
Definition places (ds : list (list ascii)) (f : list ascii) : list (list ascii) :=
  match f with
  | [] => []
  | c :: _ => f :: (if ascii_dec c (chr "/") then [] else map (fun d => d ++ chr "/" :: f) ds)
  end.
(* the library opened is the first that any type can read, place by place *)
Inductive opened {L} (types : list (list ascii -> option L)) : list (list ascii) -> option L -> Prop :=
| op_none : opened types [] None
| op_here f fs pre t post l : types = pre ++ t :: post -> (forall u, In u pre -> u f = None) -> t f = Some l -> opened types (f :: fs) (Some l)
| op_later f fs r : (forall u, In u types -> u f = None) -> opened types fs r -> opened types (f :: fs) r.

(* a name that a litelib finds again in the title of the method: no class word or stage word in it, no
   newline and no white space at the ends; and the class of the method is one it strips *)
Definition nameable (m : method) (name : list ascii) : Prop := exists st,
  stage_word (Z.of_nat (mb m)) st /\ plain_name name st /\ no_nl name = true /\ (exists c t, name = c :: t /\ is_white c = false) /\
  (classless name (mb m) \/ forall k l, of_kind (mch m) (mb m) 9999 k -> (l = true <-> is_little (mch m) (mb m)) -> strippable k l).
