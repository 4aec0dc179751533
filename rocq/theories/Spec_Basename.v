(* Spec_Basename.v - names that can be told apart from the class and stage in a title. *)
From Verif Require Import Base M_Bell Spec_MethClass Spec_Names.
Set Implicit Arguments.
Unset Strict Implicit.
Open Scope nat_scope.

(* w is somewhere in s *)
Definition occurs (w s : list ascii) : Prop := exists a b, s = a ++ w ++ b.
Definition class_texts : list (list ascii) :=
  [str "Bob"; str "Place"; str "Surprise"; str "Delight"; str "Alliance"; str "Slow Course"; str "Little"; str "Differential"].
(* a name with none of these in it, nor the stage, and not ending in white space *)
Definition plain_name (name stage : list ascii) : Prop :=
  (exists a c, name = a ++ [c] /\ is_space c = false) /\ ~ occurs stage name /\ forall w, In w class_texts -> ~ occurs w name.
(* the kinds whose words litelib strips off *)
Definition strippable (k : kind) (l : bool) : Prop :=
  match k with TrebleBob | TreblePlace => False | Principle | Hybrid => l = false | _ => True end.
(* the words for the flags *)
Definition flag_words (d l : bool) : list (list ascii) :=
  (if d then [str "Differential"] else []) ++ (if l then [str "Little"] else []).
