(* Spec_Names.v - what the full title of a method is: its words with single spaces between. *)
From Verif Require Import Base M_Bell M_Dim Spec_MethClass.
Set Implicit Arguments.
Unset Strict Implicit.
Open Scope nat_scope.

(* the word(s) for a kind of method; principles have none, nor have hybrids from 2019 *)
Definition kind_words (k : kind) (year : Z) : list (list ascii) :=
  match k with
  | Principle => []
  | Bob => [str "Bob"] | Place => [str "Place"] | TrebleBob => [str "Treble"; str "Bob"]
  | Surprise => [str "Surprise"] | Delight => [str "Delight"] | TreblePlace => [str "Treble"; str "Place"]
  | Alliance => [str "Alliance"] | Hybrid => if (year <? 2019)%Z then [str "Hybrid"] else []
  | SlowCourse => [str "Slow"; str "Course"]
  end.
Definition class_words (k : kind) (d l : bool) (year : Z) : list (list ascii) :=
  (if d then [str "Differential"] else []) ++ (if l then [str "Little"] else []) ++ kind_words k year.
(* words with single spaces between them *)
Fixpoint spaced (ws : list (list ascii)) : list ascii :=
  match ws with
  | [] => []
  | [w] => w
  | w :: ws => w ++ chr " " :: spaced ws
  end.
(* the stages with a name *)
Definition stage_table : list (Z * list ascii) :=
  [ (3, str "Singles"); (4, str "Minimus"); (5, str "Doubles"); (6, str "Minor"); (7, str "Triples"); (8, str "Major");
    (9, str "Caters"); (10, str "Royal"); (11, str "Cinques"); (12, str "Maximus"); (13, str "Sextuples");
    (14, str "Fourteen"); (15, str "Septuples"); (16, str "Sixteen"); (17, str "Octuples"); (18, str "Eighteen");
    (19, str "Nonuples"); (20, str "Twenty"); (21, str "Decuples"); (22, str "Twenty-two") ]%Z.
(* w is the stage word for n bells: its name, or the number of bells in digits *)
Definition stage_word (n : Z) (w : list ascii) : Prop :=
  In (n, w) stage_table \/ ((forall v, ~ In (n, v) stage_table) /\ w = print_int n).
(* the methods whose title has no class *)
Definition classless (name : list ascii) (bells : nat) : Prop :=
  name = str "Grandsire" \/ name = str "Reverse Grandsire" \/ name = str "Double Grandsire" \/ name = str "Little Grandsire" \/
  (6 <= bells /\ (name = str "Union" \/ name = str "Double Union" \/ name = str "Reverse Union")).
(* the name, if there is one *)
Definition name_word (name : list ascii) : list (list ascii) := match name with [] => [] | _ => [name] end.
(* the words of the title after the name *)
Definition title_words (name : list ascii) (k : kind) (d l : bool) (year : Z) (bells : nat) (stage : list ascii) (ws : list (list ascii)) : Prop :=
  (classless name bells /\ ws = [stage]) \/ (~ classless name bells /\ ws = class_words k d l year ++ [stage]).
