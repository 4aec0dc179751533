(* Spec_PN.v - the grammar of place notation and what it stands for. *)
From Verif Require Import Base M_Bell M_Change.
Set Implicit Arguments.
Unset Strict Implicit.
Open Scope char_scope.
Open Scope list_scope.
Open Scope nat_scope.

(* spaces *)
Definition spaces (w : list ascii) : Prop := Forall (fun c => is_space c = true) w.
(* what may stand between two changes: spaces, or one dot among spaces *)
Definition separator (w : list ascii) : Prop :=
  spaces w \/ exists a b, spaces a /\ spaces b /\ w = a ++ "."%char :: b.

(* a letter other than x or X, or a digit *)
Definition place_char (c : ascii) : Prop :=
  (is_digit c = true \/ is_upper c = true \/ is_lower c = true) /\ c <> "x"%char /\ c <> "X"%char.
(* the places of one change: such characters and groups in braces *)
Inductive places_text : list ascii -> Prop :=
| pt_char c t : place_char c -> places_tail t -> places_text (c :: t)
| pt_group g t : ~ In "{"%char g -> ~ In "}"%char g -> places_tail t -> places_text ("{"%char :: g ++ "}"%char :: t)
with places_tail : list ascii -> Prop :=
| ptl_nil : places_tail []
| ptl_more t : places_text t -> places_tail t.

Definition cross_char (c : ascii) : Prop := c = "x"%char \/ c = "X"%char \/ c = "-"%char.

Section Grammar.
Variables (sym : symtab) (n : nat).

(* a list of changes, each followed by an optional separator; two changes written as places need
   something between them *)
Inductive changes_text : list ascii -> list change -> Prop :=
| ct_nil : changes_text [] []
| ct_cross c w s ch cs : cross_char c -> change_of_pn sym n (str "X") = Ret ch ->
    separator w -> changes_text s cs -> changes_text (c :: w ++ s) (ch :: cs)
| ct_places p w s ch cs : places_text p -> change_of_pn sym n p = Ret ch ->
    separator w -> (w = [] -> forall c t, s = c :: t -> cross_char c) ->
    changes_text s cs -> changes_text (p ++ w ++ s) (ch :: cs).

(* a block and the changes it stands for *)
Inductive block_text : list ascii -> list change -> Prop :=
| bt_plain s cs : changes_text s cs -> block_text s cs
| bt_plus w s cs : separator w -> changes_text s cs -> block_text ("+"%char :: w ++ s) cs
| bt_sym w s cs : separator w -> changes_text s cs -> block_text ("&"%char :: w ++ s) (cs ++ tl (rev cs)).

(* blocks separated by commas *)
Inductive blocks_text : list ascii -> list change -> Prop :=
| bs_one s cs : block_text s cs -> blocks_text s cs
| bs_more s cs w t ds : block_text s cs -> spaces w -> blocks_text t ds -> blocks_text (s ++ ","%char :: w ++ t) (cs ++ ds).

Definition pn_text (s : list ascii) (cs : list change) : Prop :=
  exists w t, spaces w /\ blocks_text t cs /\ s = w ++ t.
End Grammar.
