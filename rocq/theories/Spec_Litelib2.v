(* Spec_Litelib2.v - what an entry read says, and what is written for an entry. *)
From Verif Require Import Base M_Bell M_Litelib Spec_Litelib.
Set Implicit Arguments.
Unset Strict Implicit.
Open Scope nat_scope.

(* the entry answers bells(), pn() and the payload with these *)
Definition says (e : lite_entry) (v : Z * list ascii * list ascii) : Prop :=
  let '(b, p, q) := v in le_b e = b /\ lite_pn e = Ret p /\ lite_payload e = Ret q.
(* the text without the bytes 239 187 191 at the front, or as many of them as there are *)
Definition after_bom (t : list ascii) : list ascii :=
  match t with
  | c1 :: t1 => if nat_of_ascii c1 =? 239 then
      match t1 with
      | c2 :: t2 => if nat_of_ascii c2 =? 187 then
          match t2 with c3 :: t3 => if nat_of_ascii c3 =? 191 then t3 else t2 | [] => [] end
        else t1
      | [] => []
      end else t
  | [] => []
  end.
Definition bom : list ascii := map ascii_of_nat [239; 187; 191].
Definition no_nl (s : list ascii) : bool := forallb (fun c => negb (is_nl c)) s.
(* what follows the tab *)
Definition text_written (form : name_form) (e : out_entry) : list ascii :=
  match form with
  | nf_none => []
  | nf_payload_or_name => match oe_payload e with Some p => p | None => oe_name e end
  | nf_payload => match oe_payload e with Some p => p | None => [] end
  | nf_name => oe_name e
  | nf_full_title => oe_title e
  end.
(* the text written for an entry can be read *)
Definition writable (form : name_form) (e : out_entry) : Prop :=
  forallb nonwhite (oe_pn e) = true /\ no_nl (text_written form e) = true /\ trimmed (text_written form e) = text_written form e.
(* the library is asked for any number of bells, or for this entry's *)
Definition wanted_b' (req : Z) (e : out_entry) : bool := (req =? 0)%Z || (oe_bells e =? req)%Z.
