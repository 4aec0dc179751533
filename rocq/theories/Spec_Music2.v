(* Spec_Music2.v - the histories of a music object, and runs. *)
From Verif Require Import Base M_Bell M_Change M_Math M_Row M_Music Spec_Row Spec_Music.
Set Implicit Arguments.
Unset Strict Implicit.
Open Scope nat_scope.

(* the characters of patterns are not bell symbols, and symbols name bells *)
Record sym_ok (sym : symtab) : Prop := mkSymOk {
  so_any : is_symbol sym c_any = false;
  so_star : is_symbol sym c_star = false;
  so_open : is_symbol sym c_open = false;
  so_close : is_symbol sym c_close = false;
  so_brace : is_symbol sym (chr "{") = false;
  so_names : forall c, is_symbol sym c = true -> exists b, read_char sym c = Ret b
}.

(* what can be done with a music object for b bells: history l m says that m may have come
   about with the patterns l (and their scores) added to it *)
Section Hist.
Variables (sym : symtab) (b : nat).
Inductive history : list (pattern * Z * Z) -> music -> Prop :=
| hist_make : history [] (music_make b)
| hist_push l m p sh sb d m' : history l m -> pattern_ok sym p -> md_make sym (text p) sh sb = Ret d ->
    music_push sym m d = Ret m' -> history (l ++ [(p, sh, sb)]) m'
| hist_row l m junk r back m' ok : history l m -> length r = b -> NoDup r -> process_row junk m r back = Ret (m', ok) -> history l m'
| hist_rows l m junk rows back m' : history l m -> Forall (fun r => length r = b /\ NoDup r) rows ->
    process_rows junk m rows back = Ret m' -> history l m'
| hist_reset l m : history l m -> history l (reset_music m).

End Hist.

Definition has_run (pos : match_pos) (l r : list nat) : Prop :=
  match pos with anywhere => run_anywhere l r | at_front => run_first l r | at_back => run_last l r end.

(* the room the search for a run has *)
Definition run_room (b : nat) (pos : match_pos) (l : list nat) : Prop :=
  match pos with anywhere => b <= 2 * length l + 4 | at_front => True | at_back => length l < b end.

(* the runs of n of b bells *)
Definition runs (b n : nat) (dir : Z) : list (list nat) :=
  (if (0 <=? dir)%Z then map (fun i => seq i n) (seq 0 (S b - n)) else []) ++
  (if (dir <=? 0)%Z then map (fun i => rev (seq i n)) (seq 0 (S b - n)) else []).
Definition crus (b : nat) : list (list nat) :=
  if b <? 6 then [] else map (fun ij => fst ij :: snd ij :: seq 6 (b - 6)) [(3,4); (3,5); (4,3); (4,5); (5,3); (5,4)].
