(* M_Splices.v - model of apps/splices/splices.cpp: testing a pair of methods for splices,
   describing them, the table of groups of methods and the run over a library.  The printing of a
   falseness table or a group (-F, -G), the rows read from a file and the printing of the table
   are not modelled; numbers of bells are positive. *)
From Verif Require Import Base M_Bell M_Change M_Math M_Row M_Extent M_Group M_Touch M_PN M_Method M_False.
Set Implicit Arguments.
Unset Strict Implicit.
Open Scope nat_scope.

(* splices.cpp:46-58 arguments; sl_only is -1 unless -l is given, sl_given the methods given on the command
   line *)
Record slargs := mkSlargs {
  sl_bells : nat; sl_null : bool; sl_in : bool; sl_out : bool; sl_half : bool; sl_same_le : bool;
  sl_only : Z; sl_group : bool; sl_filter : bool; sl_given : list method }.

(* what describe_splice makes its text from: the number of leads, the pivot bell and the bells
   that are swapped.  Two texts are equal just when these are. *)
Record splice_desc := mkDesc { d_leads : nat; d_pivot : option nat; d_swaps : option (nat * nat) }.
Definition opt_eqb {X} (eqb : X -> X -> bool) (a b : option X) : bool :=
  match a, b with Some a, Some b => eqb a b | None, None => true | _, _ => false end.
Definition desc_eqb (a b : splice_desc) : bool :=
  (d_leads a =? d_leads b) && opt_eqb Nat.eqb (d_pivot a) (d_pivot b) &&
  opt_eqb (fun p q => (fst p =? fst q) && (snd p =? snd q)) (d_swaps a) (d_swaps b).

(* splices.cpp:469-482 get_pivot, 484-499 get_swapping_pair: the first that there is *)
Definition get_pivot (sg : group) : option nat :=
  List.find (fun b => forallb (fun i => nth b i 256 =? b) (gv sg)) (seq 1 (gb sg - 1)).
Definition get_swapping_pair (sg : group) : option (nat * nat) :=
  List.find (fun p => let '(b1, b2) := p in
    forallb (fun i => ((nth b1 i 256 =? b1) && (nth b2 i 256 =? b2)) || ((nth b1 i 256 =? b2) && (nth b2 i 256 =? b1))) (gv sg))
    (flat_map (fun b1 => map (pair b1) (seq (S b1) (gb sg - S b1))) (seq 1 (gb sg - 1))).
(* factorial of an int: a negative one becomes a large unsigned one and the product vanishes *)
Definition factorial_int (k : Z) : Z := if (k <? 0)%Z then 0%Z else factorial (Z.to_nat k).
(* splices.cpp:501-522 describe_splice.  The bell 255 is taken for bell(-1): no bell. *)
Definition describe_splice (sg : group) : splice_desc :=
  let n := Z.of_nat (gb sg) in let size := Z.of_nat (length (gv sg)) in
  let f2 := factorial_int (n - 1 - 2) in
  let f1 := (f2 * (n - 1 - 1))%Z in
  mkDesc (length (gv sg) / 2)
    (if (2 <? size)%Z && ((size =? f1)%Z || (size =? Z.quot f1 2)%Z)
     then match get_pivot sg with Some b => if b =? 255 then None else Some b | None => None end else None)
    (if (2 <? size)%Z && ((size =? f2)%Z || (size =? Z.quot f2 2)%Z)
     then match get_swapping_pair sg with Some (b1, b2) => if (b1 =? 255) || (b2 =? 255) then None else Some (b1, b2) | None => None end else None).

Section A.
Variable sym : symtab.
Variable fuel : nat.
Variable A : slargs.

(* splices.cpp:528-541 *)
Definition sl_flags : Z :=
  ((if sl_in A then F_IN_COURSE else if sl_out A then F_OUT_OF_COURSE else 0) + (if sl_half A then F_HALF_LEAD else 0))%Z.
Definition max_size : Z :=
  let f := factorial (sl_bells A - 1) in if sl_in A || sl_out A then (f / 2)%Z else f.
(* splices.cpp:524-577 test_splice(method, rows): the empty text is None *)
Definition test_rows (a : method) (b : list row) : outcome (option splice_desc) :=
  ft <- falseness_method_rows sym sl_flags a b ;;
  sg <- falseness_group fuel sym sl_flags ft ;;
  let size := Z.of_nat (length (gv sg)) in
  if negb (sl_null A) && (size =? max_size)%Z then Ret None
  else if negb (sl_only A =? -1)%Z && negb (size =? sl_only A * 2)%Z then Ret None
  else Ret (Some (describe_splice sg)).
(* splices.cpp:579-598 test_splice(method, method), up to saving and printing *)
Definition test_pair (a b : method) : outcome (option splice_desc) :=
  if negb (sl_group A) && sl_same_le A &&
     negb (change_eqb (last (mch a) (mkChange 0 [])) (last (mch b) (mkChange 0 []))) then Ret None
  else rb <- row_block_from (mch b) (rounds (sl_bells A)) (sl_half A) true ;; test_rows a (rb_rows rb).

(* operator== of methods: that of vectors of changes; set<method> goes by the same, names are
   not compared *)
Fixpoint meth_eqb_ch (a b : list change) : bool :=
  match a, b with
  | [], [] => true
  | x :: a, y :: b => change_eqb x y && meth_eqb_ch a b
  | _, _ => false
  end.
Definition meth_eqb (a b : method) : bool := meth_eqb_ch (mch a) (mch b).
Definition mem (x : method) (s : list method) : bool := existsb (meth_eqb x) s.
(* set<method>; the order is not modelled *)
Definition insert (x : method) (s : list method) : list method := if mem x s then s else s ++ [x].
Definition insert_all (l s : list method) : list method := fold_left (fun s x => insert x s) l s.

(* splices.cpp:434-467 save_splice; the rest of the loop once an entry has been found ... *)
Definition entry : Type := splice_desc * list method.
Definition hit_entry (a b : method) (d : splice_desc) (e : entry) : bool := desc_eqb d (fst e) && (mem a (snd e) || mem b (snd e)).
Fixpoint merge_rest (a b : method) (d : splice_desc) (s : list method) (t : list entry) : list method * list entry :=
  match t with
  | [] => (s, [])
  | e :: t => if hit_entry a b d e then merge_rest a b d (insert_all (snd e) s) t
              else let '(s', t') := merge_rest a b d s t in (s', e :: t')
  end.
(* ... and the loop before, and the new entry *)
Fixpoint save_splice (a b : method) (d : splice_desc) (t : list entry) : list entry :=
  match t with
  | [] => [(d, insert b (insert a []))]
  | e :: t => if hit_entry a b d e then let '(s', t') := merge_rest a b d (insert b (insert a (snd e))) t in (fst e, s') :: t'
              else e :: save_splice a b d t
  end.

(* what is put out: a splice shown, a method passed by the filter *)
Inductive sl_out_item := Shown (a b : method) (d : splice_desc) | Passed (m : method).
Record slst := mkSlst { st_table : list entry; st_out : list sl_out_item }.
(* splices.cpp:566-576 and 593-597: showing and saving *)
Definition test_splice (s : slst) (a b : method) : outcome (slst * bool) :=
  r <- test_pair a b ;;
  match r with
  | None => Ret (s, false)
  | Some d => Ret (mkSlst (if sl_group A || sl_filter A then save_splice a b d (st_table s) else st_table s)
                          (if sl_group A then st_out s else st_out s ++ [Shown a b d]), true)
  end.
(* splices.cpp:425-432 has_lead_splices: the text is "1-lead" *)
Definition has_lead_splices (t : list entry) (m : method) : bool :=
  existsb (fun e => desc_eqb (fst e) (mkDesc 1 None None) && mem m (snd e)) t.
(* splices.cpp:611-650 find_splices: one method of the library *)
Definition find_one (st : slst * list method) (m : method) : outcome (slst * list method) :=
  let '(s, meths) := st in
  r <- (match sl_given A with
        | [g] => x <- (if meth_eqb m g then Ret (s, false) else test_splice s m g) ;; Ret (x, meths)
        | _ => s' <- forM meths (fun s b => r <- test_splice s m b ;; Ret (fst r)) s ;;
               Ret (s', negb (has_lead_splices (st_table s') m), meths ++ [m])
        end) ;;
  let '(s', ok, meths') := r in
  Ret (if sl_filter A && (ok : bool) then mkSlst (st_table s') (st_out s' ++ [Passed m]) else s', meths').
Definition find_splices (lib : list method) : outcome slst :=
  r <- forM lib find_one (mkSlst [] [], []) ;; Ret (fst r).
End A.
