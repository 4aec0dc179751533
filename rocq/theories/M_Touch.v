(* M_Touch.v - model of class row_block (ringing/row.{h,cpp}) and of ringing/touch.{h,cpp}. *)
From Verif Require Import Base M_Bell M_Change M_Row.

(* row.h:243-264.  ch is a reference to the caller's vector, taken to be unchanged. *)
Record row_block := mkRB { rb_rows : list row; rb_ch : list change }.

(* row.cpp:592-598 row_block_base_size; the flags are half_lead_only and no_final_lead_head *)
Definition row_block_base_size (c : list change) (half no_final : bool) : nat :=
  let sz := length c in
  let sz := if half then sz / 2 else sz in
  if no_final then sz else sz + 1.

(* row.cpp:619-626 recalculate.  start is an int, taken to be non-negative.
   size() - 1 converted to int is -1 when there are no rows, and then nothing is done. *)
Definition recalculate (b : row_block) (start : nat) : outcome row_block :=
  rows <- forN start (length (rb_rows b) - 1) (fun rows s =>
    r <- vget rows s ;; c <- vget (rb_ch b) s ;;
    r' <- row_mul_change r c ;; vset rows (s + 1) r') (rb_rows b) ;;
  Ret (mkRB rows (rb_ch b)).

(* row.cpp:600-607; the vector is filled with default (empty) rows *)
Definition row_block_make (c : list change) (half no_final : bool) : outcome row_block :=
  let rows := repeat ([] : row) (row_block_base_size c half no_final) in
  match c with
  | [] => Ret (mkRB rows c)
  | c0 :: _ => rows <- vset rows 0 (rounds (cn c0)) ;; recalculate (mkRB rows c) 0
  end.
(* row.cpp:609-616 *)
Definition row_block_from (c : list change) (r : row) (half no_final : bool) : outcome row_block :=
  let rows := repeat ([] : row) (row_block_base_size c half no_final) in
  match rows with
  | [] => Ret (mkRB rows c)
  | _ :: _ => rows <- vset rows 0 r ;; recalculate (mkRB rows c) 0
  end.
(* row.h:257-258 set_start *)
Definition rb_set_start (b : row_block) (r : row) : outcome row_block :=
  rows <- vset (rb_rows b) 0 r ;; Ret (mkRB rows (rb_ch b)).

(* ------------------------------------------------------------------ *)
(* touch.h:66-153.  A node owns a vector of changes or lists children with repeat
   counts.  Children are pointers; nodes are not changed while iterated over, so a
   pointer is modelled by the node it points to. *)
Inductive node :=
| Changes (c : list change)
| Children (l : list (Z * node)).

(* A touch_node::const_iterator is a (cloned) pointer to an iterator object or null.
   A position in a vector or list is modelled by the elements from it to the end. *)
Inductive iter :=
| INull                                                 (* touch.h:79 *)
| IChanges (rest : list change)                         (* touch.cpp:40-43 *)
| IChildren (rest : list (Z * node)) (ci : iter) (count : Z). (* touch.cpp:69-74; count *)

(* touch.cpp:59-60, 86-89, 112-114 begin *)
Fixpoint node_begin (n : node) : iter :=
  match n with
  | Changes c => IChanges c
  | Children l => IChildren l (match l with [] => INull | (_, c) :: _ => node_begin c end) 0
  end.
(* touch.cpp:62-63, 115-117 end *)
Definition node_end (n : node) : iter :=
  match n with
  | Changes c => IChanges []
  | Children l => IChildren [] INull 0
  end.

(* touch.cpp:46, 79 operator*; touch.h:80: null is dereferenced unchecked.  At the
   end the iterator of a child list dereferences its stale child iterator. *)
Fixpoint deref (i : iter) : outcome change :=
  match i with
  | INull => UB
  | IChanges [] => UB
  | IChanges (c :: _) => Ret c
  | IChildren _ ci _ => deref ci
  end.

(* touch.h:86-87, touch.cpp:48-51, 81-84 operator==.  Positions are only compared
   within one container, where they are equal iff as much is left. *)
Fixpoint iter_eqb (i j : iter) : outcome bool :=
  match i, j with
  | INull, INull => Ret true
  | INull, _ | _, INull => UB
  | IChanges r, IChanges r' => Ret (length r =? length r')
  | IChildren r ci n, IChildren r' ci' n' =>
    if length r =? length r' then
      match r with
      | [] => Ret true
      | _ :: _ => if (n =? n')%Z then iter_eqb ci ci' else Ret false
      end
    else Ret false
  | _, _ => Ret false
  end.

(* touch.h:83 (a null iterator is left alone), touch.cpp:47, 94-109 operator++ *)
Fixpoint incr (i : iter) : outcome iter :=
  match i with
  | INull => Ret INull
  | IChanges [] => UB
  | IChanges (_ :: t) => Ret (IChanges t)
  | IChildren rest ci count =>
    ci <- incr ci ;;
    match rest with
    | [] => UB
    | (n, c) :: t =>
      e <- iter_eqb ci (node_end c) ;;
      if e then
        count <- as_int (count + 1) ;;
        if (count =? n)%Z then
          match t with
          | [] => Ret (IChildren [] ci count)
          | (_, c') :: _ => Ret (IChildren t (node_begin c') 0)
          end
        else Ret (IChildren rest (node_begin c) count)
      else Ret (IChildren rest ci count)
    end
  end.

(* touch.h:161-164; a touch is its head node, if any *)
Definition touch_begin (t : option node) : iter := match t with Some n => node_begin n | None => INull end.
Definition touch_end (t : option node) : iter := match t with Some n => node_end n | None => INull end.

(* for (i = begin; i != end; ++i) out.push_back( *i), for at most fuel steps *)
Fixpoint traverse (fuel : nat) (i last : iter) : outcome (list change) :=
  e <- iter_eqb i last ;;
  if e then Ret [] else
  match fuel with
  | O => Diverge
  | S fuel => c <- deref i ;; i <- incr i ;; l <- traverse fuel i last ;; Ret (c :: l)
  end.
Definition touch_changes (fuel : nat) (t : option node) : outcome (list change) :=
  traverse fuel (touch_begin t) (touch_end t).
