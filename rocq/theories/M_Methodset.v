(* M_Methodset.v - model of ringing/methodset.cpp and methodset.h.  Facet ids are numbers, facet
   values texts.  A std::set is the list of its elements in order. *)
From Verif Require Import Base M_Bell M_Change M_Row M_Method.
Open Scope nat_scope.

(* operator< of method is that of vector<change> (lexicographical_compare): bells and name are
   not looked at *)
Fixpoint changes_ltb (a b : list change) : bool :=
  match a, b with
  | [], [] => false
  | [], _ :: _ => true
  | _ :: _, [] => false
  | x :: a, y :: b => if change_ltb x y then true else if change_ltb y x then false else changes_ltb a b
  end.
(* methodset.cpp:44-62 entry: a method, its name and its facets (std::map, here an association list
   with the latest first) *)
Record ment := mkMent { en_m : method; en_name : list ascii; en_facets : list (nat * list ascii) }.
Definition ment_ltb (a b : ment) : bool := changes_ltb (mch (en_m a)) (mch (en_m b)).
(* methodset.cpp:145-153 get_facet; 57-58 set_facet *)
Definition ent_facet (e : ment) (id : nat) : option (list ascii) :=
  match List.find (fun p => fst p =? id) (en_facets e) with Some p => Some (snd p) | None => None end.
Definition ent_set_facet (e : ment) (id : nat) (v : list ascii) : ment := mkMent (en_m e) (en_name e) ((id, v) :: en_facets e).
(* methodset.cpp:105-112 *)
Record mset := mkMset { ms_data : list ment; ms_ids : list nat }.
Definition mset_new : mset := mkMset [] [].
(* std::set::insert: nothing happens when there is an equivalent element *)
Fixpoint set_ins (e : ment) (l : list ment) : list ment :=
  match l with
  | [] => [e]
  | x :: t => if ment_ltb e x then e :: l else if ment_ltb x e then x :: set_ins e t else l
  end.
(* std::set::find *)
Definition set_find (e : ment) (l : list ment) : option ment := List.find (fun x => negb (ment_ltb x e) && negb (ment_ltb e x)) l.

(* an entry of another library *)
Record lsrc := mkLsrc { ls_m : method; ls_name : list ascii; ls_facet : nat -> option (list ascii) }.
(* methodset.cpp:132-142 entry(library_entry, ids) *)
Definition ent_of (src : lsrc) (ids : list nat) : ment :=
  fold_left (fun e id => match ls_facet src id with Some v => ent_set_facet e id v | None => e end) ids (mkMent (ls_m src) (ls_name src) []).
(* methodset.cpp:122-130 append *)
Definition mset_append (s : mset) (src : lsrc) : mset := mkMset (set_ins (ent_of src (ms_ids s)) (ms_data s)) (ms_ids s).
Definition mset_append_m (s : mset) (m : method) (name : list ascii) : mset := mkMset (set_ins (mkMent m name []) (ms_data s)) (ms_ids s).
(* methodset.h:78-83: append of a range, and how many *)
Definition mset_append_all (s : mset) (l : list lsrc) : mset * nat := (fold_left mset_append l s, length l).
(* methodset.cpp:100-103 clear, size, store_facet *)
Definition mset_clear (s : mset) : mset := mkMset [] (ms_ids s).
Definition mset_size (s : mset) : nat := length (ms_data s).
Definition mset_store (s : mset) (id : nat) : mset := mkMset (ms_data s) (ms_ids s ++ [id]).
(* methodset.cpp:191-198 find *)
Definition mset_find (s : mset) (m : method) : option ment := set_find (mkMent m [] []) (ms_data s).
(* find(m).set_facet(v), methodset.cpp:87-88: the element found is changed where it is *)
Definition mset_set_facet (s : mset) (m : method) (id : nat) (v : list ascii) : mset :=
  mkMset (map (fun x => if negb (ment_ltb x (mkMent m [] [])) && negb (ment_ltb (mkMent m [] []) x) then ent_set_facet x id v else x) (ms_data s)) (ms_ids s).

(* methodset.cpp:156-177 readentry and begin: where an iterator is (None: not valid).  ++ on an
   iterator goes to the next element of the set as it is then; one whose element is gone is
   undefined. *)
Fixpoint after_key (k : ment) (l : list ment) : option (list ment) :=
  match l with
  | [] => None
  | x :: t => if negb (ment_ltb x k) && negb (ment_ltb k x) then Some t else after_key k t
  end.
Definition mset_readentry (s : mset) (it : option ment) : outcome (option ment) :=
  match it with
  | None => Ret (hd_error (ms_data s))
  | Some k => match after_key k (ms_data s) with Some t => Ret (hd_error t) | None => UB end
  end.
(* what a program can do to a set *)
Inductive mop :=
| OpAppend (src : lsrc) | OpAppendM (m : method) (name : list ascii) | OpRange (l : list lsrc) | OpClear
| OpStore (id : nat) | OpFacet (m : method) (id : nat) (v : list ascii).
Definition mset_do (s : mset) (o : mop) : mset :=
  match o with
  | OpAppend src => mset_append s src
  | OpAppendM m name => mset_append_m s m name
  | OpRange l => fst (mset_append_all s l)
  | OpClear => mset_clear s
  | OpStore id => mset_store s id
  | OpFacet m id v => mset_set_facet s m id v
  end.
Definition mset_dos (s : mset) (l : list mop) : mset := fold_left mset_do l s.
(* for (i = s.begin(); i != s.end(); ++i) with operations on the set in the body: the entries visited
   and the set at the end *)
Fixpoint mset_visit (fuel : nat) (s : mset) (it : option ment) (todo : list (list mop)) : outcome (list ment * mset) :=
  match fuel with
  | O => Diverge
  | S fuel =>
    it <- mset_readentry s it ;;
    match it with
    | None => Ret ([], s)
    | Some x => '(r, s) <- mset_visit fuel (mset_dos s (List.hd [] todo)) (Some x) (tl todo) ;; Ret (x :: r, s)
    end
  end.
