(* M_Names.v - model of method::classname, stagename and fullname (ringing/method.cpp).
   Texts are lists of characters; a name has no NUL in it. *)
From Verif Require Import Base M_Bell M_Change M_Row M_Method M_MethClass M_Dim.
Open Scope nat_scope.

(* method.cpp:66-78 txt_classes[12]; the last element is left NULL *)
Definition txt_classes : list (list ascii) :=
  [ []; []; str "Bob"; str "Place"; str "Treble Bob"; str "Surprise"; str "Delight"; str "Treble Place";
    str "Alliance"; str "Hybrid"; str "Slow Course" ].
(* method.cpp:80-101 txt_stages[20] *)
Definition txt_stages : list (list ascii) :=
  [ str "Singles"; str "Minimus"; str "Doubles"; str "Minor"; str "Triples"; str "Major"; str "Caters";
    str "Royal"; str "Cinques"; str "Maximus"; str "Sextuples"; str "Fourteen"; str "Septuples"; str "Sixteen";
    str "Octuples"; str "Eighteen"; str "Nonuples"; str "Twenty"; str "Decuples"; str "Twenty-two" ].
(* method.cpp:104,106 *)
Definition txt_differential : list ascii := str "Differential".
Definition txt_little : list ascii := str "Little".
Definition is_empty {A} (l : list A) : bool := match l with [] => true | _ => false end.
Definition M_MASK : Z := 15.

(* method.cpp:149-170 classname.  Reading txt_classes[11][0] dereferences NULL and indices
   12 to 15 are outside the array: both undefined. *)
Definition classname (cl year : Z) : outcome (list ascii) :=
  let s := if has cl M_DIFFERENTIAL then txt_differential else [] in
  let s := if has cl M_LITTLE then (s ++ (if is_empty s then [] else [chr " "])) ++ txt_little else s in
  let cl := if (2019 <=? year)%Z && (Z.land cl M_MASK =? M_HYBRID)%Z then Z.land cl (Z.lnot M_MASK) else cl in
  t <- vget txt_classes (Z.to_nat (Z.land cl M_MASK)) ;;
  Ret (if is_empty t then s else (s ++ (if is_empty s then [] else [chr " "])) ++ t).

(* method.cpp:414-424 stagename: snprintf keeps seven characters of the number *)
Definition stagename (n : Z) : outcome (list ascii) :=
  if (3 <=? n)%Z && (n <=? 22)%Z then vget txt_stages (Z.to_nat (n - 3)) else Ret (firstn 7 (print_int n)).

(* method.cpp:436-457 fullname; name is myname *)
Definition no_class (name : list ascii) (bells : nat) : bool :=
  existsb (list_ascii_eqb name) [str "Grandsire"; str "Reverse Grandsire"; str "Double Grandsire"; str "Little Grandsire"] ||
  ((5 <? bells) && existsb (list_ascii_eqb name) [str "Union"; str "Double Union"; str "Reverse Union"]).
Definition fullname (junk : nat) (name : list ascii) (m : method) (year : Z) : outcome (list ascii) :=
  cl <- methclass junk m year ;;
  let r := name ++ (if is_empty name then [] else [chr " "]) in
  r <- (if no_class name (mb m) then Ret r else
        cn <- classname cl year ;; Ret (r ++ cn ++ (if is_empty cn then [] else [chr " "]))) ;;
  st <- stagename (Z.of_nat (mb m)) ;;
  Ret (r ++ st).
