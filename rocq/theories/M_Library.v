(* M_Library.v - model of ringing/library.cpp, library.h and libout.cpp. *)
From Verif Require Import Base M_Bell M_Change M_Row M_Method M_MethClass M_Names M_Stream M_Litelib M_Mslib.
Open Scope nat_scope.

(* libbase.h:77-126 an entry: what its accessors answer *)
Record lent := mkLent { ln_name : outcome (list ascii); ln_base : outcome (list ascii); ln_pn : outcome (list ascii); ln_bells : Z }.
(* a library as its iterators show it: the entries, and what happens where there is none left *)
Record lib := mkLib { lib_ents : list lent; lib_end : outcome unit }.
(* library.cpp:211-214 meth; the method and its name *)
Definition lent_meth (sym : symtab) (e : lent) : outcome (method * list ascii) :=
  p <- ln_pn e ;; n <- ln_base e ;; m <- method_of_pn sym p (Z.to_nat (ln_bells e)) ;; Ret (m, n).
(* libbase.h:112 fullname *)
Definition lent_title (sym : symtab) (junk : nat) (e : lent) : outcome (list ascii) :=
  '(m, n) <- lent_meth sym e ;; fullname junk n m 9999.

(* for (i = begin(); i != end(); ++i) if (test) return *i *)
Fixpoint scan (test : lent -> outcome bool) (es : list lent) (fin : outcome unit) : outcome (option lent) :=
  match es with
  | [] => _ <- fin ;; Ret None
  | e :: es => b <- test e ;; if b : bool then Ret (Some e) else scan test es fin
  end.
(* library.cpp:157-191 load; invalid_name is an invalid_argument *)
Definition lib_load (sym : symtab) (l : lib) (name : list ascii) (stage : Z) : outcome (method * list ascii) :=
  let methname := map to_lower name in
  r <- scan (fun e => n <- ln_name e ;; Ret (list_ascii_eqb (map to_lower n) methname && ((stage =? 0)%Z || (ln_bells e =? stage)%Z))) (lib_ents l) (lib_end l) ;;
  match r with Some e => lent_meth sym e | None => Throw InvalidArgument end.
(* operator== of vector<change> *)
Fixpoint changes_eqb (a b : list change) : bool :=
  match a, b with
  | [], [] => true
  | x :: a, y :: b => change_eqb x y && changes_eqb a b
  | _, _ => false
  end.
(* library.cpp:193-209 find (None: an entry that is null) *)
Definition lib_find (sym : symtab) (l : lib) (m : method) : outcome (option lent) :=
  scan (fun e => '(m', _) <- lent_meth sym e ;; Ret (changes_eqb (mch m') (mch m))) (lib_ents l) (lib_end l).
Definition lib_find_title (sym : symtab) (junk : nat) (l : lib) (title : list ascii) : outcome (option lent) :=
  scan (fun e => t <- lent_title sym junk e ;; Ret (list_ascii_eqb t title)) (lib_ents l) (lib_end l).
Fixpoint collect {A B} (f : A -> outcome B) (l : list A) : outcome (list B) :=
  match l with [] => Ret [] | x :: l => y <- f x ;; r <- collect f l ;; Ret (y :: r) end.
(* library.cpp:116-145 dir, mdir: what is appended to the list given (and its length is returned);
   a library that is not good gives nothing *)
Definition lib_dir (good : bool) (l : lib) : outcome (list (list ascii)) :=
  if good then r <- collect ln_name (lib_ents l) ;; _ <- lib_end l ;; Ret r else Ret [].
Definition lib_mdir (sym : symtab) (good : bool) (l : lib) : outcome (list (method * list ascii)) :=
  if good then r <- collect (lent_meth sym) (lib_ents l) ;; _ <- lib_end l ;; Ret r else Ret [].

(* library.cpp:62-79 split_path *)
Fixpoint split_path_loop (fuel : nat) (p : list ascii) (i : nat) : outcome (list (list ascii)) :=
  match fuel with
  | O => Diverge
  | S fuel =>
    match find_chr p (chr ":") i with
    | None => if 0 <? length p then t <- substr p i None ;; Ret [t] else Ret []
    | Some j => t <- substr p i (Some (j - i)) ;; r <- split_path_loop fuel p (j + 1) ;; Ret (t :: r)
    end
  end.
Definition split_path (p : list ascii) : outcome (list (list ascii)) := split_path_loop (length p + 2) p 0.
(* library.cpp:88-94 try_load_lib; a type is a function from a file name to a library, if it can
   read the file *)
Fixpoint try_types {L} (types : list (list ascii -> option L)) (f : list ascii) : option L :=
  match types with
  | [] => None
  | t :: types => match t f with Some l => Some l | None => try_types types f end
  end.
Fixpoint try_locs {L} (types : list (list ascii -> option L)) (locs : list (list ascii)) (f : list ascii) : option L :=
  match locs with
  | [] => None
  | d :: locs => match try_types types (d ++ [chr "/"] ++ f) with Some l => Some l | None => try_locs types locs f end
  end.
(* library.cpp:96-114 library(filename), not on Windows *)
Definition lib_open {L} (types : list (list ascii -> option L)) (path f : list ascii) : outcome (option L) :=
  let isabs := starts_chr (chr "/") f in
  if negb (0 <? length f) then Ret None else
  match try_types types f with
  | Some l => Ret (Some l)
  | None => if isabs then Ret None else locs <- split_path path ;; Ret (try_locs types locs f)
  end.

(* litelib.cpp and mslib.cpp entries as library entries; the entries of a litelib are read as
   they are asked for, so that an exception comes after those before it *)
Definition lent_of_lite (pin : bool) (e : lite_entry) : lent := mkLent (lite_name pin e) (lite_base_name pin e) (lite_pn e) (le_b e).
Definition lent_of_ms (e : ms_entry) : lent := mkLent (ms_name e) (ms_name e) (ms_pn e) (me_b e).
Fixpoint lite_lib (fuel : nat) (pin : bool) (req : Z) (s : istr) (e : lite_entry) : lib :=
  match fuel with
  | O => mkLib [] Diverge
  | S fuel =>
    match lite_next req s e with
    | Ret (true, e, s) => let l := lite_lib fuel pin req s e in mkLib (lent_of_lite pin e :: lib_ents l) (lib_end l)
    | Ret (false, _, _) => mkLib [] (Ret tt)
    | Throw x => mkLib [] (Throw x)
    | UB => mkLib [] UB
    | Diverge => mkLib [] Diverge
    end
  end.
(* the library that litelib(b, is) reads *)
Definition lite_library (pin : bool) (req : Z) (text : list ascii) : lib := lite_lib (length text + 3) pin req (skip_bom (is_open text)) (mkLE [] 0 req).

(* libout.cpp:54-83 multilibout: outputers are texts (or lists) added to *)
Definition mlo_append {E} (outs : list (list E)) (e : E) : list (list E) := map (fun o => o ++ [e]) outs.
