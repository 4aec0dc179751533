(* M_Pointers.v - model of shared_pointer and cow_pointer, ringing/pointers.h. *)
From Verif Require Import Base.

(* The heap: the int reference counts and the pointees by address (None once
   freed), and the deletions so far: which object, with which deletor.  A pointee
   is its value, a nat.  Reading, writing or deleting something freed is UB. *)
Record heap := mkHeap { h_ctrs : list (option nat); h_objs : list (option nat); h_log : list (nat * nat) }.
Definition heap0 : heap := mkHeap [] [] [].

(* new int(n) *)
Definition new_ctr (h : heap) (n : nat) : nat * heap :=
  (length (h_ctrs h), mkHeap (h_ctrs h ++ [Some n]) (h_objs h) (h_log h)).
(* *rc *)
Definition get_ctr (h : heap) (a : nat) : outcome nat :=
  match nth_error (h_ctrs h) a with Some (Some n) => Ret n | _ => UB end.
(* *rc = n *)
Definition set_ctr (h : heap) (a n : nat) : outcome heap :=
  _ <- get_ctr h a ;; Ret (mkHeap (upd (h_ctrs h) a (Some n)) (h_objs h) (h_log h)).
(* delete rc *)
Definition del_ctr (h : heap) (a : nat) : outcome heap :=
  _ <- get_ctr h a ;; Ret (mkHeap (upd (h_ctrs h) a None) (h_objs h) (h_log h)).
(* new T(x) *)
Definition new_obj (h : heap) (x : nat) : nat * heap :=
  (length (h_objs h), mkHeap (h_ctrs h) (h_objs h ++ [Some x]) (h_log h)).
(* reading the pointee *)
Definition get_obj (h : heap) (o : nat) : outcome nat :=
  match nth_error (h_objs h) o with Some (Some x) => Ret x | _ => UB end.
(* writing the pointee *)
Definition set_obj (h : heap) (o x : nat) : outcome heap :=
  _ <- get_obj h o ;; Ret (mkHeap (h_ctrs h) (upd (h_objs h) o (Some x)) (h_log h)).
(* deletor(ptr): nothing for a null pointer (delete 0); deletor 0 is
   delete_helper<T>::fn, others are the user's *)
Definition del_obj (h : heap) (d : nat) (p : option nat) : outcome heap :=
  match p with
  | None => Ret h
  | Some o => _ <- get_obj h o ;; Ret (mkHeap (h_ctrs h) (upd (h_objs h) o None) ((o, d) :: h_log h))
  end.
(* --*rc / ++*rc, giving the new value; decrementing 0 would be reported as UB *)
Definition dec_ctr (h : heap) (a : nat) : outcome (nat * heap) :=
  n <- get_ctr h a ;;
  match n with O => UB | S m => h <- set_ctr h a m ;; Ret (m, h) end.
Definition inc_ctr (h : heap) (a : nat) : outcome heap :=
  n <- get_ctr h a ;; set_ctr h a (S n).

(* ---- shared_pointer ---- *)
(* pointers.h:273-275 the members *)
Record sptr := mkS { s_ptr : option nat; s_del : nat; s_rc : option nat }.

(* pointers.h:209-229 shared_pointer(src, d), shared_pointer(src) (d = 0).  With oom,
   new int(1) throws: the pointee is deleted and there is no handle. *)
Definition s_new (h : heap) (p : option nat) (d : nat) (oom : bool) : outcome (option sptr * heap) :=
  if oom then h <- del_obj h d p ;; Ret (None, h)
  else let '(a, h) := new_ctr h 1 in Ret (Some (mkS p d (Some a)), h).
(* pointers.h:230 shared_pointer() *)
Definition s_null : sptr := mkS None 0 None.
(* pointers.h:232 ~shared_pointer *)
Definition s_destroy (h : heap) (s : sptr) : outcome heap :=
  match s_rc s with
  | None => Ret h
  | Some a =>
    '(n, h) <- dec_ctr h a ;;
    if n =? 0 then h <- del_obj h (s_del s) (s_ptr s) ;; del_ctr h a else Ret h
  end.
(* pointers.h:239-241 copy constructor *)
Definition s_copy (h : heap) (s : sptr) : outcome (sptr * heap) :=
  match s_rc s with
  | Some a => h <- inc_ctr h a ;; Ret (mkS (s_ptr s) (s_del s) (Some a), h)
  | None => Ret (mkS (s_ptr s) (s_del s) None, h)
  end.
(* pointers.h:235-238 swap: the two handles afterwards *)
Definition s_swap (x y : sptr) : sptr * sptr := (y, x).
(* pointers.h:242-243 operator=: the new value of x *)
Definition s_assign (h : heap) (x y : sptr) : outcome (sptr * heap) :=
  '(t, h) <- s_copy h y ;;
  let '(t, x) := s_swap t x in
  h <- s_destroy h t ;; Ret (x, h).
Definition opt_eqb (a b : option nat) : bool :=
  match a, b with Some x, Some y => x =? y | None, None => true | _, _ => false end.
(* pointers.h:246-257 reset; with oom, new int(0) throws: ++*rc; delete src *)
Definition s_reset (h : heap) (s : sptr) (src : option nat) (oom : bool) : outcome (sptr * heap) :=
  if opt_eqb (s_ptr s) src then Ret (s, h) else
  let fresh h :=
    if oom then
      match s_rc s with
      | None => UB                                      (* ++*rc with rc null *)
      | Some a => h <- inc_ctr h a ;; h <- del_obj h 0 src ;; Ret (s, h)
      end
    else
      let '(b, h) := new_ctr h 0 in
      h <- set_ctr h b 1 ;; Ret (mkS src 0 (Some b), h) in
  match s_rc s with
  | None => fresh h
  | Some a =>
    '(n, h) <- dec_ctr h a ;;
    if n =? 0 then
      h <- del_obj h (s_del s) (s_ptr s) ;;
      h <- set_ctr h a 1 ;; Ret (mkS src 0 (Some a), h)
    else fresh h
  end.

(* ---- cow_pointer ---- *)
(* pointers.h:433-435 the members *)
Record cptr := mkC { c_ptr : option nat; c_rc : nat }.
(* pointers.h:383-392 *)
Definition c_new (h : heap) (p : option nat) : cptr * heap :=
  let '(a, h) := new_ctr h 1 in (mkC p a, h).
(* pointers.h:393 *)
Definition c_destroy (h : heap) (c : cptr) : outcome heap :=
  '(n, h) <- dec_ctr h (c_rc c) ;;
  if n =? 0 then h <- del_obj h 0 (c_ptr c) ;; del_ctr h (c_rc c) else Ret h.
(* pointers.h:399-400 *)
Definition c_copy (h : heap) (c : cptr) : outcome (cptr * heap) :=
  h <- inc_ctr h (c_rc c) ;; Ret (mkC (c_ptr c) (c_rc c), h).
(* pointers.h:401-402 *)
Definition c_assign (h : heap) (x y : cptr) : outcome (cptr * heap) :=
  '(t, h) <- c_copy h y ;;
  let '(t, x) := (x, t) in
  h <- c_destroy h t ;; Ret (x, h).
(* pointers.h:405-417 reset *)
Definition c_reset (h : heap) (c : cptr) (src : option nat) : outcome (cptr * heap) :=
  if opt_eqb (c_ptr c) src then Ret (c, h) else
  '(n, h) <- dec_ctr h (c_rc c) ;;
  if n =? 0 then
    h <- del_obj h 0 (c_ptr c) ;;
    h <- set_ctr h (c_rc c) 1 ;; Ret (mkC src (c_rc c), h)
  else
    let '(b, h) := new_ctr h 0 in
    h <- set_ctr h b 1 ;; Ret (mkC src b, h).
(* pointers.h:420 clone(); ptr->clone() makes a new object of equal value *)
Definition c_clone (h : heap) (c : cptr) : outcome (cptr * heap) :=
  n <- get_ctr h (c_rc c) ;;
  match c_ptr c with
  | Some o =>
    if 1 <? n then
      x <- get_obj h o ;;
      let '(o', h) := new_obj h x in c_reset h c (Some o')
    else Ret (c, h)
  | None => Ret (c, h)
  end.
(* pointers.h:371-373 const access, then a read *)
Definition c_read (h : heap) (c : cptr) : outcome nat :=
  match c_ptr c with Some o => get_obj h o | None => UB end.
(* pointers.h:376-378 non-const access, then a write *)
Definition c_write (h : heap) (c : cptr) (x : nat) : outcome (cptr * heap) :=
  '(c, h) <- c_clone h c ;;
  match c_ptr c with
  | Some o => h <- set_obj h o x ;; Ret (c, h)
  | None => UB
  end.

(* ---- programs: variables holding handles ---- *)
Definition env (A : Type) := list (nat * A).
Fixpoint lookup {A} (e : env A) (v : nat) : option A :=
  match e with [] => None | (w, x) :: t => if w =? v then Some x else lookup t v end.
Fixpoint assign {A} (e : env A) (v : nat) (x : A) : env A :=
  match e with [] => [] | (w, y) :: t => if w =? v then (w, x) :: t else (w, y) :: assign t v x end.
Fixpoint drop {A} (e : env A) (v : nat) : env A :=
  match e with [] => [] | (w, y) :: t => if w =? v then t else (w, y) :: drop t v end.
(* use of a variable that does not exist is not a program *)
Definition var {A} (e : env A) (v : nat) : outcome A :=
  match lookup e v with Some x => Ret x | None => UB end.

Inductive sop :=
| SNew (v d : nat) (oom : bool)        (* shared_pointer<T> v(new T, d) *)
| SNull (v : nat)                      (* shared_pointer<T> v((T* )0)   *)
| SDefault (v : nat)                   (* shared_pointer<T> v           *)
| SCopy (v w : nat)                    (* shared_pointer<T> v(w)        *)
| SAssign (v w : nat)                  (* v = w                         *)
| SSwap (v w : nat)                    (* v.swap(w)                     *)
| SReset (v : nat) (oom : bool)        (* v.reset(new T)                *)
| SResetNull (v : nat)                 (* v.reset()                     *)
| SResetSame (v : nat)                 (* v.reset(v.get())              *)
| SDestroy (v : nat).                  (* v goes out of scope           *)

Definition sstate := (env sptr * heap)%type.
Definition s_step (st : sstate) (o : sop) : outcome sstate :=
  let '(e, h) := st in
  match o with
  | SNew v d oom =>
    let '(p, h) := new_obj h 0 in
    '(s, h) <- s_new h (Some p) d oom ;;
    Ret (match s with Some s => (v, s) :: e | None => e end, h)
  | SNull v =>
    '(s, h) <- s_new h None 0 false ;;
    Ret (match s with Some s => (v, s) :: e | None => e end, h)
  | SDefault v => Ret ((v, s_null) :: e, h)
  | SCopy v w => y <- var e w ;; '(s, h) <- s_copy h y ;; Ret ((v, s) :: e, h)
  | SAssign v w => x <- var e v ;; y <- var e w ;;
    '(s, h) <- s_assign h x y ;; Ret (assign e v s, h)
  | SSwap v w => x <- var e v ;; y <- var e w ;;
    let '(x', y') := s_swap x y in Ret (assign (assign e v x') w y', h)
  | SReset v oom =>
    x <- var e v ;;
    let '(p, h) := new_obj h 0 in
    '(s, h) <- s_reset h x (Some p) oom ;; Ret (assign e v s, h)
  | SResetNull v => x <- var e v ;; '(s, h) <- s_reset h x None false ;; Ret (assign e v s, h)
  | SResetSame v => x <- var e v ;; '(s, h) <- s_reset h x (s_ptr x) false ;; Ret (assign e v s, h)
  | SDestroy v => x <- var e v ;; h <- s_destroy h x ;; Ret (drop e v, h)
  end.
Definition s_run (ops : list sop) : outcome sstate := forM ops s_step ([], heap0).

Inductive cop :=
| CNew (v x : nat)                     (* cow_pointer<T> v(new T(x)) *)
| CNull (v : nat)                      (* cow_pointer<T> v           *)
| CCopy (v w : nat)
| CAssign (v w : nat)
| CSwap (v w : nat)
| CReset (v x : nat)                   (* v.reset(new T(x))          *)
| CResetNull (v : nat)
| CWrite (v x : nat)                   (* *v = x                     *)
| CDestroy (v : nat).

Definition cstate := (env cptr * heap)%type.
Definition c_step (st : cstate) (o : cop) : outcome cstate :=
  let '(e, h) := st in
  match o with
  | CNew v x => let '(p, h) := new_obj h x in
    let '(c, h) := c_new h (Some p) in Ret ((v, c) :: e, h)
  | CNull v => let '(c, h) := c_new h None in Ret ((v, c) :: e, h)
  | CCopy v w => y <- var e w ;; '(c, h) <- c_copy h y ;; Ret ((v, c) :: e, h)
  | CAssign v w => x <- var e v ;; y <- var e w ;;
    '(c, h) <- c_assign h x y ;; Ret (assign e v c, h)
  | CSwap v w => x <- var e v ;; y <- var e w ;; Ret (assign (assign e v y) w x, h)
  | CReset v x => c <- var e v ;;
    let '(p, h) := new_obj h x in
    '(c, h) <- c_reset h c (Some p) ;; Ret (assign e v c, h)
  | CResetNull v => c <- var e v ;; '(c, h) <- c_reset h c None ;; Ret (assign e v c, h)
  | CWrite v x => c <- var e v ;; '(c, h) <- c_write h c x ;; Ret (assign e v c, h)
  | CDestroy v => c <- var e v ;; h <- c_destroy h c ;; Ret (drop e v, h)
  end.
Definition c_run (ops : list cop) : outcome cstate := forM ops c_step ([], heap0).
