(* Spec_Methodset.v - a set of methods as a finite map from methods (their changes) to what was first
   appended for them. *)
From Verif Require Import Base M_Bell M_Change M_Row M_Method M_Methodset Spec_Method.
Set Implicit Arguments.
Unset Strict Implicit.
Open Scope nat_scope.

(* what is known of a method in the set: the method with its bells, its name, its facets *)
Definition info : Type := method * list ascii * (nat -> option (list ascii)).
Record mmap := mkMmap { mm_get : list change -> option info; mm_ids : nat -> Prop }.
Definition changes_dec : forall a b : list change, {a = b} + {a <> b}.
Proof. repeat decide equality. Defined.
Definition put (f : list change -> option info) (k : list change) (v : option info) : list change -> option info :=
  fun x => if changes_dec x k then v else f x.
(* the first method appended stays *)
Definition keep_first (f : list change -> option info) (k : list change) (v : info) : list change -> option info :=
  match f k with Some _ => f | None => put f k (Some v) end.

(* one operation; facets that were asked for come with an entry appended *)
Definition facets_kept (ids : nat -> Prop) (src : lsrc) (g : nat -> option (list ascii)) : Prop :=
  forall id, (ids id -> g id = ls_facet src id) /\ (~ ids id -> g id = None).
Definition add_src (a : mmap) (src : lsrc) (a' : mmap) : Prop :=
  mm_ids a' = mm_ids a /\ exists g, facets_kept (mm_ids a) src g /\
  forall k, mm_get a' k = keep_first (mm_get a) (mch (ls_m src)) (ls_m src, ls_name src, g) k.
Inductive add_srcs : mmap -> list lsrc -> mmap -> Prop :=
| as_nil a : add_srcs a [] a
| as_cons a src a1 l a2 : add_src a src a1 -> add_srcs a1 l a2 -> add_srcs a (src :: l) a2.
Inductive map_step (a : mmap) : mop -> mmap -> Prop :=
| st_append src a' : add_src a src a' -> map_step a (OpAppend src) a'
| st_range l a' : add_srcs a l a' -> map_step a (OpRange l) a'
| st_method m name : map_step a (OpAppendM m name) (mkMmap (keep_first (mm_get a) (mch m) (m, name, fun _ => None)) (mm_ids a))
| st_clear : map_step a OpClear (mkMmap (fun _ => None) (mm_ids a))
| st_store id : map_step a (OpStore id) (mkMmap (mm_get a) (fun x => mm_ids a x \/ x = id))
| st_facet m id v : map_step a (OpFacet m id v) (mkMmap (fun k => if changes_dec k (mch m) then
      match mm_get a k with Some (m', n, g) => Some (m', n, fun x => if x =? id then Some v else g x) | None => None end else mm_get a k) (mm_ids a)).
Inductive map_steps : mmap -> list mop -> mmap -> Prop :=
| ss_nil a : map_steps a [] a
| ss_cons a o a1 l a2 : map_step a o a1 -> map_steps a1 l a2 -> map_steps a (o :: l) a2.
Definition map_empty : mmap := mkMmap (fun _ => None) (fun _ => False).

(* an entry of the set says what is known of a method *)
Definition ent_says (e : ment) (v : info) : Prop :=
  let '(m, n, g) := v in en_m e = m /\ en_name e = n /\ forall id, ent_facet e id = g id.
Definition ent_key (e : ment) : list change := mch (en_m e).
Definition key_lt (a b : ment) : Prop := changes_ltb (ent_key a) (ent_key b) = true.
Definition no_clear (o : mop) : Prop := o <> OpClear.
