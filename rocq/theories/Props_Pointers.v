(* Props_Pointers.v - property theorems about shared_pointer and cow_pointer. *)
From Verif Require Import Base M_Pointers Spec_Pointers P_Pointers P_Pointers2 P_Pointers3.
Set Implicit Arguments.
Unset Strict Implicit.
Open Scope nat_scope.

(* C42: every program runs without touching freed memory; variables point where
   they should; an object is alive iff some variable refers to it, and otherwise was
   deleted exactly once, with its own deletor; every live count belongs to a variable *)
Theorem C42_shared_pointer : forall ops, a_program ([], []) ops ->
  exists e h, s_run ops = Ret (e, h) /\
  let '(f, ds) := a_run ([], []) ops in
    (forall v, option_map s_ptr (lookup e v) = lookup f v) /\
    (forall o, (exists x, get_obj h o = Ret x) <-> refers f o) /\
    (forall o, In o (map fst (h_log h)) <-> o < length ds /\ ~ refers f o) /\
    NoDup (map fst (h_log h)) /\
    (forall o d, In (o, d) (h_log h) -> nth_error ds o = Some d) /\
    (forall a n, get_ctr h a = Ret n -> exists v s, lookup e v = Some s /\ s_rc s = Some a).
Proof. exact shared_programs. Qed.
Print Assumptions C42_shared_pointer.

(* reset on a default-constructed handle when memory runs out dereferences null *)
Theorem C42_reset_oom_refuted : s_run [SDefault 0; SReset 0 true] = UB.
Proof. reflexivity. Qed.
Print Assumptions C42_reset_oom_refuted.

Definition C42_prog : list sop :=
  [SNew 0 7 false; SCopy 1 0; SDefault 2; SAssign 2 1; SReset 0 false; SReset 2 true; SSwap 0 1; SNew 3 8 true;
   SAssign 1 1; SDestroy 0; SResetNull 2].
Example C42_case : a_program ([], []) C42_prog /\
  exists e h, s_run C42_prog = Ret (e, h) /\ h_log h = [(0, 7); (3, 8); (2, 0)].
Proof.
  split.
  - repeat (apply conj; [vm_compute; intuition discriminate|]). exact I.
  - eexists. eexists. split; vm_compute; reflexivity.
Qed.

(* C43: each variable reads the value it has in the semantics where every
   variable has its own copy; objects are deleted exactly once, when no handle is left *)
Theorem C43_cow_pointer : forall ops, v_program [] ops ->
  exists e h, c_run ops = Ret (e, h) /\
    (forall v, match lookup e v with
               | None => lookup (v_run [] ops) v = None
               | Some c => lookup (v_run [] ops) v = Some (match c_read h c with Ret x => Some x | _ => None end) /\
                           (c_read h c = UB -> c_ptr c = None)
               end) /\
    NoDup (map fst (h_log h)) /\
    (forall o, (exists x, get_obj h o = Ret x) <-> exists v c, In (v, c) e /\ c_ptr c = Some o) /\
    (forall o, o < length (h_objs h) -> In o (map fst (h_log h)) <-> ~ exists v c, In (v, c) e /\ c_ptr c = Some o).
Proof. exact cow_programs. Qed.
Print Assumptions C43_cow_pointer.

Definition C43_prog : list cop :=
  [CNew 0 5; CCopy 1 0; CWrite 1 6; CNull 2; CAssign 2 0; CWrite 0 9; CSwap 0 1; CReset 1 4; CDestroy 0].
Example C43_case : v_program [] C43_prog /\ v_run [] C43_prog = [(2, Some 5); (1, Some 4)] /\
  exists e h, c_run C43_prog = Ret (e, h) /\ map fst (h_log h) = [1; 2].
Proof.
  split; [|split; [reflexivity|]].
  - repeat (apply conj; [vm_compute; intuition discriminate|]). exact I.
  - eexists. eexists. split; vm_compute; reflexivity.
Qed.
