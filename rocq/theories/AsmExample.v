(** * An example for C51: the three modules of GenExample through generated assembly. *)
From Coq Require Import ZArith List Arith Lia Bool.
From Verif Require Import PathModel PathProps LoadModel FuncModel CodeModel CodeProps CompileModel CompileEval LinkModel LinkProps GenModel GenLabel GenCode GenProg GenProps GenExample AsmModel AsmSearch AsmCode AsmProg.
Import ListNotations.

Definition aunit_of (names : list str) (g : gmodule) : aunit :=
  match asm_generate names (g_module g) with Some t => t | None => mk_aunit [] [] [] (mk_exe 0 0 []) [] end.
Definition aA : aunit := Eval vm_compute in aunit_of (blocks 65 9) hA.
Definition aB : aunit := Eval vm_compute in aunit_of (blocks 66 9) hB.
Definition aM : aunit := Eval vm_compute in aunit_of (blocks 77 9) hM.
Example ex_asm : asm_generate (blocks 65 9) (g_module hA) = Some aA /\ asm_generate (blocks 66 9) (g_module hB) = Some aB /\
  asm_generate (blocks 77 9) (g_module hM) = Some aM.
Proof. split; [|split]; vm_compute; reflexivity. Qed.

(** The hypotheses of AsmProg.asm_program_same hold of them. *)
Theorem ex_asm_hypotheses : one_module_per_path hM /\ paths_ok hM /\ NoDup (map a_label [aA; aB; aM]) /\
  (forall h, reaches hM h -> assembled_to [aA; aB; aM] h /\ c_block (g_module h) = ex_blk (g_path h)).
Proof.
  destruct ex_hypotheses as [H1 [H2 _]]. split; [exact H1|]. split; [exact H2|]. split.
  - repeat constructor; cbn; intuition discriminate.
  - destruct ex_wf as [W1 [W2 W3]], ex_compiled as [C1 [C2 C3]], ex_asm as [G1 [G2 G3]].
    intros h R. apply ex_reaches in R. destruct R as [ -> | [ -> | -> ] ]; split; try reflexivity.
    + exists eM, (snd (code_of 2 eM)), (blocks 77 9), aM. split; [|split; [|split]]; [exact W3|exact C3|exact G3|right; right; left; reflexivity].
    + exists eB, (snd (code_of 1 eB)), (blocks 66 9), aB. split; [|split; [|split]]; [exact W2|exact C2|exact G2|right; left; reflexivity].
    + exists eA, (snd (code_of 0 eA)), (blocks 65 9), aA. split; [|split; [|split]]; [exact W1|exact C1|exact G1|left; reflexivity].
Qed.

Definition aimgM : cgm := Eval vm_compute in match c_image 4 (map data_of [aA; aB; aM]) labelM with Some g => g | None => CG 0 tA [] end.
Definition aM' : gval := Eval vm_compute in match c_link 5 ex_blk aimgM with Some f => f | None => VType end.
(** The machine runs the program to the value of the interpreter; with a stack that is not at
    a multiple of 16 it faults. *)
Theorem ex_asm_runs :
  c_image 4 (map data_of [aA; aB; aM]) labelM = Some aimgM /\ c_link 5 ex_blk aimgM = Some aM' /\
  fst (acall (fun _ => 4096%Z) [aA; aB; aM] 9 (mk_st [] 0 []) aM' []) = Ret (VStruct [vA; literal_value [2; 0]]) /\
  fst (acall (fun _ => 4104%Z) [aA; aB; aM] 9 (mk_st [] 0 []) aM' []) = Crash.
Proof. split; [|split; [|split]]; vm_compute; reflexivity. Qed.

(** The code for a select with tags 1, 4, 6 and 8 of 10 (the lines of lib/aarch64.c:528-590). *)
Example ex_search : emit_search 4 2 7 0 10 [(1, 11); (4, 12); (6, 13); (8, 14)] 15 0 =
  Some ([Ins (CmpI X0 6); Ins (Beq (LPc 2 13)); Ins (Bcc (LSearch 2 7 0));
         Ins (CmpI X0 8); Ins (Beq (LPc 2 14)); Ins (Bcc (LPc 2 15)); Ins (B (LPc 2 15));
         Lab (LSearch 2 7 0); Ins (CmpI X0 4); Ins (Beq (LPc 2 12)); Ins (Bcc (LSearch 2 7 1)); Ins (B (LPc 2 15));
         Lab (LSearch 2 7 1); Ins (CmpI X0 1); Ins (Beq (LPc 2 11)); Ins (Bcc (LPc 2 15)); Ins (B (LPc 2 15))], 2).
Proof. vm_compute. reflexivity. Qed.
