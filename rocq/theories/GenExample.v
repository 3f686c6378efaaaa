(** * An example for C48 and C49: three modules through generated C. *)
From Coq Require Import ZArith List Arith Lia Bool.
From Verif Require Import PathModel PathProps LoadModel FuncModel CodeModel CodeProps CompileModel CompileEval LinkModel LinkProps GenModel GenLabel GenCode GenProg GenProps GenValid.
Import ListNotations.

(** /A% is a value; /B% takes it and is a function that selects on its argument, with a
    recursive let in one branch; /Main% applies /B% to /A%, and has a literal. *)
Definition eA : tc := TUnion 1 (TStruct []).
Definition eB : tc :=
  TFunc [Arg 0] (TSelect (TVar (Arg 0)) 3 [(0, TVar (Static 0)); (1, TLet true [TStruct [TVar (Static 0)]] (TAccess true (TVar (Local 0)) 0))]
    (TAccess false (TVar (Arg 0)) 2)).
Definition eM : tc := TStruct [TApply (TVar (Arg 0)) (TVar (Arg 1)); TLiteral [2; 0]].

Example ex_wf : wf 0 0 [] eA = true /\ wf 0 1 [] eB = true /\ wf 0 2 [] eM = true.
Proof. split; [|split]; reflexivity. Qed.

Definition code_of (n : nat) (e : tc) : code * nat := match compile_code n e with Some c => c | None => (codeA, 0) end.
Definition cA : code := Eval vm_compute in fst (code_of 0 eA).
Definition cB : code := Eval vm_compute in fst (code_of 1 eB).
Definition cM : code := Eval vm_compute in fst (code_of 2 eM).
Example ex_compiled : compile_code 0 eA = Some (cA, snd (code_of 0 eA)) /\ compile_code 1 eB = Some (cB, snd (code_of 1 eB)) /\
  compile_code 2 eM = Some (cM, snd (code_of 2 eM)).
Proof. split; [|split]; vm_compute; reflexivity. Qed.

(** The profile blocks: "/A%", "/B%", ... *)
Definition blocks (z : Z) (n : nat) : list str := map (fun i => [47; z; 37; 48 + Z.of_nat i]%Z) (seq 0 n).
Definition hA := GModule nA [] cA 1.
Definition hB := GModule nB [hA] cB 2.
Definition hM := GModule nMain [hB; hA] cM 9.
Definition unit_of (names : list str) (g : gmodule) : tunit :=
  match generate names (g_module g) with Some t => t | None => mk_tunit [] [] [] (mk_exe 0 0 []) [] [] end.
Definition tA : tunit := Eval vm_compute in unit_of (blocks 65 9) hA.
Definition tB : tunit := Eval vm_compute in unit_of (blocks 66 9) hB.
Definition tM : tunit := Eval vm_compute in unit_of (blocks 77 9) hM.
Example ex_c : generate (blocks 65 9) (g_module hA) = Some tA /\ generate (blocks 66 9) (g_module hB) = Some tB /\
  generate (blocks 77 9) (g_module hM) = Some tM.
Proof. split; [|split]; vm_compute; reflexivity. Qed.

(** The functions of /B%: two, one of them with a switch. *)
Example ex_functions : length (t_funs tB) = 2 /\
  exists f, nth_error (t_funs tB) 1 = Some f /\ length (flat_map label_of (f_body f)) = 3.
Proof. split; [reflexivity|]. eexists. split; reflexivity. Qed.

Definition ex_blk (p : path) : nat := if path_eqb p nA then 1 else if path_eqb p nB then 2 else 9.

Lemma ex_reaches : forall h, reaches hM h -> h = hM \/ h = hB \/ h = hA.
Proof.
  assert (A : forall h, reaches hA h -> h = hA) by (intros h H; inversion H as [|g d z I]; subst; [auto|destruct I]).
  assert (B : forall h, reaches hB h -> h = hB \/ h = hA) by (intros h H; inversion H as [|g d z I H']; subst; [auto|destruct I as [ <- |[] ]; auto]).
  intros h H. inversion H as [|g d z I H']; subst; [auto|]. destruct I as [<-|[<-|[]]]; auto.
Qed.

Example ex_hypotheses : one_module_per_path hM /\ paths_ok hM /\ NoDup (map t_label [tA; tB; tM]) /\
  (forall h, reaches hM h -> compiled_to [tA; tB; tM] h /\ c_block (g_module h) = ex_blk (g_path h)).
Proof.
  split; [|split; [|split]].
  - intros a b Ha Hb. apply ex_reaches in Ha. apply ex_reaches in Hb. destruct Ha as [ -> | [ -> | -> ] ], Hb as [ -> | [ -> | -> ] ]; auto; discriminate.
  - intros a Ha. apply ex_reaches in Ha. destruct Ha as [ -> | [ -> | -> ] ]; repeat constructor; cbn; lia.
  - repeat constructor; cbn; intuition discriminate.
  - destruct ex_wf as [W1 [W2 W3]], ex_compiled as [C1 [C2 C3]], ex_c as [G1 [G2 G3]].
    intros h R. apply ex_reaches in R. destruct R as [ -> | [ -> | -> ] ]; split; try reflexivity.
    + exists eM, (snd (code_of 2 eM)), (blocks 77 9), tM. split; [|split; [|split]]; [exact W3|exact C3|exact G3|right; right; left; reflexivity].
    + exists eB, (snd (code_of 1 eB)), (blocks 66 9), tB. split; [|split; [|split]]; [exact W2|exact C2|exact G2|right; left; reflexivity].
    + exists eA, (snd (code_of 0 eA)), (blocks 65 9), tA. split; [|split; [|split]]; [exact W1|exact C1|exact G1|left; reflexivity].
Qed.

(** What the theorem says about it, and that the program does what it should: the function
    of /B% finds tag 1 and returns the value of /A%. *)
Definition vA {B} : val B := VUnion 1 (VStruct []).
Definition fM : val code := Eval vm_compute in match link_generated 5 hM with Some f => f | None => VType end.
Example ex_result : link_generated 5 hM = Some fM /\
  fst (icall 9 (mk_st [] 0 []) fM []) = Ret (VStruct [vA; literal_value [2; 0]]).
Proof. split; vm_compute; reflexivity. Qed.
Definition labelM : str := Eval vm_compute in match label_for_path nMain with Some l => l | None => [] end.
Definition imgM : cgm := Eval vm_compute in match c_image 4 [tA; tB; tM] labelM with Some g => g | None => CG 0 tA [] end.
Definition gM' : gval := Eval vm_compute in match c_link 5 ex_blk imgM with Some f => f | None => VType end.
Example ex_same : label_for_path nMain = Some labelM /\ c_image 4 [tA; tB; tM] labelM = Some imgM /\
  c_link 5 ex_blk imgM = Some gM' /\
  fst (gcall [tA; tB; tM] 9 (mk_st [] 0 []) gM' []) = Ret (VStruct [vA; literal_value [2; 0]]).
Proof. split; [|split; [|split]]; vm_compute; reflexivity. Qed.

(** The C files are valid, by the theorem. *)
Example ex_valid : valid_c tA /\ valid_c tB /\ valid_c tM.
Proof.
  destruct ex_wf as [W1 [W2 W3]], ex_compiled as [C1 [C2 C3]], ex_c as [G1 [G2 G3]].
  assert (K : forall z n, Forall (fun s : str => exists r, s = 47%Z :: r \/ s = 37%Z :: r) (blocks z n)).
  { intros z n. unfold blocks. apply Forall_forall. intros s I. apply in_map_iff in I. destruct I as [i [<- _]]. eauto. }
  split; [|split].
  - exact (generated_c_is_valid 0 eA (g_module hA) _ _ _ W1 C1 (K 65%Z 9) G1).
  - exact (generated_c_is_valid 1 eB (g_module hB) _ _ _ W2 C2 (K 66%Z 9) G2).
  - exact (generated_c_is_valid 2 eM (g_module hM) _ _ _ W3 C3 (K 77%Z 9) G3).
Qed.
