(** * Programs of generated C files do what the interpreter does (C48). *)
From Coq Require Import ZArith List Arith Lia Bool.
From Verif Require Import PathModel PathProps LoadModel FuncModel CodeModel CodeProps CompileModel CompileEval CompileRel CompileCalls CompileStatic LinkModel LinkProps GenModel GenLabel GenCode FuncSim GenRun.
Import ListNotations.

(** ** The functions of a C file *)

Lemma collect_eq : forall c, collect c = c :: flat_map (fun p => match snd p with IFunc _ _ c' _ => collect c' | _ => [] end) (code_instrs c).
Proof.
  intros [na ns nl b l]. cbn [collect code_instrs]. f_equal. induction l as [|[ops i] l IH]; [reflexivity|]. cbn [flat_map snd]. rewrite IH. reflexivity.
Qed.
Lemma collect_self : forall c, In c (collect c).
Proof. intros c. rewrite collect_eq. left. auto. Qed.

(** A code is as big as all it contains. *)
Fixpoint code_size (c : code) : nat :=
  match c with
  | Code _ _ _ _ l =>
    S ((fix go (l : list (list prof_op * instr)) : nat :=
          match l with [] => 0 | (_, i) :: r => match i with IFunc _ _ c' _ => code_size c' | _ => 0 end + go r end) l)
  end.
Lemma code_size_in : forall c ops d off c' sc, In (ops, IFunc d off c' sc) (code_instrs c) -> code_size c' < code_size c.
Proof.
  intros [na ns nl b l] ops d off c' sc I. cbn [code_instrs] in I. cbn [code_size].
  assert (code_size c' <= (fix go (l : list (list prof_op * instr)) : nat :=
          match l with [] => 0 | (_, i) :: r => match i with IFunc _ _ c' _ => code_size c' | _ => 0 end + go r end) l); [|lia].
  induction l as [|[ops' i] l IH]; [destruct I|]. destruct I as [E|I]; [injection E as -> ->; lia|]. specialize (IH I). lia.
Qed.

Lemma collect_in : forall c ops d off c' sc, In (ops, IFunc d off c' sc) (code_instrs c) -> forall x, In x (collect c') -> In x (collect c).
Proof.
  intros c ops d off c' sc I x Ix. rewrite (collect_eq c). right. apply in_flat_map. exists (ops, IFunc d off c' sc). auto.
Qed.
Lemma collect_trans : forall n a b x, code_size a <= n -> In b (collect a) -> In x (collect b) -> In x (collect a).
Proof.
  induction n as [|n IH]; intros a b x Sz Ib Ix; [destruct a; cbn in Sz; lia|].
  rewrite collect_eq in Ib. destruct Ib as [<-|Ib]; auto. apply in_flat_map in Ib. destruct Ib as [[ops i] [Ii Ib]]. cbn in Ib.
  destruct i; try contradiction. eapply collect_in; [exact Ii|]. apply (IH c b); auto. pose proof (code_size_in _ _ _ _ _ _ Ii). lia.
Qed.
Lemma gen_ok_in : forall n a b, code_size a <= n -> gen_ok a -> In b (collect a) -> gen_ok b.
Proof.
  induction n as [|n IH]; intros a b Sz G Ib; [destruct a; cbn in Sz; lia|].
  rewrite collect_eq in Ib. destruct Ib as [<-|Ib]; auto. apply in_flat_map in Ib. destruct Ib as [[ops i] [Ii Ib]]. cbn in Ib.
  destruct i; try contradiction. inversion G as [? _ Nest]; subst. apply (IH c); auto; [|eapply Nest; eauto]. pose proof (code_size_in _ _ _ _ _ _ Ii). lia.
Qed.

Lemma all_some_map : forall {A B} (f : A -> option B) l ys, all_some (map f l) = Some ys -> Forall2 (fun x y => f x = Some y) l ys.
Proof.
  intros A B f. induction l as [|x l IH]; intros ys E; cbn in E; [injection E as <-; constructor|].
  destruct (f x) as [y|] eqn:F; [|discriminate]. destruct (all_some (map f l)) as [r|]; [|discriminate]. injection E as <-. constructor; auto.
Qed.
Lemma all_some_total : forall {A B} (f : A -> option B) l, (forall x, In x l -> exists y, f x = Some y) -> exists ys, all_some (map f l) = Some ys.
Proof.
  intros A B f. induction l as [|x l IH]; intros H; cbn; [eauto|]. destruct (H x) as [y ->]; [left; auto|]. destruct IH as [ys ->]; [intros; apply H; right; auto|]. eauto.
Qed.

(** What a C file is made of. *)
Record parts (names : list str) (m : cmodule) (t : tunit) : Prop := {
  p_label : label_for_path (c_path m) = Some (t_label t);
  p_path : t_path t = c_path m;
  p_deps : Forall2 (fun p l => label_for_path p = Some l) (c_deps m) (t_deps t);
  p_args : x_args (t_exe t) = code_num_args (c_code m);
  p_statics : x_statics (t_exe t) = code_num_statics (c_code m);
  p_run : symbol names (code_block (c_code m)) = Some (x_run (t_exe t));
  p_protos : Forall2 (fun c s => symbol names (code_block c) = Some s) (collect (c_code m)) (t_protos t);
  p_funs : Forall2 (fun c f => emit_code names c = Some f) (collect (c_code m)) (t_funs t) }.
Lemma generate_parts : forall names m t, generate names m = Some t -> parts names m t.
Proof.
  intros names m t E. unfold generate in E. cbv zeta in E.
  destruct (label_for_path (c_path m)) as [l|] eqn:E1; [|discriminate]. destruct (all_some (map label_for_path (c_deps m))) as [ds|] eqn:E2; [|discriminate].
  destruct (symbol names (code_block (c_code m))) as [f|] eqn:E3; [|discriminate].
  destruct (all_some (map (fun c => symbol names (code_block c)) (collect (c_code m)))) as [ps|] eqn:E4; [|discriminate].
  destruct (all_some (map (emit_code names) (collect (c_code m)))) as [fs|] eqn:E5; [|discriminate]. injection E as <-.
  constructor; cbn [t_label t_path t_deps t_exe t_protos t_funs x_args x_statics x_run]; auto; apply all_some_map; auto.
Qed.

Lemma emit_code_name : forall names c f, emit_code names c = Some f -> symbol names (code_block c) = Some (f_name f).
Proof.
  intros names c f E. unfold emit_code in E. destruct (symbol names (code_block c)); [|discriminate]. destruct (emit _ _ _ _ _ _ _); [|discriminate]. injection E as <-. reflexivity.
Qed.

(** A name stands for the function made for that code block. *)
Lemma find_fun_spec : forall names cs fs, Forall2 (fun c f => emit_code names c = Some f) cs fs -> NoDup (map code_block cs) ->
  forall c s, In c cs -> symbol names (code_block c) = Some s -> exists f, find_fun s fs = Some f /\ emit_code names c = Some f.
Proof.
  intros names cs fs F. induction F as [|c0 f0 cs fs E F IH]; intros Nd c s Ic Es; [destruct Ic|].
  cbn [map] in Nd. inversion Nd as [|? ? Ni Nd']; subst. cbn [find_fun]. pose proof (emit_code_name _ _ _ E) as E0.
  destruct (list_eq_dec Z.eq_dec s (f_name f0)) as [->|Ne].
  - exists f0. split; auto. destruct Ic as [<-|Ic]; auto. exfalso. apply Ni. rewrite (symbols_distinct _ _ _ _ E0 Es). apply in_map. auto.
  - destruct Ic as [<-|Ic]; [congruence|]. apply IH; auto.
Qed.

(** ** Same functions *)
Definition runs_code (tus : list tunit) (c : code) (i : nat) (f : str) : Prop :=
  exists names m t, nth_error tus i = Some t /\ generate names m = Some t /\ gen_ok (c_code m) /\ NoDup (map code_block (collect (c_code m))) /\
    In c (collect (c_code m)) /\ symbol names (code_block c) = Some f.
Definition main_code (c : code) : Prop :=
  Forall (fun p => fst p = [] /\ match snd p with ICall _ _ _ | IReturn _ => True | _ => False end) (code_instrs c).
Definition same_fun (tus : list tunit) (n k : nat) (c : code) (p : cpay) : Prop :=
  match p with
  | CFn i f => runs_code tus c i f
  | CMain c' => c' = c /\ main_code c
  end.

Lemma same_blank : forall prel n, Forall2 (same_reg prel) (repeat None n) (repeat Uninit n).
Proof. induction n; cbn; constructor; cbn; auto. Qed.

Section main.
  Variable prel : nat -> nat -> code -> cpay -> Prop.
  Variables (callM : cst -> cval -> list cval -> res code) (callG : gst -> gval -> list gval -> res cpay).
  Hypothesis Hcall : same_call prel callM callG.
  Variables (blk : nat) (ss xs : list cval) (ts ys : list gval).
  Hypothesis Hss : Forall2 (same_val prel) ss ts.
  Hypothesis Hxs : Forall2 (same_val prel) xs ys.
  Variable L : list (list prof_op * instr).
  Hypothesis Hl : Forall (fun p => fst p = [] /\ match snd p with ICall _ _ _ | IReturn _ => True | _ => False end) L.

  Lemma main_sim : forall k pc l e s t, Forall2 (same_reg prel) l e -> same_st prel s t ->
    same_res prel (loop callM blk ss xs k L pc l s) (main_loop callG ts ys (skipn pc L) e t).
  Proof.
    induction k as [|k IH]; intros pc l e s t R St; [left; reflexivity|]. cbn [loop].
    destruct (nth_error L pc) as [[ops i]|] eqn:N; [|left; reflexivity]. rewrite (skipn_nth _ _ _ N).
    pose proof (nth_error_In _ _ N) as I. rewrite Forall_forall in Hl. destruct (Hl _ I) as [Eo Ei]. cbn [fst snd] in *. subst ops.
    destruct i; try contradiction; cbn [main_loop exec do_ops fold_left].
    - destruct (get ss xs l func) as [z|] eqn:G; [|left; reflexivity]. destruct (gets ss xs l args) as [zs|] eqn:Gs; [|left; reflexivity].
      destruct (s_get _ _ _ _ _ Hss Hxs _ _ _ _ R G) as [w [-> V]]. destruct (s_gets _ _ _ _ _ Hss Hxs _ _ _ _ R Gs) as [ws [-> [F _]]].
      rewrite <- (F2_len _ _ _ R). destruct (dest <? length l) eqn:Ld; [|left; reflexivity].
      pose proof (Hcall _ _ _ _ _ _ St V F) as Hc. destruct (callM s z zs) as [o s1], (callG t w ws) as [o' t1].
      destruct Hc as [Hc|[Ho Hst]]; cbn [fst snd] in *; [subst o; left; reflexivity|]. destruct Ho; try (left; reflexivity); try (right; split; [constructor|auto]; fail).
      unfold put. rewrite Ld. apply IH; auto. apply F2_setnth; auto.
    - destruct (get ss xs l result) as [z|] eqn:G; [|left; reflexivity]. destruct (s_get _ _ _ _ _ Hss Hxs _ _ _ _ R G) as [w [-> V]].
      right. split; [constructor; auto|auto].
  Qed.
End main.

(** Running a function of a C file is interpreting the code it was made from. *)
Lemma gen_run_sim : forall tus callM callG, same_call (same_fun tus) callM callG -> forall c p blk ss ts xs ys s t,
  same_fun tus (length xs) (length ss) c p -> Forall2 (same_val (same_fun tus)) ss ts -> Forall2 (same_val (same_fun tus)) xs ys ->
  same_st (same_fun tus) s t ->
  same_res (same_fun tus) (interpret callM c blk ss xs s) (gen_run tus callG p blk ts ys t).
Proof.
  intros tus callM callG Hc c p blk ss ts xs ys s t P Hss Hxs St. destruct p as [i f|c'].
  - destruct P as [names [m [tu [Nt [Gt [Gok [Nd [Ic Sy]]]]]]]]. pose proof (generate_parts _ _ _ Gt) as Pt.
    destruct (find_fun_spec _ _ _ (p_funs _ _ _ Pt) Nd c f Ic Sy) as [fn [Ff Ef]].
    pose proof (gen_ok_in _ _ _ (le_n _) Gok Ic) as Gc.
    cbn [gen_run]. rewrite Nt, Ff. unfold interpret. unfold emit_code in Ef. rewrite Sy in Ef.
    destruct (emit names (length (code_instrs c)) 0 [] 0 0 (code_instrs c)) as [b|] eqn:Em; [|discriminate]. injection Ef as <-.
    cbn [f_body f_locals].
    apply (loop_sim (same_fun tus) callM callG Hc i blk ss xs ts ys Hss Hxs names (code_instrs c) b) with (jt := []) (ei := 0) (li := 0) (pre := []).
    + intros pc ops cd nt tg d N. inversion Gc as [? Fl _]; subst. destruct (Fl _ _ _ N) as [_ [So _]]. exact (proj1 (So _ _ _ _ eq_refl)).
    + intros pc ops d off c' sc g N Sg. inversion Gc as [? Fl _]; subst. destruct (Fl _ _ _ N) as [_ [_ Ns]]. specialize (Ns _ _ _ _ eq_refl). split; auto.
      exists names, m, tu. repeat (split; [solve [auto]|]). split; auto.
      eapply collect_trans; [apply le_n|exact Ic|]. eapply collect_in; [eapply nth_error_In; exact N|apply collect_self].
    + constructor; auto; try constructor. intros q ops i0 t0 Lq. lia.
    + apply same_blank.
    + auto.
    + lia.
  - destruct P as [-> Mc]. cbn [gen_run]. unfold interpret.
    apply (main_sim (same_fun tus) callM callG Hc blk ss xs ts ys Hss Hxs (code_instrs c) Mc _ 0); auto. apply same_blank.
Qed.

(** Calls of the same functions on the same arguments do the same. *)
Theorem generated_calls : forall tus n, same_call (same_fun tus) (icall n) (gcall tus n).
Proof.
  intros tus n. apply (same_calls code cpay (same_fun tus) interpret (gen_run tus)).
  intros call1 call2 Hc b c k ss ts xs ys s t P Hss Hxs St. apply gen_run_sim; auto.
Qed.
