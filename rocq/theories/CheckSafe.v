(** * Well tight expressions do not go wrong: proofs for CheckProps.v. *)
From Coq Require Import List Arith Lia Bool.
From Verif Require TypeModel.
From Verif Require Import CheckTyping FuncModel CodeModel CompileModel CompileEval.
From Verif Require CompileStatic CheckScope.
Import ListNotations.

Definition all2 {A B} (P : A -> B -> Prop) : list A -> list B -> Prop :=
  fix go l m := match l, m with
                | [], [] => True
                | x :: l, y :: m => P x y /\ go l m
                | _, _ => False
                end.
Definition all {A} (P : A -> Prop) : list A -> Prop :=
  fix go l := match l with [] => True | x :: l => P x /\ go l end.
Lemma all2_F2 {A B} (P : A -> B -> Prop) : forall l m, all2 P l m <-> Forall2 P l m.
Proof.
  induction l as [|x l IH]; intros [|y m]; cbn; split; intros H; auto; try contradiction; try (inversion H; fail).
  - constructor; [apply H|apply IH, H].
  - inversion H; subst. split; auto. apply IH; auto.
Qed.
Lemma all_F {A} (P : A -> Prop) : forall l, all P l <-> Forall P l.
Proof.
  induction l as [|x l IH]; cbn; split; intros H; auto.
  - constructor; [apply H|apply IH, H].
  - inversion H; subst. split; auto. apply IH; auto.
Qed.

Section val_ind.
  Variable P : val tc -> Prop.
  Hypothesis H_struct : forall fs, Forall P fs -> P (VStruct fs).
  Hypothesis H_union : forall t a, P a -> P (VUnion t a).
  Hypothesis H_func : forall n b k ss, Forall P ss -> P (VFunc n b k ss).
  Hypothesis H_papp : forall n k f xs, P f -> Forall P xs -> P (VPapp n k f xs).
  Hypothesis H_ref : forall l, P (VRef l).
  Hypothesis H_type : P VType.
  Fixpoint val_ind' (v : val tc) : P v :=
    let go := fix go l : Forall P l := match l with [] => Forall_nil _ | x :: l => Forall_cons _ (val_ind' x) (go l) end in
    match v with
    | VStruct fs => H_struct fs (go fs)
    | VUnion t a => H_union t a (val_ind' a)
    | VFunc n b k ss => H_func n b k ss (go ss)
    | VPapp n k f xs => H_papp n k f xs (val_ind' f) (go xs)
    | VRef l => H_ref l
    | VType => H_type
    end.
End val_ind.

(** The type of a variable: [Ss] the types of the statics, [As] of the arguments, [L] of the
    local variables, [None] for those that have no value. *)
Definition vtype (Ss As : list nat) (L : list (option nat)) (v : var) : option nat :=
  match v with
  | Static i => nth_error Ss i
  | Arg i => nth_error As i
  | Local i => match nth_error L i with Some (Some t) => Some t | _ => None end
  end.

Section typing.
  Variable tys : TypeModel.store.
  Hypothesis Si : simple tys.
  Notation conv := (conv tys).

  Fixpoint tight (Ss As : list nat) (L : list (option nat)) (e : tc) (t : nat) {struct e} : Prop :=
    match e with
    | TType => is_type tys t
    | TVar v => exists u, vtype Ss As L v = Some u /\ conv u t
    | TLet r bs b => exists ts,
        all2 (tight Ss As (L ++ map (fun t => if r then Some t else None) ts)) bs ts /\ tight Ss As (L ++ map Some ts) b t
    | TStruct fs => exists xs, is_data tys false xs t /\ all2 (tight Ss As L) fs (map snd xs)
    | TCopy src fs => exists xs, is_data tys false xs t /\ tight Ss As L src t /\
        all2 (fun o u => match o with Some e => tight Ss As L e u | None => True end) fs (map snd xs)
    | TUnion tag a => exists xs x u, is_data tys true xs t /\ nth_error xs tag = Some (x, u) /\ tight Ss As L a u
    | TSelect c n ts d => exists ct xs, tight Ss As L c ct /\ is_data tys true xs ct /\ n = List.length xs /\
        all (fun p => tight Ss As L (snd p) t) ts /\ tight Ss As L d t
    | TAccess k o i => exists ot xs x u, tight Ss As L o ot /\ is_data tys (negb k) xs ot /\ nth_error xs i = Some (x, u) /\ conv u t
    | TFunc scope b => exists x r us, is_func tys x r t /\ Forall2 (fun v u => vtype Ss As L v = Some u) scope us /\ tight us [x] [] b r
    | TApply f a => exists ft x r, tight Ss As L f ft /\ is_func tys x r ft /\ tight Ss As L a x /\ conv r t
    | TList fs => exists el, is_list tys t el /\ all (fun e => tight Ss As L e el) fs
    | TLiteral ls => exists el xs, is_list tys t el /\ is_data tys true xs el /\ Forall (is_letter tys xs) ls
    end.

  Lemma F2_snd_conv fs gs : Forall2 (TypeSpec.same_field conv) fs gs -> Forall2 conv (map snd fs) (map snd gs).
  Proof. intros F. induction F as [|x y fs gs [_ H] F IH]; cbn; auto. Qed.
  Lemma field_conv fs gs i x u : Forall2 (TypeSpec.same_field conv) fs gs -> nth_error fs i = Some (x, u) ->
    exists y w, nth_error gs i = Some (y, w) /\ conv u w.
  Proof. intros F E. destruct (CheckScope.F2_nth _ _ _ _ _ F E) as ([y w] & E' & [_ H]). eauto. Qed.

  (** Contexts that may be used for each other. *)
  Definition lconv (a b : option nat) : Prop := match a with Some x => exists y, b = Some y /\ conv x y | None => True end.
  Lemma lconv_refl a : lconv a a.
  Proof. destruct a; cbn; eauto using conv_refl. Qed.
  Lemma vtype_conv Ss Ss' As As' L L' v u : Forall2 conv Ss Ss' -> Forall2 conv As As' -> Forall2 lconv L L' ->
    vtype Ss As L v = Some u -> exists u', vtype Ss' As' L' v = Some u' /\ conv u u'.
  Proof.
    intros CS CA CL E. destruct v as [i|i|i]; cbn in *.
    - destruct (CheckScope.F2_nth _ _ _ _ _ CS E); eauto.
    - destruct (CheckScope.F2_nth _ _ _ _ _ CA E); eauto.
    - destruct (nth_error L i) as [[w|]|] eqn:El; try discriminate. injection E as ->.
      destruct (CheckScope.F2_nth _ _ _ _ _ CL El) as (o & Eo & y & -> & C). rewrite Eo. eauto.
  Qed.

  Lemma all2_conv {A} (P Q : A -> nat -> Prop) l ts us :
    Forall (fun x => forall t u, P x t -> conv t u -> Q x u) l -> Forall2 conv ts us -> all2 P l ts -> all2 Q l us.
  Proof.
    intros F. revert ts us. induction F as [|x l H F IH]; intros ts us C T; destruct C; cbn in *; auto. destruct T. split; eauto.
  Qed.
  Lemma F2_conv_refl l : Forall2 conv l l.
  Proof. apply CheckScope.F2_refl. apply conv_refl. Qed.

  Lemma tight_ctx e : forall Ss As L t Ss' As' L' t', tight Ss As L e t -> Forall2 conv Ss Ss' -> Forall2 conv As As' ->
    Forall2 lconv L L' -> conv t t' -> tight Ss' As' L' e t'.
  Proof.
    induction e using CompileStatic.tc_ind'; intros Ss As L ty Ss' As' L' ty' T CS CA CL C; cbn [tight] in *.
    - eapply type_conv; eauto.
    - destruct T as (u & E & C'). destruct (vtype_conv _ _ _ _ _ _ _ _ CS CA CL E) as (u' & E' & Cu). exists u'. split; auto.
      eapply conv_trans; [apply conv_sym; exact Cu|]. eapply conv_trans; [exact C'|exact C].
    - destruct T as (ts & T1 & T2). exists ts. split.
      + eapply all2_conv; [|apply F2_conv_refl|exact T1]. eapply Forall_impl; [|eassumption]. cbn. intros e0 IH u w T Cu.
        eapply IH; eauto. apply Forall2_app; auto. apply CheckScope.F2_refl. apply lconv_refl.
      + eapply IHe; eauto. apply Forall2_app; auto. apply CheckScope.F2_refl. apply lconv_refl.
    - destruct T as (xs & D & T). destruct (data_conv _ Si _ _ _ _ D C) as (gs & D' & F). exists gs. split; auto.
      eapply all2_conv; [|eauto using F2_snd_conv|exact T]. eapply Forall_impl; [|eassumption]. cbn. eauto.
    - destruct T as (xs & D & T1 & T2). destruct (data_conv _ Si _ _ _ _ D C) as (gs & D' & F). exists gs. split; auto. split; eauto.
      eapply all2_conv; [|eauto using F2_snd_conv|exact T2]. eapply Forall_impl; [|eassumption]. cbn. intros [e0|]; eauto.
    - destruct T as (xs & x & u & D & E & T). destruct (data_conv _ Si _ _ _ _ D C) as (gs & D' & F).
      destruct (field_conv _ _ _ _ _ F E) as (y & w & E' & C'). exists gs, y, w. eauto.
    - destruct T as (ct & xs & T1 & D & Ln & T2 & T3). exists ct, xs. split; [eapply IHe1; eauto using conv_refl|]. split; auto. split; auto. split; eauto.
      apply all_F. apply all_F in T2. revert T2. clear - H C CS CA CL. intros T2.
      induction H as [|q l Hq H IH]; auto. inversion T2; subst. constructor; eauto.
    - destruct T as (ot & xs & x & u & T & D & E & C'). exists ot, xs, x, u. split; [eapply IHe; eauto using conv_refl|].
      repeat split; auto. eapply conv_trans; eauto.
    - destruct T as (x & r & us & F & V & T). destruct (func_conv _ Si _ _ _ _ F C) as (y & s & F' & Cy & Cs).
      assert (exists us', Forall2 (fun v u => vtype Ss' As' L' v = Some u) scope us' /\ Forall2 conv us us') as (us' & V' & Cus).
      { clear - V CS CA CL. induction V as [|v u scope us E V IH]; [exists []; auto|]. destruct IH as (us' & V' & Cu).
        destruct (vtype_conv _ _ _ _ _ _ _ _ CS CA CL E) as (u' & E' & Cu'). exists (u' :: us'). auto. }
      exists y, s, us'. split; auto. split; auto. eapply IHe; eauto.
    - destruct T as (ft & x & r & T1 & F & T2 & C'). exists ft, x, r. split; [eapply IHe1; eauto using conv_refl|]. split; auto.
      split; [eapply IHe2; eauto using conv_refl|]. eapply conv_trans; eauto.
    - destruct T as (el & Hl & T). exists el. split; [eapply list_conv; eauto; apply conv_refl|].
      apply all_F. apply all_F in T. revert T. clear - H CS CA CL. intros T2.
      induction H as [|q l Hq H IH]; auto. inversion T2; subst. constructor; eauto using conv_refl.
    - destruct T as (el & xs & Hl & D & F). exists el, xs. split; auto. eapply list_conv; eauto. apply conv_refl.
  Qed.

  Lemma tight_conv Ss As L e t t' : tight Ss As L e t -> conv t t' -> tight Ss As L e t'.
  Proof. intros T C. eapply tight_ctx; eauto using F2_conv_refl. apply CheckScope.F2_refl. apply lconv_refl. Qed.

  (** ** Merging functions *)
  Lemma rewrite_typed e : forall Ss As L t Ss' As' statics off, tight Ss As L e t ->
    (forall i u, nth_error Ss i = Some u -> vtype Ss' As' [] (nth i statics (Static i)) = Some u) ->
    (forall i u, nth_error As i = Some u -> nth_error As' (i + off) = Some u) ->
    tight Ss' As' L (rewrite_vars statics off e) t.
  Proof.
    assert (V : forall Ss As L Ss' As' statics off v u,
      (forall i u, nth_error Ss i = Some u -> vtype Ss' As' [] (nth i statics (Static i)) = Some u) ->
      (forall i u, nth_error As i = Some u -> nth_error As' (i + off) = Some u) ->
      vtype Ss As L v = Some u -> vtype Ss' As' L (rewrite_var statics off v) = Some u).
    { intros Ss As L Ss' As' statics off v u HS HA E. destruct v as [i|i|i]; cbn in *; auto.
      apply HS in E. destruct (nth i statics (Static i)); cbn in *; auto. destruct i0; discriminate. }
    assert (M : forall (P Q : tc -> nat -> Prop) l ts f, Forall (fun x => forall t, P x t -> Q (f x) t) l -> all2 P l ts -> all2 Q (map f l) ts).
    { intros P Q l ts f F. revert ts. induction F; intros [|t ts] T; cbn in *; auto. destruct T. split; auto. }
    induction e using CompileStatic.tc_ind'; intros Ss As L ty Ss' As' statics off T HS HA; cbn [tight rewrite_vars] in *.
    - auto.
    - destruct T as (u & E & C). exists u. split; eauto.
    - destruct T as (ts & T1 & T2). exists ts. split; eauto. eapply M; [|exact T1]. eapply Forall_impl; [|eassumption]. cbn. eauto.
    - destruct T as (xs & D & T). exists xs. split; auto. eapply M; [|exact T]. eapply Forall_impl; [|eassumption]. cbn. eauto.
    - destruct T as (xs & D & T1 & T2). exists xs. split; auto. split; eauto.
      revert T2. generalize (map snd xs). clear - H HS HA. induction H as [|o l Ho H IH]; intros [|t ts] T; cbn in *; auto.
      destruct T as [T1 T2]. split; auto. destruct o; cbn in *; eauto.
    - destruct T as (xs & x & u & D & E & T). exists xs, x, u. eauto.
    - destruct T as (ct & xs & T1 & D & Ln & T2 & T3). exists ct, xs. split; eauto. split; auto. split; auto. split; eauto.
      apply all_F. apply all_F in T2. revert T2. clear - H HS HA. intros T2.
      induction H as [|q l Hq H IH]; cbn; auto. inversion T2; subst. constructor; cbn; eauto.
    - destruct T as (ot & xs & x & u & T & D & E & C). exists ot, xs, x, u. eauto.
    - destruct T as (x & r & us & F & Vs & T). exists x, r, us. split; auto. split; auto.
      clear - V Vs HS HA. induction Vs; cbn; constructor; eauto.
    - destruct T as (ft & x & r & T1 & F & T2 & C'). exists ft, x, r. split; [eapply IHe1; eauto|]. split; [exact F|]. split; [eapply IHe2; eauto|exact C'].
    - destruct T as (el & Hl & T). exists el. split; auto.
      apply all_F. apply all_F in T. revert T. clear - H HS HA. intros T2.
      induction H as [|q l Hq H IH]; cbn; auto. inversion T2; subst. constructor; cbn; eauto.
    - destruct T as (el & xs & Hl & D & F). exists el, xs. auto.
  Qed.

  Lemma merge_loop_typed body : forall statics off nargs st' off' nargs' b Ss a r Ss0 As0,
    merge_loop statics off nargs body = (st', off', nargs', b) ->
    tight Ss [a] [] body r -> nargs = S off -> length As0 = nargs -> nth_error As0 off = Some a ->
    (forall i u, nth_error Ss i = Some u -> vtype Ss0 As0 [] (nth i statics (Static i)) = Some u) ->
    exists As1 R Ss1 a1, arrow tys r As1 R /\ length (As0 ++ As1) = nargs' /\ tight Ss1 [a1] [] b R /\
      nth_error (As0 ++ As1) off' = Some a1 /\
      (forall i u, nth_error Ss1 i = Some u -> vtype Ss0 (As0 ++ As1) [] (nth i st' (Static i)) = Some u).
  Proof.
    assert (base : forall statics off nargs st' off' nargs' b body Ss a r Ss0 As0,
      (statics, off, nargs, body) = (st', off', nargs', b) ->
      tight Ss [a] [] body r -> nargs = S off -> length As0 = nargs -> nth_error As0 off = Some a ->
      (forall i u, nth_error Ss i = Some u -> vtype Ss0 As0 [] (nth i statics (Static i)) = Some u) ->
      exists As1 R Ss1 a1, arrow tys r As1 R /\ length (As0 ++ As1) = nargs' /\ tight Ss1 [a1] [] b R /\
        nth_error (As0 ++ As1) off' = Some a1 /\
        (forall i u, nth_error Ss1 i = Some u -> vtype Ss0 (As0 ++ As1) [] (nth i st' (Static i)) = Some u)).
    { intros statics off nargs st' off' nargs' b body0 Ss a r Ss0 As0 E T N L H1 H2. injection E as <- <- <- <-.
      exists [], r, Ss, a. rewrite app_nil_r. cbn. split; [apply conv_refl|]. auto. }
    induction body using CompileStatic.tc_ind'; intros statics off nargs st' off' nargs' b0 Ss a r' Ss0 As0 E T N L H1 H2;
      try (eapply base; eauto; fail).
    cbn [merge_loop] in E. cbn [tight] in T. destruct T as (x & r & us & F & V & T).
    destruct (IHbody _ _ _ _ _ _ _ us x r Ss0 (As0 ++ [x]) E T) as (As1 & R & Ss1 & a1 & A & L1 & T1 & N1 & HS).
    - lia.
    - rewrite app_length. cbn. lia.
    - rewrite nth_error_app2 by lia. replace (nargs - length As0) with 0 by lia. reflexivity.
    - intros i u Hu.
      assert (V' : Forall2 (fun u v => vtype Ss [a] [] v = Some u) us scope). { clear - V. induction V; auto. }
      destruct (CheckScope.F2_nth _ _ _ _ _ V' Hu) as (v & Hv & Ev).
      rewrite (nth_indep _ (Static i) (rewrite_var statics off (Static i))).
      2:{ rewrite map_length. apply nth_error_Some. congruence. }
      rewrite map_nth. rewrite (nth_error_nth _ _ _ Hv). destruct v as [j|j|j]; cbn in Ev.
      + apply H2 in Ev. cbn. destruct (nth j statics (Static j)); cbn in *; auto.
        rewrite nth_error_app1; auto. apply nth_error_Some. congruence.
      + destruct j as [|j]; [|destruct j; discriminate]. injection Ev as <-. cbn. rewrite nth_error_app1; auto. lia.
      + destruct j; discriminate.
    - exists (x :: As1), R, Ss1, a1. rewrite <- app_assoc in *. cbn [app] in *. split; auto.
      cbn. exists x, r. split; auto. split; auto. apply conv_refl.
  Qed.

  Lemma merge_func_typed scope body nargs b us x r : merge_func scope body = (nargs, b) -> length scope = length us ->
    tight us [x] [] body r ->
    exists As R, length As + 1 = nargs /\ arrow tys r As R /\ tight us (x :: As) [] b R.
  Proof.
    unfold merge_func. destruct (merge_loop _ 0 1 body) as [[[st' off'] na'] b'] eqn:E. intros H L T. injection H as <- <-.
    destruct (merge_loop_typed body _ _ _ _ _ _ _ us x r us [x] E T) as (As1 & R & Ss1 & a1 & A & L1 & T1 & N1 & HS); auto.
    - intros i u Hu. assert (i < length scope). { rewrite L. apply nth_error_Some. congruence. }
      rewrite (nth_indep _ (Static i) (Static 0)) by (rewrite map_length, seq_length; auto).
      rewrite map_nth, seq_nth by auto. cbn. auto.
    - exists As1, R. split; [rewrite <- L1; cbn; lia|]. split; auto. eapply rewrite_typed; eauto.
      intros [|i] u Hu; [|destruct i; discriminate]. injection Hu as <-. auto.
  Qed.

  (** ** Values *)
  Fixpoint vty (Sg : list nat) (v : val tc) (t : nat) {struct v} : Prop :=
    match v with
    | VStruct fs => exists xs, is_data tys false xs t /\ all2 (vty Sg) fs (map snd xs)
    | VUnion tag a => exists xs x u, is_data tys true xs t /\ nth_error xs tag = Some (x, u) /\ vty Sg a u
    | VFunc n b _ ss => exists us As R, arrow tys t As R /\ length As = n /\ 0 < n /\ all2 (vty Sg) ss us /\ tight us As [] b R
    | VPapp n _ f xs => exists ft As Bs R, vty Sg f ft /\ arrow tys ft (As ++ Bs) R /\ all2 (vty Sg) xs As /\
                          length Bs = n /\ 0 < n /\ arrow tys t Bs R
    | VRef l => exists u, nth_error Sg l = Some u /\ conv u t
    | VType => is_type tys t
    end.

  Lemma vty_conv Sg v : forall t t', vty Sg v t -> conv t t' -> vty Sg v t'.
  Proof.
    induction v using val_ind'; intros ty ty' T C; cbn [vty] in *.
    - destruct T as (xs & D & T). destruct (data_conv _ Si _ _ _ _ D C) as (gs & D' & F). exists gs. split; auto.
      eapply all2_conv; [|eauto using F2_snd_conv|exact T]. exact H.
    - destruct T as (xs & x & u & D & E & T). destruct (data_conv _ Si _ _ _ _ D C) as (gs & D' & F).
      destruct (field_conv _ _ _ _ _ F E) as (y & w & E' & C'). exists gs, y, w. eauto.
    - destruct T as (us & As & R & A & L & P & S1 & T). exists us, As, R. split; auto.
      eapply arrow_conv; [exact Si|exact C|apply F2_conv_refl|apply conv_refl|exact A].
    - destruct T as (ft & As & Bs & R & T & A & T2 & L & P & A2). exists ft, As, Bs, R. repeat (split; auto).
      eapply arrow_conv; [exact Si|exact C|apply F2_conv_refl|apply conv_refl|exact A2].
    - destruct T as (u & E & C'). exists u. split; auto. eapply conv_trans; [exact C'|exact C].
    - eapply type_conv; eauto.
  Qed.
  Lemma all2_impl {A B} (P Q : A -> B -> Prop) l : Forall (fun x => forall t, P x t -> Q x t) l -> forall m, all2 P l m -> all2 Q l m.
  Proof. intros F. induction F; intros [|t m] T; cbn in *; auto. destruct T. split; auto. Qed.
  Lemma vty_weaken Sg Sg' v : forall t, (exists d, Sg' = Sg ++ d) -> vty Sg v t -> vty Sg' v t.
  Proof.
    intros t (d & ->). revert t. induction v using val_ind'; intros ty T; cbn [vty] in *.
    - destruct T as (xs & D & T). exists xs. split; auto. eapply all2_impl; eauto.
    - destruct T as (xs & x & u & D & E & T). exists xs, x, u. eauto.
    - destruct T as (us & As & R & A & L & P & S1 & T). exists us, As, R. repeat (split; auto). eapply all2_impl; eauto.
    - destruct T as (ft & As & Bs & R & T & A & T2 & L & P & A2). exists ft, As, Bs, R. repeat (split; auto). eapply all2_impl; eauto.
    - destruct T as (u & E & C'). exists u. split; auto. rewrite nth_error_app1; auto. apply nth_error_Some. congruence.
    - auto.
  Qed.
  Definition grows (Sg Sg' : list nat) : Prop := exists d, Sg' = Sg ++ d.
  Lemma grows_refl Sg : grows Sg Sg.
  Proof. exists []. rewrite app_nil_r. auto. Qed.
  Lemma grows_trans a b c : grows a b -> grows b c -> grows a c.
  Proof. intros [d ->] [e ->]. exists (d ++ e). rewrite app_assoc. auto. Qed.
  Lemma vtys_weaken Sg Sg' vs ts : grows Sg Sg' -> Forall2 (vty Sg) vs ts -> Forall2 (vty Sg') vs ts.
  Proof. intros G F. induction F; constructor; auto. eapply vty_weaken; eauto. Qed.
  Lemma vtys_conv Sg vs ts us : Forall2 (vty Sg) vs ts -> Forall2 conv ts us -> Forall2 (vty Sg) vs us.
  Proof. intros F. revert us. induction F; intros us C; inversion C; subst; constructor; auto. eapply vty_conv; eauto. Qed.

  (** ** References *)
  Fixpoint ndef (r : list (option (val tc))) : nat := match r with [] => 0 | Some _ :: r => S (ndef r) | None :: r => ndef r end.
  Lemma ndef_le r : ndef r <= length r.
  Proof. induction r as [|[v|] r IH]; cbn; lia. Qed.
  Lemma ndef_set r : forall l w, nth_error r l = Some None -> ndef (set_nth l (Some w) r) = S (ndef r).
  Proof. induction r as [|[v|] r IH]; intros [|l] w E; cbn in *; try discriminate; auto; rewrite IH; auto. Qed.
  Lemma set_length {A} (r : list A) : forall l w, length (set_nth l w r) = length r.
  Proof. induction r as [|v r IH]; intros [|l] w; cbn; auto. Qed.
  Lemma set_same {A} (r : list A) : forall l w, l < length r -> nth_error (set_nth l w r) l = Some w.
  Proof. induction r as [|v r IH]; intros [|l] w L; cbn in *; try lia; auto. apply IH. lia. Qed.
  Lemma set_other {A} (r : list A) : forall l w i, i <> l -> nth_error (set_nth l w r) i = nth_error r i.
  Proof. induction r as [|v r IH]; intros [|l] w [|i] N; cbn; auto; try lia. Qed.

  Lemma strict_more k : forall (r : list (option (val tc))) v, strict_fuel k r v <> SBad -> forall k', k <= k' -> strict_fuel k' r v = strict_fuel k r v.
  Proof.
    induction k as [|k IH]; intros r v N k' L; destruct v as [| | | |l|]; try (destruct k'; reflexivity).
    - cbn in N. destruct k'; cbn; destruct (nth_error r l) as [[w|]|]; try reflexivity; contradiction.
    - destruct k' as [|k']; [lia|]. cbn in *. destruct (nth_error r l) as [[w|]|]; try reflexivity. apply IH; auto. lia.
  Qed.
  Lemma strict_app k : forall (r r' : list (option (val tc))) v, strict_fuel k r v <> SBad -> (forall i, i < length r -> nth_error r' i = nth_error r i) ->
    strict_fuel k r' v = strict_fuel k r v.
  Proof.
    induction k as [|k IH]; intros r r' v N H; destruct v as [| | | |l|]; try reflexivity; cbn in *;
      (destruct (nth_error r l) as [[w|]|] eqn:E; [| |contradiction]); (rewrite H by (apply nth_error_Some; congruence)); rewrite E; auto.
  Qed.
  Lemma strict_set k : forall (r : list (option (val tc))) v l w, strict_fuel k r v <> SBad -> nth_error r l = Some None ->
    match w with VRef l' => l' <> l /\ nth_error r l' = Some None | _ => True end ->
    strict_fuel (S k) (set_nth l (Some w) r) v <> SBad.
  Proof.
    induction k as [|k IH]; intros r v l w N E W; destruct v as [| | | |l0|]; try discriminate.
    - cbn [strict_fuel] in *. destruct (Nat.eq_dec l0 l) as [->|Ne].
      + rewrite set_same by (apply nth_error_Some; congruence).
        destruct w as [| | | |l'|]; try discriminate. destruct W as [W1 W2]. rewrite set_other by auto. rewrite W2. discriminate.
      + rewrite set_other by auto. destruct (nth_error r l0) as [[u|]|]; congruence.
    - change (strict_fuel (S (S k)) (set_nth l (Some w) r) (VRef l0)) with
        (match nth_error (set_nth l (Some w) r) l0 with
         | Some (Some v') => strict_fuel (S k) (set_nth l (Some w) r) v' | Some None => SUndef | None => SBad end).
      destruct (Nat.eq_dec l0 l) as [->|Ne].
      + rewrite set_same by (apply nth_error_Some; congruence).
        destruct w as [| | | |l'|]; try discriminate. destruct W as [W1 W2]. cbn [strict_fuel]. rewrite set_other by auto. rewrite W2. discriminate.
      + rewrite set_other by auto. cbn [strict_fuel] in N. destruct (nth_error r l0) as [[u|]|]; try congruence. apply IH; auto.
  Qed.

  Record st_ok (Sg : list nat) (r : list (option (val tc))) : Prop := {
    k_len : length Sg = length r;
    k_typed : forall l v t, nth_error r l = Some (Some v) -> nth_error Sg l = Some t -> vty Sg v t;
    k_acyclic : forall l, l < length r -> strict_fuel (ndef r) r (VRef l) <> SBad }.

  Lemma not_bad Sg r v t : st_ok Sg r -> vty Sg v t -> strict_fuel (ndef r) r v <> SBad.
  Proof.
    intros K T. destruct v as [| | | |l|]; try (destruct (ndef r); discriminate). apply (k_acyclic _ _ K).
    destruct T as (u & E & _). rewrite <- (k_len _ _ K). apply nth_error_Some. congruence.
  Qed.
  Lemma strict_typed Sg r v t : st_ok Sg r -> vty Sg v t ->
    match strict_value r v with
    | SVal w => vty Sg w t /\ (forall l, w <> VRef l)
    | SUndef => True
    | SBad => False
    end.
  Proof.
    intros K T. unfold strict_value. rewrite (strict_more (ndef r)) by (eauto using not_bad, ndef_le).
    pose proof (not_bad _ _ _ _ K T) as N. revert v t T N. generalize (ndef r) as k. induction k as [|k IH]; intros v t T N.
    - destruct v as [| | | |l|]; cbn in *; try (split; [exact T|discriminate]). destruct (nth_error r l) as [[w|]|]; auto.
    - destruct v as [| | | |l|]; cbn in N |- *; try (split; [exact T|discriminate]). destruct (nth_error r l) as [[w|]|] eqn:E; auto.
      destruct T as (u & Eu & C). apply IH; auto. eapply vty_conv; [|exact C]. eapply k_typed; eauto.
  Qed.
  Lemma unwrap_typed Sg r v t : st_ok Sg r -> vty Sg v t ->
    exists w, unwrap_fuel (length r) r v = Some w /\ vty Sg w t /\ match w with VRef l => nth_error r l = Some None | _ => True end.
  Proof.
    intros K T. assert (N : strict_fuel (length r) r v <> SBad).
    { rewrite (strict_more (ndef r)) by (eauto using not_bad, ndef_le). eapply not_bad; eauto. }
    revert v t T N. generalize (length r) as k. induction k as [|k IH]; intros v t T N.
    - destruct v as [| | | |l|]; try (eexists; split; [reflexivity|split; [exact T|exact I]]). cbn in N |- *.
      destruct (nth_error r l) as [[w|]|] eqn:E; try contradiction. exists (VRef l). auto.
    - destruct v as [| | | |l|]; try (eexists; split; [reflexivity|split; [exact T|exact I]]). cbn in N |- *.
      destruct (nth_error r l) as [[w|]|] eqn:E; try contradiction.
      + destruct T as (u & Eu & C). apply IH; auto. eapply vty_conv; [|exact C]. eapply k_typed; eauto.
      + exists (VRef l). auto.
  Qed.

  (** Assigning one reference. *)
  Lemma set_ok Sg r l w t : st_ok Sg r -> nth_error r l = Some None -> nth_error Sg l = Some t -> vty Sg w t ->
    match w with VRef l' => l' <> l /\ nth_error r l' = Some None | _ => True end -> st_ok Sg (set_nth l (Some w) r).
  Proof.
    intros K E Et T W. split.
    - rewrite set_length. apply (k_len _ _ K).
    - intros l0 v u E0 Eu. destruct (Nat.eq_dec l0 l) as [->|N].
      + rewrite set_same in E0 by (apply nth_error_Some; congruence). congruence.
      + rewrite set_other in E0 by auto. eapply k_typed; eauto.
    - intros l0 L. rewrite set_length in L. rewrite (ndef_set _ _ _ E). apply strict_set; auto. apply (k_acyclic _ _ K); auto.
  Qed.
  Lemma alloc_ok Sg r ts : st_ok Sg r -> st_ok (Sg ++ ts) (r ++ repeat None (length ts)).
  Proof.
    intros K. assert (Nd : ndef (r ++ repeat None (length ts)) = ndef r).
    { clear. induction r as [|[v|] r IH]; cbn; auto. induction ts; cbn; auto. }
    split.
    - rewrite !app_length, repeat_length, (k_len _ _ K). auto.
    - intros l v t E Et. destruct (Nat.lt_ge_cases l (length r)).
      + rewrite nth_error_app1 in E by auto. rewrite nth_error_app1 in Et by (rewrite (k_len _ _ K); auto).
        eapply vty_weaken; [eexists; reflexivity|]. eapply k_typed; eauto.
      + rewrite nth_error_app2 in E by auto. apply nth_error_In, repeat_spec in E. discriminate.
    - intros l L. rewrite Nd. destruct (Nat.lt_ge_cases l (length r)).
      + pose proof (k_acyclic _ _ K _ H) as N. rewrite (strict_app _ r); auto. intros i Hi. apply nth_error_app1. auto.
      + assert (E : nth_error (r ++ repeat None (length ts)) l = Some None).
        { rewrite nth_error_app2 by auto. rewrite app_length, repeat_length in L.
          rewrite nth_error_repeat; auto. lia. }
        destruct (ndef r); cbn; rewrite E; discriminate.
  Qed.

  (** References that were there before are as they were. *)
  Definition later (r r' : list (option (val tc))) : Prop :=
    length r <= length r' /\ forall i, i < length r -> nth_error r' i = nth_error r i.
  Lemma later_refl r : later r r.
  Proof. split; auto. Qed.
  Lemma later_trans a b c : later a b -> later b c -> later a c.
  Proof. intros [A1 A2] [B1 B2]. split; [lia|]. intros i L. rewrite B2, A2; auto. lia. Qed.

  Lemma alloc_refs_eq n : forall s, alloc_refs n s =
    (map VRef (seq (length (refs s)) n), mk_st (refs s ++ repeat None n) (depth s) (prof s)).
  Proof.
    induction n as [|n IH]; intros s; cbn.
    - rewrite app_nil_r. destruct s; reflexivity.
    - rewrite IH. cbn. rewrite app_length. cbn. rewrite Nat.add_1_r, <- app_assoc. reflexivity.
  Qed.

  Lemma assign_refs_ok Sg ls : forall ds ts s k, st_ok Sg (refs s) -> NoDup ls ->
    Forall (fun l => k <= l /\ nth_error (refs s) l = Some None) ls -> Forall2 (vty Sg) ds ts -> Forall2 (fun l t => nth_error Sg l = Some t) ls ts ->
    match assign_refs (map VRef ls) ds s with
    | (Some (Some s'), _) | (Some None, s') => st_ok Sg (refs s') /\ depth s' = depth s /\ length (refs s') = length (refs s) /\
        forall i, i < k -> nth_error (refs s') i = nth_error (refs s) i
    | (None, _) => False
    end.
  Proof.
    induction ls as [|l ls IH]; intros ds ts s k K N U T L; inversion L as [|? t ? ts' El L']; subst; cbn.
    - auto.
    - inversion T as [|d ? ds' ? Td T']; subst. apply NoDup_cons_iff in N. destruct N as [Nl N].
      apply Forall_cons_iff in U. destruct U as [[Ul Un] U].
      destruct (unwrap_typed _ _ _ _ K Td) as (w & Ew & Tw & Hw). unfold assign_ref. rewrite Ew.
      assert (go : match w with VRef l' => l' <> l /\ nth_error (refs s) l' = Some None | _ => True end ->
        match assign_refs (map VRef ls) ds' (mk_st (set_nth l (Some w) (refs s)) (depth s) (prof s)) with
        | (Some (Some s'), _) | (Some None, s') => st_ok Sg (refs s') /\ depth s' = depth s /\ length (refs s') = length (refs s) /\
            forall i, i < k -> nth_error (refs s') i = nth_error (refs s) i
        | (None, _) => False
        end).
      { intros W. set (s1 := mk_st (set_nth l (Some w) (refs s)) (depth s) (prof s)).
        assert (K1 : st_ok Sg (refs s1)) by (cbn; eapply set_ok; eauto).
        assert (U1 : Forall (fun l => k <= l /\ nth_error (refs s1) l = Some None) ls).
        { clear - U Nl. rewrite Forall_forall in *. intros x Hx. destruct (U x Hx). split; auto. cbn.
          rewrite set_other; auto. intros ->. auto. }
        specialize (IH ds' ts' s1 k K1 N U1 T' L'). destruct (assign_refs (map VRef ls) ds' s1) as [[[s2|]|] s3]; auto;
          destruct IH as (A & B & C & D); cbn in *; rewrite set_length in C; repeat split; auto; try apply A;
          intros i Hi; rewrite D by auto; apply set_other; lia. }
      destruct w as [| | | |l'|]; try (apply go; exact I).
      destruct (l' =? l) eqn:Q.
      + cbn. auto.
      + apply Nat.eqb_neq in Q. apply go. auto.
  Qed.

  (** ** Results *)
  Definition okr (Sg : list nat) (r0 : list (option (val tc))) (d : nat) (exit : bool) (t : nat) (x : res tc) : Prop :=
    let '(o, s') := x in
    o = Timeout \/
    exists Sg', st_ok Sg' (refs s') /\ grows Sg Sg' /\ later r0 (refs s') /\ depth s' = d /\
      match o with
      | Ret v => vty Sg' v t
      | Tail f xs => exit = true /\ xs <> [] /\ exists ft Xs, vty Sg' f ft /\ Forall2 (vty Sg') xs Xs /\ arrow tys ft Xs t /\
                       exists fn, strict_value (refs s') f = SVal fn
      | Abort => True
      | Crash => False
      | Timeout => True
      end.
  Definition okl (Sg : list nat) (r0 : list (option (val tc))) (d : nat) (ts : list nat) (x : lres) : Prop :=
    match x with
    | LOk vs s' => exists Sg', st_ok Sg' (refs s') /\ grows Sg Sg' /\ later r0 (refs s') /\ depth s' = d /\ Forall2 (vty Sg') vs ts
    | LFail o s' => o = Timeout \/ (o = Abort /\ exists Sg', st_ok Sg' (refs s') /\ grows Sg Sg' /\ later r0 (refs s') /\ depth s' = d)
    end.
  Definition callf_ok (callf : st tc -> val tc -> list (val tc) -> res tc) : Prop := forall Sg s f args ft Xs R,
    st_ok Sg (refs s) -> vty Sg f ft -> Forall2 (vty Sg) args Xs -> args <> [] -> arrow tys ft Xs R ->
    okr Sg (refs s) (depth s) false R (callf s f args).

  Lemma okr_ret Sg s exit t v : st_ok Sg (refs s) -> vty Sg v t -> okr Sg (refs s) (depth s) exit t (Ret v, s).
  Proof. intros K T. right. exists Sg. auto using grows_refl, later_refl. Qed.
  Lemma okr_abort Sg s exit t : st_ok Sg (refs s) -> okr Sg (refs s) (depth s) exit t (Abort, s).
  Proof. intros K. right. exists Sg. auto using grows_refl, later_refl. Qed.
  Lemma okr_from Sg r0 d Sg1 r1 exit t x : grows Sg Sg1 -> later r0 r1 -> okr Sg1 r1 d exit t x -> okr Sg r0 d exit t x.
  Proof.
    destruct x as [o s']. intros G L [->|(Sg' & K & G' & L' & D & H)]; [left; auto|right]. exists Sg'.
    split; [auto|]. split; [eapply grows_trans; eauto|]. split; [eapply later_trans; eauto|]. auto.
  Qed.
  (** An expression that is not in tail position, then the rest. *)
  Lemma okr_then Sg r0 d t x : okr Sg r0 d false t x -> forall exit t2 (k : val tc -> st tc -> res tc),
    (forall Sg1 v s, st_ok Sg1 (refs s) -> grows Sg Sg1 -> later r0 (refs s) -> depth s = d -> vty Sg1 v t -> okr Sg r0 d exit t2 (k v s)) ->
    okr Sg r0 d exit t2 (match x with (Ret v, s) => k v s | (Tail _ _, s) => (Crash, s) | (o, s) => (o, s) end).
  Proof.
    destruct x as [o s]. intros [->|(Sg' & K & G & L & D & H)] exit t2 k Hk; [left; auto|].
    destruct o; try contradiction.
    - eapply Hk; eauto.
    - destruct H; discriminate.
    - right. exists Sg'. auto.
    - left; auto.
  Qed.
  Lemma okr_list Sg r0 d ts x : okl Sg r0 d ts x -> forall exit t2 (k : list (val tc) -> st tc -> res tc),
    (forall Sg1 vs s, st_ok Sg1 (refs s) -> grows Sg Sg1 -> later r0 (refs s) -> depth s = d -> Forall2 (vty Sg1) vs ts -> okr Sg r0 d exit t2 (k vs s)) ->
    okr Sg r0 d exit t2 (match x with LOk vs s => k vs s | LFail o s => (o, s) end).
  Proof.
    destruct x as [vs s|o s].
    - intros (Sg' & K & G & L & D & H) exit t2 k Hk. eapply Hk; eauto.
    - intros [->|(-> & Sg' & K & G & L & D)] exit t2 k Hk; [left; auto|right; exists Sg'; auto].
  Qed.

  (** Canonical forms. *)
  Lemma arrow_func t As R : arrow tys t As R -> 0 < length As -> exists x r, is_func tys x r t.
  Proof. destruct As; cbn; [lia|]. intros (x & r & F & _) _. eauto. Qed.
  Lemma canon_struct Sg w t xs : vty Sg w t -> (forall l, w <> VRef l) -> is_data tys false xs t ->
    exists fs, w = VStruct fs /\ Forall2 (vty Sg) fs (map snd xs).
  Proof.
    intros T N D. destruct w as [fs|tag a|n b k ss|n k f args|l|]; cbn in T.
    - destruct T as (ys & D' & T). destruct (data_det _ _ _ _ _ _ D D') as [_ ->]. exists fs. split; auto. apply all2_F2; auto.
    - destruct T as (ys & x & u & D' & _). destruct (data_det _ _ _ _ _ _ D D'). discriminate.
    - destruct T as (us & As & R & A & <- & P & _). destruct (arrow_func _ _ _ A P) as (x & r & F). destruct (data_not_func _ _ _ _ _ _ D F).
    - destruct T as (ft & As & Bs & R & _ & _ & _ & <- & P & A). destruct (arrow_func _ _ _ A P) as (x & r & F). destruct (data_not_func _ _ _ _ _ _ D F).
    - destruct (N l); auto.
    - destruct (type_not_data _ _ _ _ T D).
  Qed.
  Lemma canon_union Sg w t xs : vty Sg w t -> (forall l, w <> VRef l) -> is_data tys true xs t ->
    exists tag a x u, w = VUnion tag a /\ nth_error xs tag = Some (x, u) /\ vty Sg a u.
  Proof.
    intros T N D. destruct w as [fs|tag a|n b k ss|n k f args|l|]; cbn in T.
    - destruct T as (ys & D' & T). destruct (data_det _ _ _ _ _ _ D D'). discriminate.
    - destruct T as (ys & x & u & D' & E & T). destruct (data_det _ _ _ _ _ _ D D') as [_ ->]. exists tag, a, x, u. auto.
    - destruct T as (us & As & R & A & <- & P & _). destruct (arrow_func _ _ _ A P) as (x & r & F). destruct (data_not_func _ _ _ _ _ _ D F).
    - destruct T as (ft & As & Bs & R & _ & _ & _ & <- & P & A). destruct (arrow_func _ _ _ A P) as (x & r & F). destruct (data_not_func _ _ _ _ _ _ D F).
    - destruct (N l); auto.
    - destruct (type_not_data _ _ _ _ T D).
  Qed.
  Lemma canon_func Sg w t x r : vty Sg w t -> (forall l, w <> VRef l) -> is_func tys x r t -> exists n, num_args_of w = Some n.
  Proof.
    intros T N F. destruct w as [fs|tag a|n b k ss|n k f args|l|]; cbn in T |- *; eauto.
    - destruct T as (ys & D' & T). destruct (data_not_func _ _ _ _ _ _ D' F).
    - destruct T as (ys & y & u & D' & _). destruct (data_not_func _ _ _ _ _ _ D' F).
    - destruct (N l); auto.
    - destruct (type_not_func _ _ _ _ T F).
  Qed.
End typing.
