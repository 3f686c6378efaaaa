(** * Types while the type checker runs: new ones, and variables that get values.  Lemmas for
    CheckProps.v. *)
From Coq Require Import String List Arith Bool ZArith Lia.
From Verif Require CodeModel CompileModel CompileStatic.
From Verif Require Import KindModel UnusedModel TypeModel TypeSpec TypeProps CheckScope CheckTyping CheckSafe.
Import ListNotations.
Local Open Scope list_scope.
Local Notation tc := CompileModel.tc.

(** ** Stores without poly types *)
Record flat (st : store) : Prop := {
  fl_node : forall n t, get st n = Some t -> wf_node st t;
  fl_poly : no_poly st;
  fl_apply : forall n f x, get st n <> Some (TApply f x);
  fl_opaque : forall n p, get st n <> Some (TPackage p false);
  fl_kind : forall n k x v, get st n = Some (TVar k x v) -> exists l, k = Basic l }.
Definition grounded (st : store) : Prop := forall n, n < List.length st -> exists m, whnf st n m.

Lemma flat_plain st : flat st -> grounded st -> plain st.
Proof. intros [A B C D E] G. split; auto. intros n t H. split; eauto. apply G. eapply get_lt; eauto. Qed.

(** ** Growing *)
Definition sle (st st' : store) : Prop := forall n t, get st n = Some t ->
  get st' n = Some t \/ exists k x l v, t = TVar k x None /\ get st' n = Some (TVar l x (Some v)).
Lemma sle_refl st : sle st st.
Proof. intros n t E. auto. Qed.
Lemma sle_trans a b c : sle a b -> sle b c -> sle a c.
Proof.
  intros H1 H2 n t E. destruct (H1 _ _ E) as [E1|(k & x & l & v & -> & E1)].
  - apply H2; auto.
  - destruct (H2 _ _ E1) as [E2|(k' & x' & l' & v' & E' & _)]; [|discriminate]. right. exists k, x, l, v. auto.
Qed.
Lemma sle_app st l : sle st (st ++ l).
Proof. intros n t E. left. unfold get in *. rewrite nth_error_app1; auto. apply nth_error_Some. congruence. Qed.
Lemma sle_lt st st' : sle st st' -> List.length st <= List.length st'.
Proof.
  intros H. destruct (Nat.le_gt_cases (List.length st) (List.length st')) as [L|L]; auto.
  destruct (lt_get st (List.length st') L) as [t E]. destruct (H _ _ E) as [E'|(k & x & l & v & _ & E')]; apply get_lt in E'; lia.
Qed.
Lemma sle_get st st' n t : sle st st' -> get st n = Some t -> (forall k x, t <> TVar k x None) -> get st' n = Some t.
Proof. intros H E N. destruct (H _ _ E) as [E'|(k & x & l & v & -> & _)]; auto. destruct (N _ _ eq_refl). Qed.

(** Graphs with packages that are not opaque. *)
Record wide (st : store) : Prop := {
  w_wf : well_formed st;
  w_poly : no_poly st;
  w_apply : forall n f x, get st n <> Some (TApply f x) }.
Lemma plain_wide st st' : plain st -> opens st st' -> wide st'.
Proof.
  intros P O. assert (NP : no_poly st'). { intros n x b E. apply (opens_get' _ _ _ _ O) in E; [|discriminate]. eapply s_poly; eauto. }
  assert (NA : forall n f x, get st' n <> Some (TApply f x)). { intros n f x E. apply (opens_get' _ _ _ _ O) in E; [|discriminate]. eapply s_apply; eauto. }
  split; auto. intros n t E. destruct (opens_back _ _ _ _ O E) as (t0 & E0 & Ot). destruct (s_wf _ P _ _ E0) as [W [m Wm]]. split.
  - pose proof (opens_len _ _ O) as L. destruct Ot as [->|(p & -> & ->)]; [|exact I].
    destruct t as [u fs|a b|a b|q a|q o|q b|k x [v|]|b]; cbn in *; rewrite ?L; auto.
    + destruct W as ((k & x & Ea) & Lb). split; auto. exists k, x. eapply opens_get; eauto. discriminate.
    + destruct (NA _ _ _ E).
    + destruct W as ((pp & o & Eq) & Lb). split; auto. destruct (opens_pkg _ _ _ _ _ O Eq) as [o' Eo]. eauto.
  - exists m. eapply opens_whnf; eauto; apply P.
Qed.

Fixpoint reopen (st0 st' : store) : store :=
  match st0, st' with
  | x :: r, y :: r' => match x with TPackage p false => x | _ => y end :: reopen r r'
  | _, _ => st'
  end.
Lemma reopen_ok st st0 : opens st st0 -> forall st', sle st st' -> opens st' (reopen st0 st') /\ sle st0 (reopen st0 st').
Proof.
  intros F. induction F as [|a a0 st st0 Oa F IH]; intros st' G; cbn [reopen].
  - split; [apply opens_refl|]. intros n t E. destruct n; discriminate.
  - destruct st' as [|b st']; [destruct (G 0 a eq_refl) as [E|(k & x & l & v & _ & E)]; discriminate|].
    destruct (IH st') as [O S]. { intros n t E. apply (G (S n) t E). }
    assert (H : opened b (match a0 with TPackage p false => a0 | _ => b end) /\
                forall t, Some a0 = Some t -> Some (match a0 with TPackage p false => a0 | _ => b end) = Some t \/
                  exists k x l v, t = TVar k x None /\ Some (match a0 with TPackage p false => a0 | _ => b end) = Some (TVar l x (Some v))).
    { destruct Oa as [<-|(p & -> & ->)].
      - specialize (G 0 a eq_refl). cbn in G. destruct G as [G|(k & x & l & v & -> & G)].
        + injection G as ->. destruct a as [| | | |q [|]| | |]; split; try (left; reflexivity); intros t E; left; auto.
        + injection G as ->. split; [left; reflexivity|]. intros t E. injection E as <-. right. exists k, x, l, v. auto.
      - destruct (G 0 _ eq_refl) as [E|(k & x & l & v & E & _)]; [|discriminate]. injection E as ->. split; [right; eauto|]. auto. }
    destruct H as [H1 H2]. split; [constructor; auto|]. intros [|n] t E; [apply H2; exact E|apply (S n t E)].
Qed.

Section wide.
  Variables st st' : store.
  Hypothesis Wd : wide st.
  Hypothesis Gr : sle st st'.

  Lemma whnf_to n m : whnf st n m -> forall m', whnf st' m m' -> whnf st' n m'.
  Proof.
    intros W. induction W as [| | | | | |n k x v m E W IH|n x b m E|n x b m f E|n f x E]; auto; intros m' W'.
    - eapply whnf_var; [eapply sle_get; eauto; discriminate|]. auto.
    - destruct (w_poly _ Wd _ _ _ E).
  Qed.
  Lemma whnf_keep n m t : whnf st n m -> get st m = Some t -> (forall k x, t <> TVar k x None) -> whnf st' n m.
  Proof.
    intros W E N. apply (whnf_to _ _ W). pose proof (sle_get _ _ _ _ Gr E N) as E'.
    destruct t as [u fs|a r|a b|p a|p o|p b|k x [v|]|t].
    - eapply whnf_data; eauto.
    - eapply whnf_func; eauto.
    - destruct (w_poly _ Wd _ _ _ E).
    - destruct (w_apply _ Wd _ _ _ E).
    - eapply whnf_package; eauto.
    - eapply whnf_abstract; eauto.
    - destruct (whnf_node _ _ _ W) as (t' & Et & Nt). rewrite E in Et. injection Et as <-. destruct (Nt _ _ _ eq_refl).
    - destruct (N _ _ eq_refl).
    - eapply whnf_type; eauto.
  Qed.

  Hypothesis Wd' : wide st'.

  Lemma lt_grow n : n < List.length st -> n < List.length st'.
  Proof. intros H. pose proof (sle_lt _ _ Gr). lia. Qed.
  Lemma wide_whnf s n : wide s -> n < List.length s -> exists m, whnf s n m.
  Proof. intros W L. destruct (lt_get _ _ L) as [t E]. apply (w_wf _ W _ _ E). Qed.

  Lemma whnf_from n m' : n < List.length st -> whnf st' n m' -> exists m, whnf st n m /\ whnf st' m m'.
  Proof.
    intros L W'. destruct (wide_whnf _ _ Wd L) as [m W]. exists m. split; auto.
    destruct (wide_whnf _ m Wd') as [m2 W2]. { apply lt_grow. eapply whnf_lt; eauto. }
    rewrite (whnf_det _ _ _ W' _ (whnf_to _ _ W _ W2)). auto.
  Qed.

  Lemma transparent_grow m t : transparent st m t -> transparent st' m t.
  Proof. intros (p & q & E & Ep). exists p, q. split; eapply sle_get; eauto; discriminate. Qed.
  Lemma transparent_from m d t : get st m = Some d -> (forall k x, d <> TVar k x None) -> transparent st' m t -> transparent st m t.
  Proof.
    intros E N (p & q & E' & Ep). rewrite (sle_get _ _ _ _ Gr E N) in E'. injection E' as ->.
    destruct (get_wf _ _ _ (w_wf _ Wd) E) as ((pp & o & Eq) & _). exists p, q. split; auto.
    pose proof (sle_get _ _ _ _ Gr Eq ltac:(discriminate)) as Eq'. congruence.
  Qed.
  Lemma head_from n h' : head st' n h' -> n < List.length st -> exists h, head st n h /\ head st' h h'.
  Proof.
    intros H. induction H as [n h' W N|n m' t h' W T H IH]; intros L; destruct (whnf_from _ _ L W) as (m & Wm & Wm').
    - exists m. split; [|apply head_here; auto]. apply head_here; auto. intros t T. pose proof T as (p & q & E & _).
      assert (Em : whnf st' m m) by (eapply whnf_keep; [eapply whnf_self; eauto|exact E|discriminate]).
      pose proof (whnf_det _ _ _ Wm' _ Em). subst h'. exact (N _ (transparent_grow _ _ T)).
    - destruct (whnf_node _ _ _ Wm) as (d & Ed & Nd).
      assert ((exists k x, d = TVar k x None) \/ forall k x, d <> TVar k x None) as [(k & x & ->)|Nv].
      { destruct d as [| | | | | |k x [v|]|]; eauto; right; discriminate. }
      + exists m. split; [|eapply head_under; eauto]. apply head_here; auto. intros u (p & q & E & _). congruence.
      + assert (Em : whnf st' m m) by (eapply whnf_keep; [eapply whnf_self; eauto|exact Ed|auto]).
        pose proof (whnf_det _ _ _ Wm' _ Em). subst m'. pose proof (transparent_from _ _ _ Ed Nv T) as T0.
        destruct T0 as (p & q & E & Ep). destruct (get_wf _ _ _ (w_wf _ Wd) E) as [_ Lt].
        destruct (IH Lt) as (h & Hh & Hh'). exists h. split; auto. eapply head_under; eauto. exists p, q. auto.
  Qed.
  Lemma head_self s n h : head s n h -> whnf s h h /\ forall t, ~ transparent s h t.
  Proof. intros H. induction H as [n h W N|n m t h W T H IH]; auto. split; auto. eapply whnf_self; eauto. Qed.
  Lemma head_keep n h d : head st n h -> get st h = Some d -> (forall k x, d <> TVar k x None) -> head st' h h.
  Proof.
    intros H E N. destruct (head_self _ _ _ H) as [W T]. apply head_here; [eapply whnf_keep; eauto|].
    intros t Ht. apply (T t). eapply transparent_from; eauto.
  Qed.

  Lemma eqv_grow a b : a < List.length st -> b < List.length st -> eqv st [] a b -> eqv st' [] a b.
  Proof.
    intros La Lb Q.
    exists (fun G x y => (G = [] /\ x < List.length st /\ y < List.length st /\ eqv st [] x y) \/ x = y). split; [|auto].
    intros G x y H hx hy Hx Hy.
    assert (Id : forall R : rel, (forall D z, R D z z) -> forall m, (exists n, head st' n m) -> same st' R G m m).
    { intros R HR m [n W]. destruct (head_self _ _ _ W) as [Wm _]. unfold same. destruct (whnf_node _ _ _ Wm) as (t & E & N). rewrite E. destruct t; auto.
      - split; auto. apply F2_refl. intros z. split; [apply vname_equal_refl|auto].
      - destruct (w_poly _ Wd' _ _ _ E). }
    destruct H as [(-> & Lx & Ly & Qx)| ->].
    2:{ rewrite (head_det _ _ _ Hy _ Hx). apply Id; eauto. }
    destruct (head_from _ _ Hx Lx) as (mx & Wx & Wx'). destruct (head_from _ _ Hy Ly) as (my & Wy & Wy').
    pose proof (eqv_same _ _ _ _ _ _ Qx Wx Wy) as Sm.
    destruct (head_self _ _ _ Wx) as [Vx _]. destruct (head_self _ _ _ Wy) as [Vy _].
    destruct (whnf_node _ _ _ Vx) as (tx & Ex & Nx). destruct (whnf_node _ _ _ Vy) as (ty & Ey & Ny).
    destruct tx as [u fs|p r|p q|p q|p o|p q|k z [v|]|p];
      try (destruct (w_poly _ Wd _ _ _ Ex)); try (destruct (w_apply _ Wd _ _ _ Ex)); try (destruct (Nx _ _ _ eq_refl)).
    all: unfold same in Sm; rewrite Ex, Ey in Sm; destruct ty as [u' fs'|p' r'|p' q'|p' q'|p' o'|p' q'|k' z' v'|p']; try contradiction.
    5:{ destruct Sm as [[]|E]. subst my. rewrite (head_det _ _ _ Wy' _ Wx'). apply Id; eauto. }
    all: pose proof (get_wf _ _ _ (w_wf _ Wd) Ex) as Fx; pose proof (get_wf _ _ _ (w_wf _ Wd) Ey) as Fy;
      assert (Kx : head st' mx mx) by (eapply head_keep; [exact Wx|exact Ex|discriminate]);
      assert (Ky : head st' my my) by (eapply head_keep; [exact Wy|exact Ey|discriminate]);
      rewrite (head_det _ _ _ Wx' _ Kx), (head_det _ _ _ Wy' _ Ky);
      apply (sle_get _ _ _ _ Gr) in Ex; [|discriminate]; apply (sle_get _ _ _ _ Gr) in Ey; [|discriminate];
      unfold same; rewrite Ex, Ey; cbn in Fx, Fy.
    - destruct Sm as [-> F]. split; auto. clear - F Fx Fy. induction F as [|x y l m [A B] F IH]; constructor.
      + apply Forall_cons_iff in Fx, Fy. split; auto. left. tauto.
      + apply Forall_cons_iff in Fx, Fy. apply IH; tauto.
    - destruct Sm. split; left; tauto.
    - auto.
    - destruct Sm, Fx as [(pp & po & Fx) Fx'], Fy as [(pp' & po' & Fy) Fy'].
      apply get_lt in Fx, Fy. split; left; auto.
    - left; auto.
  Qed.
End wide.
Lemma plain_wide_self st : plain st -> wide st.
Proof. intros P. apply (plain_wide st); auto. apply opens_refl. Qed.

(** The same types, up to conversion everywhere: what the type checker shows. *)
Section typed.
  Variable tys : store.
  Notation conv := (conv tys).
  Definition some_letter (xs : list (vname * nat)) (l : nat) : Prop :=
    exists x u u', nth_error xs l = Some (x, u) /\ conv u u' /\ is_unit tys u'.
  Fixpoint typed (Ss As : list nat) (L : list (option nat)) (e : tc) (t : nat) {struct e} : Prop :=
    match e with
    | CompileModel.TType => exists t', conv t' t /\ is_type tys t'
    | CompileModel.TVar v => exists u, vtype Ss As L v = Some u /\ conv u t
    | CompileModel.TLet r bs b => exists ts,
        all2 (typed Ss As (L ++ map (fun t => if r then Some t else None) ts)) bs ts /\ typed Ss As (L ++ map Some ts) b t
    | CompileModel.TStruct fs => exists t' xs, conv t' t /\ is_data tys false xs t' /\ all2 (typed Ss As L) fs (map snd xs)
    | CompileModel.TCopy src fs => exists t' xs, conv t' t /\ is_data tys false xs t' /\ typed Ss As L src t' /\
        all2 (fun o u => match o with Some e => typed Ss As L e u | None => True end) fs (map snd xs)
    | CompileModel.TUnion tag a => exists t' xs x u, conv t' t /\ is_data tys true xs t' /\ nth_error xs tag = Some (x, u) /\ typed Ss As L a u
    | CompileModel.TSelect c n ts d => exists ct xs, typed Ss As L c ct /\ is_data tys true xs ct /\ n = List.length xs /\
        all (fun p => typed Ss As L (snd p) t) ts /\ typed Ss As L d t
    | CompileModel.TAccess k o i => exists ot xs x u, typed Ss As L o ot /\ is_data tys (negb k) xs ot /\ nth_error xs i = Some (x, u) /\ conv u t
    | CompileModel.TFunc scope b => exists t' x r us, conv t' t /\ is_func tys x r t' /\ Forall2 (fun v u => vtype Ss As L v = Some u) scope us /\ typed us [x] [] b r
    | CompileModel.TApply f a => exists ft x r, typed Ss As L f ft /\ is_func tys x r ft /\ typed Ss As L a x /\ conv r t
    | CompileModel.TList fs => exists t' el, conv t' t /\ is_list tys t' el /\ all (fun e => typed Ss As L e el) fs
    | CompileModel.TLiteral ls => exists t' el xs, conv t' t /\ is_list tys t' el /\ is_data tys true xs el /\ Forall (some_letter xs) ls
    end.

  Lemma typed_tight e : simple tys -> forall Ss As L t, typed Ss As L e t -> tight tys Ss As L e t.
  Proof.
    intros Si. assert (A2 : forall (P Q : tc -> nat -> Prop) l ts, Forall (fun x => forall t, P x t -> Q x t) l -> all2 P l ts -> all2 Q l ts).
    { intros P Q l ts F. revert ts. induction F; intros [|t ts] T; cbn in *; auto. destruct T. split; auto. }
    assert (A1 : forall (P Q : tc -> Prop) l, Forall (fun x => P x -> Q x) l -> all P l -> all Q l).
    { intros P Q l F. induction F; cbn; auto. intros []. split; auto. }
    induction e using CompileStatic.tc_ind'; intros Ss As L ty T; cbn [typed] in T.
    - destruct T as (t' & C & T). eapply type_conv; eauto.
    - exact T.
    - destruct T as (ts & T1 & T2). exists ts. split; auto. eapply A2; [|exact T1]. eapply Forall_impl; [|eassumption]. cbn. auto.
    - destruct T as (t' & xs & C & D & T). eapply tight_conv; [exact Si| |exact C]. exists xs. split; auto. eapply A2; [|exact T]. eapply Forall_impl; [|eassumption]. cbn. auto.
    - destruct T as (t' & xs & C & D & T1 & T2). eapply tight_conv; [exact Si| |exact C]. exists xs. split; auto. split; auto.
      revert T2. generalize (map snd xs). clear - H. induction H as [|o l Ho H IH]; intros [|t ts] T; cbn in *; auto.
      destruct T as [T1 T2]. split; auto. destruct o; cbn in *; auto.
    - destruct T as (t' & xs & x & u & C & D & E & T). eapply tight_conv; [exact Si| |exact C]. exists xs, x, u. auto.
    - destruct T as (ct & xs & T1 & D & Ln & T2 & T3). exists ct, xs. split; auto. split; auto. split; auto. split; auto.
      clear - H T2. induction H as [|q l Hq H IH]; cbn in *; auto. destruct T2. split; auto.
    - destruct T as (ot & xs & x & u & T & D & E & C). exists ot, xs, x, u. auto.
    - destruct T as (t' & x & r & us & C & F & Vs & T). eapply tight_conv; [exact Si| |exact C]. exists x, r, us. auto.
    - destruct T as (ft & x & r & T1 & F & T2 & C'). exists ft, x, r. auto.
    - destruct T as (t' & el & C & Hl & T). eapply tight_conv; [exact Si| |exact C]. exists el. split; auto. eapply A1; [|exact T]. eapply Forall_impl; [|eassumption]. cbn. auto.
    - destruct T as (t' & el & xs & C & Hl & D & F). eapply tight_conv; [exact Si| |exact C]. exists el, xs. split; auto. split; auto.
      eapply Forall_impl; [|exact F]. intros l0 (x & u & u' & E & Cu & U). exists x, u. split; auto. eapply unit_conv; eauto. apply conv_sym; auto.
  Qed.

  Lemma typed_ctx e : forall Ss As L t Ss' As' L' t', typed Ss As L e t -> Forall2 conv Ss Ss' -> Forall2 conv As As' ->
    Forall2 (lconv tys) L L' -> conv t t' -> typed Ss' As' L' e t'.
  Proof.
    induction e using CompileStatic.tc_ind'; intros Ss As L ty Ss' As' L' ty' T CS CA CL C; cbn [typed] in *.
    - destruct T as (t0 & C0 & T). exists t0. split; auto. eapply conv_trans; eauto.
    - destruct T as (u & E & C'). destruct (vtype_conv _ _ _ _ _ _ _ _ _ CS CA CL E) as (u' & E' & Cu). exists u'. split; auto.
      eapply conv_trans; [apply conv_sym; exact Cu|]. eapply conv_trans; [exact C'|exact C].
    - destruct T as (ts & T1 & T2). exists ts. split.
      + eapply all2_conv; [|apply F2_conv_refl|exact T1]. eapply Forall_impl; [|eassumption]. cbn. intros e0 IH u w T Cu.
        eapply IH; eauto. apply Forall2_app; auto. apply CheckScope.F2_refl. apply lconv_refl.
      + eapply IHe; eauto. apply Forall2_app; auto. apply CheckScope.F2_refl. apply lconv_refl.
    - destruct T as (t0 & xs & C0 & D & T). exists t0, xs. split; [eapply conv_trans; eauto|]. split; auto.
      eapply all2_conv; [|apply F2_conv_refl|exact T]. eapply Forall_impl; [|eassumption]. cbn. eauto.
    - destruct T as (t0 & xs & C0 & D & T1 & T2). exists t0, xs. split; [eapply conv_trans; eauto|]. split; auto. split; [eapply IHe; eauto using conv_refl|].
      eapply all2_conv; [|apply F2_conv_refl|exact T2]. eapply Forall_impl; [|eassumption]. cbn. intros [e0|]; eauto.
    - destruct T as (t0 & xs & x & u & C0 & D & E & T). exists t0, xs, x, u. split; [eapply conv_trans; eauto|]. split; auto. split; auto.
      eapply IHe; eauto using conv_refl.
    - destruct T as (ct & xs & T1 & D & Ln & T2 & T3). exists ct, xs. split; [eapply IHe1; eauto using conv_refl|]. split; auto. split; auto. split; eauto.
      apply all_F. apply all_F in T2. revert T2. clear - H C CS CA CL. intros T2.
      induction H as [|q l Hq H IH]; auto. inversion T2; subst. constructor; eauto.
    - destruct T as (ot & xs & x & u & T & D & E & C'). exists ot, xs, x, u. split; [eapply IHe; eauto using conv_refl|].
      repeat split; auto. eapply conv_trans; eauto.
    - destruct T as (t0 & x & r & us & C0 & F & V & T).
      assert (exists us', Forall2 (fun v u => vtype Ss' As' L' v = Some u) scope us' /\ Forall2 conv us us') as (us' & V' & Cus).
      { clear - V CS CA CL. induction V as [|v u scope us E V IH]; [exists []; auto|]. destruct IH as (us' & V' & Cu).
        destruct (vtype_conv _ _ _ _ _ _ _ _ _ CS CA CL E) as (u' & E' & Cu'). exists (u' :: us'). auto. }
      exists t0, x, r, us'. split; [eapply conv_trans; eauto|]. split; auto. split; auto. eapply IHe; eauto using F2_conv_refl, conv_refl.
    - destruct T as (ft & x & r & T1 & F & T2 & C'). exists ft, x, r. split; [eapply IHe1; eauto using conv_refl|]. split; auto.
      split; [eapply IHe2; eauto using conv_refl|]. eapply conv_trans; eauto.
    - destruct T as (t0 & el & C0 & Hl & T). exists t0, el. split; [eapply conv_trans; eauto|]. split; auto.
      apply all_F. apply all_F in T. revert T. clear - H CS CA CL. intros T2.
      induction H as [|q l Hq H IH]; auto. inversion T2; subst. constructor; eauto using conv_refl.
    - destruct T as (t0 & el & xs & C0 & Hl & D & F). exists t0, el, xs. split; [eapply conv_trans; eauto|]. auto.
  Qed.
  Lemma typed_conv Ss As L e t t' : typed Ss As L e t -> conv t t' -> typed Ss As L e t'.
  Proof. intros T C. eapply typed_ctx; eauto using F2_conv_refl. apply CheckScope.F2_refl. apply lconv_refl. Qed.
End typed.

Section grow.
  Variables st st' : store.
  Hypothesis Si : plain st.
  Hypothesis Gr : sle st st'.
  Lemma plain_keep n m t : whnf st n m -> get st m = Some t -> (forall k x, t <> TVar k x None) -> whnf st' n m.
  Proof. apply whnf_keep; auto. apply plain_wide_self; auto. Qed.
  Lemma head_whnf_plain s n h : plain s -> head s n h -> whnf s n h.
  Proof. intros S H. inversion H as [? ? W _|? m t ? W T _]; subst; auto. destruct (not_transparent _ S _ _ T). Qed.
  Hypothesis Si' : plain st'.

  Lemma conv_grow a b : conv st a b -> conv st' a b.
  Proof.
    intros C. induction C as [st0 a b O La Lb Q|a m p b W E|a|a b C IH|a b c C1 IH1 C2 IH2].
    - destruct (reopen_ok _ _ O _ Gr) as [O' G']. apply (conv_open st' (reopen st0 st')); eauto using lt_grow.
      apply (eqv_grow st0); auto; try (rewrite (opens_len _ _ O); auto); [apply (plain_wide _ _ Si O)|apply (plain_wide _ _ Si' O')].
    - eapply conv_abs; [eapply plain_keep; eauto; discriminate|]. eapply sle_get; eauto. discriminate.
    - apply conv_refl.
    - apply conv_sym; auto.
    - eapply conv_trans; eauto.
  Qed.
  Lemma peel_grow t h d : peel st t h -> get st h = Some d -> (forall k x, d <> TVar k x None) -> peel st' t h.
  Proof.
    intros P. induction P as [t h W N|t m p u h W E P IH]; intros Eh Nv.
    - apply peel_here; [eapply plain_keep; eauto|]. rewrite (sle_get _ _ _ _ Gr Eh Nv). rewrite Eh in N. auto.
    - eapply peel_under; eauto; [eapply plain_keep; eauto; discriminate|]. eapply sle_get; eauto. discriminate.
  Qed.
  Lemma data_grow u fs t : is_data st u fs t -> is_data st' u fs t.
  Proof. intros (h & P & E). exists h. split; [eapply peel_grow; eauto; discriminate|]. eapply sle_get; eauto. discriminate. Qed.
  Lemma func_grow x r t : is_func st x r t -> is_func st' x r t.
  Proof. intros (h & P & E). exists h. split; [eapply peel_grow; eauto; discriminate|]. eapply sle_get; eauto. discriminate. Qed.
  Lemma type_grow t : is_type st t -> is_type st' t.
  Proof. intros (h & u & P & E). exists h, u. split; [eapply peel_grow; eauto; discriminate|]. eapply sle_get; eauto. discriminate. Qed.
  Lemma list_grow t el : is_list st t el -> is_list st' t el.
  Proof.
    intros (c & e & x & y & z & w & el' & tl & D & U & D' & C1 & C2). exists c, e, x, y, z, w, el', tl.
    split; [apply data_grow; auto|]. split; [apply data_grow; auto|]. split; [apply data_grow; auto|]. split; apply conv_grow; auto.
  Qed.

  Lemma typed_grow e : forall Ss As L t, typed st Ss As L e t -> typed st' Ss As L e t.
  Proof.
    assert (A2 : forall (P Q : tc -> nat -> Prop) l ts, Forall (fun x => forall t, P x t -> Q x t) l -> all2 P l ts -> all2 Q l ts).
    { intros P Q l ts F. revert ts. induction F; intros [|t ts] T; cbn in *; auto. destruct T. split; auto. }
    assert (A1 : forall (P Q : tc -> Prop) l, Forall (fun x => P x -> Q x) l -> all P l -> all Q l).
    { intros P Q l F. induction F; cbn; auto. intros []. split; auto. }
    induction e using CompileStatic.tc_ind'; intros Ss As L ty T; cbn [typed] in *.
    - destruct T as (t' & C & T). exists t'. split; [apply conv_grow; auto|apply type_grow; auto].
    - destruct T as (u & E & C). exists u. split; auto. apply conv_grow; auto.
    - destruct T as (ts & T1 & T2). exists ts. split; auto. eapply A2; [|exact T1]. eapply Forall_impl; [|eassumption]. cbn. auto.
    - destruct T as (t' & xs & C & D & T). exists t', xs. split; [apply conv_grow; auto|]. split; [apply data_grow; auto|]. eapply A2; [|exact T]. eapply Forall_impl; [|eassumption]. cbn. auto.
    - destruct T as (t' & xs & C & D & T1 & T2). exists t', xs. split; [apply conv_grow; auto|]. split; [apply data_grow; auto|]. split; auto.
      revert T2. generalize (map snd xs). clear - H. induction H as [|o l Ho H IH]; intros [|t ts] T; cbn in *; auto.
      destruct T as [T1 T2]. split; auto. destruct o; cbn in *; auto.
    - destruct T as (t' & xs & x & u & C & D & E & T). exists t', xs, x, u. split; [apply conv_grow; auto|]. split; [apply data_grow; auto|]. auto.
    - destruct T as (ct & xs & T1 & D & Ln & T2 & T3). exists ct, xs. split; auto. split; [apply data_grow; auto|]. split; auto. split; auto.
      clear - H T2. induction H as [|q l Hq H IH]; cbn in *; auto. destruct T2. split; auto.
    - destruct T as (ot & xs & x & u & T & D & E & C). exists ot, xs, x, u. split; auto. split; [apply data_grow; auto|]. split; auto.
      apply conv_grow; auto.
    - destruct T as (t' & x & r & us & C & F & Vs & T). exists t', x, r, us. split; [apply conv_grow; auto|]. split; [apply func_grow; auto|]. auto.
    - destruct T as (ft & x & r & T1 & F & T2 & C'). exists ft, x, r. split; auto. split; [apply func_grow; auto|]. split; auto. apply conv_grow; auto.
    - destruct T as (t' & el & C & Hl & T). exists t', el. split; [apply conv_grow; auto|]. split; [apply list_grow; auto|]. eapply A1; [|exact T]. eapply Forall_impl; [|eassumption]. cbn. auto.
    - destruct T as (t' & el & xs & C & Hl & D & F). exists t', el, xs. split; [apply conv_grow; auto|]. split; [apply list_grow; auto|]. split; [apply data_grow; auto|].
      eapply Forall_impl; [|exact F]. intros ? (x & u & u' & E & Cu & U). exists x, u, u'. split; auto. split; [apply conv_grow; auto|apply data_grow; auto].
  Qed.
End grow.

(** ** More captured variables *)
Lemma typed_weak st e : forall Ss As L t x, typed st Ss As L e t -> typed st (Ss ++ x) As L e t.
Proof.
  assert (V : forall Ss As L v u x, vtype Ss As L v = Some u -> vtype (Ss ++ x) As L v = Some u).
  { intros Ss As L [i|i|i] u x E; cbn in *; auto. rewrite nth_error_app1; auto. apply nth_error_Some. congruence. }
  assert (A2 : forall (P Q : tc -> nat -> Prop) l ts, Forall (fun x => forall t, P x t -> Q x t) l -> all2 P l ts -> all2 Q l ts).
  { intros P Q l ts F. revert ts. induction F; intros [|t ts] T; cbn in *; auto. destruct T. split; auto. }
  assert (A1 : forall (P Q : tc -> Prop) l, Forall (fun x => P x -> Q x) l -> all P l -> all Q l).
  { intros P Q l F. induction F; cbn; auto. intros []. split; auto. }
  induction e using CompileStatic.tc_ind'; intros Ss As L ty z T; cbn [typed] in *.
  - auto.
  - destruct T as (u & E & C). exists u. split; auto.
  - destruct T as (ts & T1 & T2). exists ts. split; auto. eapply A2; [|exact T1]. eapply Forall_impl; [|eassumption]. cbn. auto.
  - destruct T as (t' & xs & C & D & T). exists t', xs. split; auto. split; auto. eapply A2; [|exact T]. eapply Forall_impl; [|eassumption]. cbn. auto.
  - destruct T as (t' & xs & C & D & T1 & T2). exists t', xs. split; auto. split; auto. split; auto.
    revert T2. generalize (map snd xs). clear - H. induction H as [|o l Ho H IH]; intros [|t ts] T; cbn in *; auto.
    destruct T as [T1 T2]. split; auto. destruct o; cbn in *; auto.
  - destruct T as (t' & xs & x & u & C & D & E & T). exists t', xs, x, u. split; auto.
  - destruct T as (ct & xs & T1 & D & Ln & T2 & T3). exists ct, xs. split; auto. split; auto. split; auto. split; auto.
    clear - H T2. induction H as [|q l Hq H IH]; cbn in *; auto. destruct T2. split; auto.
  - destruct T as (ot & xs & x & u & T & D & E & C). exists ot, xs, x, u. auto.
  - destruct T as (t' & x & r & us & C & F & Vs & T). exists t', x, r, us. split; auto. split; auto. split; auto. clear - V Vs. induction Vs; constructor; auto.
  - destruct T as (ft & x & r & T1 & F & T2 & C'). exists ft, x, r. auto.
  - destruct T as (t' & el & C & Hl & T). exists t', el. split; auto. split; auto. eapply A1; [|exact T]. eapply Forall_impl; [|eassumption]. cbn. auto.
  - auto.
Qed.

(** ** Equal types *)
Lemma conv_whnf st t m : plain st -> whnf st t m -> conv st t m.
Proof.
  intros S W. pose proof (whnf_lt _ _ _ W) as Lm. apply conv_eq; auto.
  - destruct (whnf_wd _ _ _ W) as [d Wd]. eapply wd_lt; eauto.
  - apply (eqv_heads st [] m m); auto.
    + intros h H. apply head_whnf with t; auto.
    + apply equal_types_refl. apply (s_wf _ S).
Qed.
Lemma conv_meet st a b m : plain st -> whnf st a m -> whnf st b m -> conv st a b.
Proof. intros S A B. eapply conv_trans; [apply conv_whnf; eauto|]. apply conv_sym, conv_whnf; auto. Qed.
