(** * Types of type checked expressions and of values: a proof device for CheckProps.v. *)
From Coq Require Import String List Arith Bool Lia.
Import ListNotations.
From Verif Require CodeModel CompileModel FuncModel.
From Verif Require Import KindModel UnusedModel TypeModel TypeSpec TypeProps CheckScope.
Local Notation tc := CompileModel.tc.
Local Notation var := CodeModel.var.

(** The graphs of types of the fragment: no poly types, all packages opaque. *)
Record plain (st : store) : Prop := {
  s_wf : well_formed st;
  s_poly : no_poly st;
  s_apply : forall n f x, get st n <> Some (TApply f x);
  s_opaque : forall n p, get st n <> Some (TPackage p false) }.

(** The graph when some packages are not opaque. *)
Definition opened (a b : ty) : Prop := a = b \/ exists p, a = TPackage p true /\ b = TPackage p false.
Definition opens (st st' : store) : Prop := Forall2 opened st st'.
Lemma opens_refl st : opens st st.
Proof. apply F2_refl. intros x. left. auto. Qed.
Lemma opens_len st st' : opens st st' -> List.length st' = List.length st.
Proof. intros F. symmetry. eapply Forall2_len; eauto. Qed.
Lemma opens_get st st' n t : opens st st' -> get st n = Some t -> (forall p, t <> TPackage p true) -> get st' n = Some t.
Proof.
  intros F E N. unfold get in *. destruct (CheckScope.F2_nth _ _ _ _ _ F E) as (t' & E' & [<-|(p & -> & _)]); auto. destruct (N _ eq_refl).
Qed.
Lemma opens_pkg st st' n p o : opens st st' -> get st n = Some (TPackage p o) -> exists o', get st' n = Some (TPackage p o').
Proof.
  intros F E. unfold get in *. destruct (CheckScope.F2_nth _ _ _ _ _ F E) as (t' & E' & [<-|(q & Eq & ->)]); eauto.
  injection Eq as <- _. eauto.
Qed.
Lemma opens_back st st' n t : opens st st' -> get st' n = Some t -> exists t0, get st n = Some t0 /\ opened t0 t.
Proof.
  intros F E. assert (L : n < List.length st). { rewrite <- (opens_len _ _ F). eapply get_lt; eauto. }
  destruct (lt_get _ _ L) as [t0 E0]. exists t0. split; auto. unfold get in *. destruct (CheckScope.F2_nth _ _ _ _ _ F E0) as (t' & E' & O). congruence.
Qed.
Lemma opens_get' st st' n t : opens st st' -> get st' n = Some t -> (forall p o, t <> TPackage p o) -> get st n = Some t.
Proof. intros F E N. destruct (opens_back _ _ _ _ F E) as (t0 & E0 & [->|(p & -> & ->)]); auto. destruct (N _ _ eq_refl). Qed.
Lemma opens_whnf st st' n m : opens st st' -> no_poly st -> (forall n f x, get st n <> Some (TApply f x)) -> whnf st n m -> whnf st' n m.
Proof.
  intros O NP NA W. induction W as [n u fs E|n a r E|n p o E|n p t E|n t E|n k x E|n k x v m E W IH|n x b m E|n x b m f E|n f x E];
    try (destruct (NP _ _ _ E)); try (destruct (NA _ _ _ E));
    try (pose proof (opens_get _ _ _ _ O E ltac:(discriminate)) as E').
  - eapply whnf_data; eauto.
  - eapply whnf_func; eauto.
  - destruct (opens_pkg _ _ _ _ _ O E). eapply whnf_package; eauto.
  - eapply whnf_abstract; eauto.
  - eapply whnf_type; eauto.
  - eapply whnf_free; eauto.
  - eapply whnf_var; eauto.
Qed.
Lemma opens_whnf' st st' n m : opens st st' -> no_poly st -> (forall n f x, get st n <> Some (TApply f x)) -> whnf st' n m -> whnf st n m.
Proof.
  intros O NP NA W. induction W as [n u fs E|n a r E|n p o E|n p t E|n t E|n k x E|n k x v m E W IH|n x b m E|n x b m f E|n f x E];
    try (pose proof (opens_get' _ _ _ _ O E ltac:(discriminate)) as E').
  - eapply whnf_data; eauto.
  - eapply whnf_func; eauto.
  - destruct (opens_back _ _ _ _ O E) as (t0 & E0 & [->|(q & -> & Eq)]); eapply whnf_package; eauto.
  - eapply whnf_abstract; eauto.
  - eapply whnf_type; eauto.
  - eapply whnf_free; eauto.
  - eapply whnf_var; eauto.
  - destruct (NP _ _ _ E').
  - destruct (NP _ _ _ E').
  - destruct (NA _ _ _ E').
Qed.

Section store.
  Variable st : store.

  (** The outermost constructor of a type, not counting abstract types. *)
  Inductive peel : nat -> nat -> Prop :=
  | peel_here t h : whnf st t h -> (forall p u, get st h <> Some (TAbstract p u)) -> peel t h
  | peel_under t m p u h : whnf st t m -> get st m = Some (TAbstract p u) -> peel u h -> peel t h.

  Lemma peel_det t h : peel t h -> forall h', peel t h' -> h = h'.
  Proof.
    intros P. induction P as [t h W N|t m p u h W E P IH]; intros h' P'; inversion P' as [t' h'' W' N'|t' m' p' u' h'' W' E' P'']; subst.
    - eapply whnf_det; eauto.
    - rewrite (whnf_det _ _ _ W _ W') in N. destruct (N _ _ E').
    - rewrite (whnf_det _ _ _ W' _ W) in N'. destruct (N' _ _ E).
    - rewrite (whnf_det _ _ _ W' _ W) in E'. rewrite E in E'. injection E' as <- <-. auto.
  Qed.

  (** Types of the same values: equal ones, and an abstract type and what it stands for. *)
  Inductive conv : nat -> nat -> Prop :=
  | conv_open st' a b : opens st st' -> a < List.length st -> b < List.length st -> eqv st' [] a b -> conv a b
  | conv_abs a m p b : whnf st a m -> get st m = Some (TAbstract p b) -> conv a b
  | conv_refl a : conv a a
  | conv_sym a b : conv a b -> conv b a
  | conv_trans a b c : conv a b -> conv b c -> conv a c.

  Definition same_head (a b : nat) : Prop :=
    match get st a, get st b with
    | Some (TData u fs), Some (TData v gs) => u = v /\ Forall2 (same_field conv) fs gs
    | Some (TFunc x r), Some (TFunc y s) => conv x y /\ conv r s
    | Some (TPackage p _), Some (TPackage q _) => p = q
    | Some (TVar _ _ _), Some (TVar _ _ _) => a = b
    | Some (TType s), Some (TType t) => conv s t
    | _, _ => False
    end.

  Hypothesis Pl : plain st.

  Lemma conv_eq a b : a < List.length st -> b < List.length st -> eqv st [] a b -> conv a b.
  Proof. apply conv_open, opens_refl. Qed.
  Lemma not_transparent n t : ~ transparent st n t.
  Proof. intros (p & path & _ & E). eapply s_opaque; eauto. Qed.
  Lemma whnf_head n m : whnf st n m -> head st n m.
  Proof. intros W. constructor; auto. intros t. apply not_transparent. Qed.

  Lemma has_whnf n : n < List.length st -> exists m, whnf st n m.
  Proof. intros L. destruct (lt_get _ _ L) as [t E]. apply (s_wf _ Pl _ _ E). Qed.
  Lemma whnf_lt n m : whnf st n m -> m < List.length st.
  Proof. intros W. destruct (whnf_node _ _ _ W) as (t & E & _). eapply get_lt; eauto. Qed.
End store.

(** And every type has an outermost constructor besides abstract ones: none is nothing but
    itself made abstract. *)
Record simple (st : store) : Prop := {
  s_plain :> plain st;
  s_peel : forall n, n < List.length st -> exists h, peel st n h }.

Section simple.
  Variable st : store.
  Hypothesis Si : simple st.
  Notation peel := (peel st). Notation conv := (conv st). Notation same_head := (same_head st).

  (** Going under abstract types on both sides. *)
  Lemma transparent_or st' m : (exists t, transparent st' m t) \/ (forall t, ~ transparent st' m t).
  Proof.
    unfold transparent. destruct (get st' m) as [d|] eqn:E; [|right; intros t (p & q & E' & _); congruence].
    destruct d as [| | | | |p t| |]; try (right; intros ? (? & ? & E' & _); congruence; fail).
    destruct (get st' p) as [d|] eqn:Ep; [|right; intros ? (p' & ? & E' & E2); congruence].
    destruct d as [| | | |q [|]| | |]; try (right; intros ? (? & ? & E' & ?); congruence; fail).
    left. exists t, p, q. auto.
  Qed.
  Lemma peel_head st' a h : opens st st' -> peel a h -> exists ha, head st' a ha.
  Proof.
    intros O P. induction P as [a h W N|a m p u h W E P (ha & IH)].
    - exists h. apply head_here; [eapply opens_whnf; eauto; apply Si|]. intros t (p & q & E & _).
      apply (opens_get' _ _ _ _ O) in E; [|discriminate]. destruct (N _ _ E).
    - pose proof (opens_whnf _ _ _ _ O (s_poly _ Si) (s_apply _ Si) W) as W'.
      destruct (transparent_or st' m) as [[t T]|NT]; [|exists m; apply head_here; auto].
      exists ha. eapply head_under; eauto. destruct T as (p' & q & E' & _). apply (opens_get' _ _ _ _ O) in E'; [|discriminate].
      rewrite E in E'. injection E' as <- <-. auto.
  Qed.
  (** A head is on the way to the outermost constructor. *)
  Lemma head_way st' b hb : opens st st' -> head st' b hb ->
    (forall q v h, get st hb = Some (TAbstract q v) -> peel v h -> peel b h) /\
    ((forall q v, get st hb <> Some (TAbstract q v)) -> peel b hb).
  Proof.
    intros O H. induction H as [b hb W N|b m t hb W T H [IH1 IH2]]; apply (opens_whnf' _ _ _ _ O (s_poly _ Si) (s_apply _ Si)) in W.
    - split; [intros q v h E P; eapply peel_under; eauto|intros Na; apply peel_here; auto].
    - destruct T as (p & path & E & _). apply (opens_get' _ _ _ _ O) in E; [|discriminate].
      split; [intros q v h E' P; eapply peel_under; eauto|intros Na; eapply peel_under; eauto].
  Qed.
  Lemma peel_eqv st' a h : opens st st' -> peel a h -> forall b, a < List.length st -> b < List.length st -> eqv st' [] a b ->
    exists h', peel b h' /\ same_head h h'.
  Proof.
    intros O P. induction P as [a h W N|a m p u h W E P IH]; intros b La Lb Q.
    - destruct (s_peel _ Si _ Lb) as [hb0 Pb]. destruct (peel_head _ _ _ O Pb) as [mb Hb]. clear hb0 Pb.
      assert (Ha : head st' a h).
      { apply head_here; [eapply opens_whnf; eauto; apply Si|]. intros t (p & q & E & _). apply (opens_get' _ _ _ _ O) in E; [|discriminate]. destruct (N _ _ E). }
      pose proof (eqv_same _ _ _ _ _ _ Q Ha Hb) as Sm. destruct (head_way _ _ _ O Hb) as [_ Wb].
      destruct (whnf_node _ _ _ W) as (ta & Ea & _).
      unfold same in Sm. destruct (get st' h) as [ta'|] eqn:Ea'; [|contradiction]. destruct (get st' mb) as [tb'|] eqn:Eb'; [|destruct ta'; contradiction].
      destruct (opens_back _ _ _ _ O Ea') as (ta2 & Ea2 & Oa). rewrite Ea in Ea2. injection Ea2 as <-.
      destruct (opens_back _ _ _ _ O Eb') as (tb & Eb & Ob).
      pose proof (get_wf _ _ _ (s_wf _ Si) Ea) as Fa. pose proof (get_wf _ _ _ (s_wf _ Si) Eb) as Fb.
      exists mb. split.
      + apply Wb. intros q v E. rewrite Eb in E. injection E as ->. destruct Ob as [<-|(? & ? & _)]; [|discriminate].
        destruct ta'; try contradiction. destruct Oa as [->|(? & _ & ?)]; [|discriminate]. eapply N; eauto.
      + unfold CheckTyping.same_head. rewrite Ea, Eb.
        destruct Oa as [<-|(pa & -> & ->)]; destruct Ob as [<-|(pb & -> & ->)]; try (destruct ta; contradiction); try (destruct tb; contradiction).
        2:{ destruct ta; try contradiction. auto. }
        2:{ destruct tb; try contradiction. auto. }
        2:{ auto. }
        destruct ta, tb; try contradiction.
        * destruct Sm as [-> F]. split; auto. cbn in Fa, Fb. clear - F Fa Fb O. induction F as [|x y fs gs [H1 H2] F IH]; constructor.
          -- apply Forall_cons_iff in Fa, Fb. split; auto. eapply conv_open; eauto; tauto.
          -- apply Forall_cons_iff in Fa, Fb. apply IH; tauto.
        * destruct Sm, Fa, Fb. split; eapply conv_open; eauto.
        * destruct (s_poly _ Si _ _ _ Ea).
        * destruct (s_apply _ Si _ _ _ Ea).
        * auto.
        * destruct (N _ _ Ea).
        * destruct Sm as [[]|]; auto.
        * eapply conv_open; eauto.
    - pose proof (get_wf _ _ _ (s_wf _ Si) E) as Fa. cbn in Fa. pose proof (opens_whnf _ _ _ _ O (s_poly _ Si) (s_apply _ Si) W) as W'.
      destruct (transparent_or st' m) as [[t T]|NT].
      + pose proof T as (p' & q & E' & _). apply (opens_get' _ _ _ _ O) in E'; [|discriminate]. rewrite E in E'. injection E' as <- <-.
        apply IH; auto; [apply Fa|]. apply (eqv_heads st' [] a b); auto. intros h0 H0. eapply head_under; eauto.
      + destruct (s_peel _ Si _ Lb) as [hb0 Pb]. destruct (peel_head _ _ _ O Pb) as [mb Hb]. clear hb0 Pb.
        pose proof (eqv_same _ _ _ _ _ _ Q (head_here _ _ _ W' NT) Hb) as Sm. destruct (head_way _ _ _ O Hb) as [Wb _].
        pose proof (opens_get _ _ _ _ O E ltac:(discriminate)) as E'. unfold same in Sm. rewrite E' in Sm.
        destruct (get st' mb) as [tb|] eqn:Eb'; [|contradiction]. destruct tb as [| | | | |q v| |]; try contradiction. destruct Sm as [_ Sm].
        apply (opens_get' _ _ _ _ O) in Eb'; [|discriminate]. pose proof (get_wf _ _ _ (s_wf _ Si) Eb') as Fb.
        destruct (IH v) as (h' & P' & SH); auto; [apply Fa|apply Fb|]. exists h'. split; auto. eapply Wb; eauto.
  Qed.

  Lemma same_field_sym fs gs : Forall2 (same_field conv) fs gs -> Forall2 (same_field conv) gs fs.
  Proof. intros F. induction F as [|x y fs gs [H1 H2] F IH]; constructor; auto. split; [rewrite vname_equal_sym; auto|apply conv_sym; auto]. Qed.
  Lemma same_field_trans fs gs hs : Forall2 (same_field conv) fs gs -> Forall2 (same_field conv) gs hs -> Forall2 (same_field conv) fs hs.
  Proof.
    apply F2_trans. intros x y z [A1 A2] [B1 B2]. split; [eapply vname_equal_trans; eauto|eapply conv_trans; eauto].
  Qed.
  Lemma same_field_refl fs : Forall2 (same_field conv) fs fs.
  Proof. apply F2_refl. intros x. split; [apply vname_equal_refl|apply conv_refl]. Qed.
  Lemma same_head_sym a b : same_head a b -> same_head b a.
  Proof.
    unfold same_head. destruct (get st a) as [ta|]; [|contradiction]. destruct (get st b) as [tb|]; [|destruct ta; contradiction].
    destruct ta, tb; try contradiction; intros H; auto using conv_sym.
    - destruct H as [-> H]. split; auto. apply same_field_sym; auto.
    - destruct H. split; apply conv_sym; auto.
  Qed.
  Lemma same_head_trans a b c : same_head a b -> same_head b c -> same_head a c.
  Proof.
    unfold same_head. destruct (get st a) as [ta|]; [|contradiction]. destruct (get st b) as [tb|]; [|destruct ta; contradiction].
    destruct (get st c) as [t'|]; [|destruct tb; contradiction].
    destruct ta, tb; try contradiction; destruct t'; try contradiction; intros H H'; try congruence.
    - destruct H as [-> H], H' as [-> H']. split; auto. eapply same_field_trans; eauto.
    - destruct H, H'. split; eapply conv_trans; eauto.
    - eapply conv_trans; eauto.
  Qed.
  Lemma same_head_refl t h : peel t h -> same_head h h.
  Proof.
    intros P. assert (exists d, get st h = Some d /\ forall p u, d <> TAbstract p u) as (d & E & N).
    { induction P as [t h W N|]; auto. destruct (whnf_node _ _ _ W) as (d & E & _). exists d. split; auto.
      intros p u ->. eapply N; eauto. }
    unfold same_head. rewrite E. destruct d; auto using conv_refl, same_field_refl.
    - destruct (s_poly _ Si _ _ _ E).
    - destruct (s_apply _ Si _ _ _ E).
    - destruct (N _ _ eq_refl).
  Qed.

  Theorem peel_conv a b : conv a b ->
    (forall h, peel a h -> exists h', peel b h' /\ same_head h h') /\
    (forall h, peel b h -> exists h', peel a h' /\ same_head h h').
  Proof.
    intros C. induction C as [st' a b O La Lb Q|a m p b W E|a|a b C [IH1 IH2]|a b c C1 [A1 A2] C2 [B1 B2]].
    - split; intros h P; eapply peel_eqv; eauto. apply equal_types_sym; auto.
    - split; intros h P.
      + inversion P as [? ? W' N|? m' p' u' ? W' E' P']; subst; rewrite (whnf_det _ _ _ W' _ W) in *.
        * destruct (N _ _ E).
        * rewrite E in E'. injection E' as <- <-. exists h. split; auto. eapply same_head_refl; eauto.
      + exists h. split; [eapply peel_under; eauto|]. eapply same_head_refl; eauto.
    - split; intros h P; exists h; split; auto; eapply same_head_refl; eauto.
    - auto.
    - split; intros h P.
      + destruct (A1 _ P) as (h1 & P1 & S1). destruct (B1 _ P1) as (h2 & P2 & S2). exists h2. split; auto. eapply same_head_trans; eauto.
      + destruct (B2 _ P) as (h1 & P1 & S1). destruct (A2 _ P1) as (h2 & P2 & S2). exists h2. split; auto. eapply same_head_trans; eauto.
  Qed.

  (** ** Kinds of types, up to conversion *)
  Definition is_data (u : bool) (fs : list (vname * nat)) (t : nat) : Prop := exists h, peel t h /\ get st h = Some (TData u fs).
  Definition is_func (x r : nat) (t : nat) : Prop := exists h, peel t h /\ get st h = Some (TFunc x r).
  Definition is_type (t : nat) : Prop := exists h u, peel t h /\ get st h = Some (TType u).

  Lemma data_conv u fs t t' : is_data u fs t -> conv t t' -> exists gs, is_data u gs t' /\ Forall2 (same_field conv) fs gs.
  Proof.
    intros (h & P & E) C. destruct (proj1 (peel_conv _ _ C) _ P) as (h' & P' & SH). unfold same_head in SH. rewrite E in SH.
    destruct (get st h') as [d|] eqn:E'; [|contradiction]. destruct d; try contradiction. destruct SH as [<- F]. exists fields. split; auto.
    exists h'. auto.
  Qed.
  Lemma func_conv x r t t' : is_func x r t -> conv t t' -> exists y s, is_func y s t' /\ conv x y /\ conv r s.
  Proof.
    intros (h & P & E) C. destruct (proj1 (peel_conv _ _ C) _ P) as (h' & P' & SH). unfold same_head in SH. rewrite E in SH.
    destruct (get st h') as [d|] eqn:E'; [|contradiction]. destruct d; try contradiction. destruct SH. exists arg, rtype. split; auto.
    exists h'. auto.
  Qed.
  Lemma type_conv t t' : is_type t -> conv t t' -> is_type t'.
  Proof.
    intros (h & u & P & E) C. destruct (proj1 (peel_conv _ _ C) _ P) as (h' & P' & SH). unfold same_head in SH. rewrite E in SH.
    destruct (get st h') as [d|] eqn:E'; [|contradiction]. destruct d; try contradiction. exists h'. eauto.
  Qed.
  Lemma data_det u fs v gs t : is_data u fs t -> is_data v gs t -> u = v /\ fs = gs.
  Proof. intros (h & P & E) (h' & P' & E'). rewrite (peel_det _ _ _ P _ P') in E. rewrite E in E'. injection E'. auto. Qed.
  Lemma func_det x r y s t : is_func x r t -> is_func y s t -> x = y /\ r = s.
  Proof. intros (h & P & E) (h' & P' & E'). rewrite (peel_det _ _ _ P _ P') in E. rewrite E in E'. injection E'. auto. Qed.
  Lemma data_not_func u fs x r t : is_data u fs t -> is_func x r t -> False.
  Proof. intros (h & P & E) (h' & P' & E'). rewrite (peel_det _ _ _ P _ P') in E. congruence. Qed.
  Lemma type_not_func x r t : is_type t -> is_func x r t -> False.
  Proof. intros (h & u & P & E) (h' & P' & E'). rewrite (peel_det _ _ _ P _ P') in E. congruence. Qed.
  Lemma type_not_data u fs t : is_type t -> is_data u fs t -> False.
  Proof. intros (h & v & P & E) (h' & P' & E'). rewrite (peel_det _ _ _ P _ P') in E. congruence. Qed.

  (** A list type [t] with elements of type [el]; a type of one unit. *)
  Definition is_unit (t : nat) : Prop := is_data false [] t.
  Definition is_list (t el : nat) : Prop := exists c e x y z w el' tl,
    is_data true [(x, c); (y, e)] t /\ is_unit e /\ is_data false [(z, el'); (w, tl)] c /\ conv el' el /\ conv tl t.
  Lemma unit_conv t t' : is_unit t -> conv t t' -> is_unit t'.
  Proof. intros D C. destruct (data_conv _ _ _ _ D C) as (gs & D' & F). inversion F; subst. auto. Qed.
  Lemma list_conv t t' el el' : is_list t el -> conv t t' -> conv el el' -> is_list t' el'.
  Proof.
    intros (c & e & x & y & z & w & el0 & tl & D & U & D' & C1 & C2) C C'.
    destruct (data_conv _ _ _ _ D C) as (gs & D2 & F). inversion F as [|? [x' c'] ? ? [_ Hc] F1]; subst.
    inversion F1 as [|? [y' e'] ? ? [_ He] F2]; subst. inversion F2; subst. cbn in *.
    destruct (data_conv _ _ _ _ D' Hc) as (gs & D3 & G). inversion G as [|? [z' l'] ? ? [_ Hl] G1]; subst.
    inversion G1 as [|? [w' tl'] ? ? [_ Ht] G2]; subst. inversion G2; subst. cbn in *.
    exists c', e', x', y', z', w', l', tl'. split; [auto|]. split; [eapply unit_conv; eauto|]. split; [auto|]. split.
    - eapply conv_trans; [apply conv_sym; exact Hl|]. eapply conv_trans; [exact C1|exact C'].
    - eapply conv_trans; [apply conv_sym; exact Ht|]. eapply conv_trans; [exact C2|exact C].
  Qed.

  (** A letter: the tag of a field of unit type. *)
  Definition is_letter (fs : list (vname * nat)) (l : nat) : Prop := exists x u, nth_error fs l = Some (x, u) /\ is_unit u.

  (** Functions of several arguments. *)
  Fixpoint arrow (t : nat) (As : list nat) (R : nat) : Prop :=
    match As with
    | [] => conv t R
    | a :: As' => exists x r, is_func x r t /\ conv a x /\ arrow r As' R
    end.
  Lemma arrow_conv As : forall t t' As' R R', conv t t' -> Forall2 conv As As' -> conv R R' -> arrow t As R -> arrow t' As' R'.
  Proof.
    induction As as [|a As IH]; intros t t' As' R R' Ct F CR A; inversion F as [|? a' ? As'' Ca F']; subst; cbn in *.
    - eapply conv_trans; [apply conv_sym; exact Ct|]. eapply conv_trans; [exact A|exact CR].
    - destruct A as (x & r & Fx & Cx & A). destruct (func_conv _ _ _ _ Fx Ct) as (y & s & Fy & Cy & Cs).
      exists y, s. split; auto. split; [|eapply IH; eauto].
      eapply conv_trans; [apply conv_sym; exact Ca|]. eapply conv_trans; [exact Cx|exact Cy].
  Qed.
  Lemma arrow_app As : forall t Bs R Q, arrow t As R -> arrow R Bs Q -> arrow t (As ++ Bs) Q.
  Proof.
    induction As as [|a As IH]; intros t Bs R Q A B; cbn in *.
    - eapply arrow_conv; [apply conv_sym; exact A|apply F2_refl, conv_refl|apply conv_refl|exact B].
    - destruct A as (x & r & Fx & Cx & A). exists x, r. split; auto. split; auto. eapply IH; eauto.
  Qed.
  (** The same type seen as a function of some arguments, and of more. *)
  Lemma arrow_split As : forall t Xs Ys R Q, arrow t As R -> arrow t (Xs ++ Ys) Q -> List.length As = List.length Xs ->
    Forall2 conv As Xs /\ arrow R Ys Q.
  Proof.
    induction As as [|a As IH]; intros t [|b Xs] Ys R Q A B L; cbn in *; try discriminate.
    - split; auto. eapply arrow_conv; [exact A|apply F2_refl, conv_refl|apply conv_refl|exact B].
    - destruct A as (x & r & Fx & Cx & A), B as (y & s & Fy & Cy & B). destruct (func_det _ _ _ _ _ Fx Fy) as [<- <-].
      injection L as L. destruct (IH _ _ _ _ _ A B L) as [F R']. split; auto. constructor; auto.
      eapply conv_trans; [exact Cx|apply conv_sym; auto].
  Qed.
End simple.
