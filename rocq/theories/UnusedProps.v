(** * The unused-variable warnings are exactly those deserved (C38). *)
From Coq Require Import String Ascii List Arith Bool Lia.
Import ListNotations.
From Verif Require Import UnusedModel UnusedSpec.

Definition K := (string * bool)%type.

Lemma vname_equal_key x y : vname_equal x y = true <-> key x = key y.
Proof.
  unfold vname_equal, key; rewrite andb_true_iff, eqb_true_iff, String.eqb_eq.
  split; [intros (-> & ->); reflexivity|intro H; inversion H; auto].
Qed.

Definition warning_dec (a b : warning) : {a = b} + {a <> b}.
Proof.
  assert (D : forall x y : vname, {x = y} + {x <> y}).
  { intros; decide equality; [apply Nat.eq_dec|apply Bool.bool_dec|apply string_dec]. }
  decide equality.
Defined.

Definition count (w : warning) (l : list warning) : nat := count_occ warning_dec l w.

(** ** Sizes, for induction *)

Fixpoint esize (e : expr) : nat :=
  S match e with
  | Null | Var _ | ModulePath | PackageType => 0
  | Typeof e | DataAccess e _ | Literal e | AbstractAccess e => esize e
  | Let bs body => list_sum (map (fun b => esize (fst (snd b)) + esize (snd (snd b))) bs) + esize body
  | DataType l | StructValue l => list_sum (map (fun p => esize (snd p)) l)
  | StructCopy e l => esize e + list_sum (map (fun p => esize (snd p)) l)
  | UnionValue t _ a => esize t + esize a
  | UnionSelect c l d => esize c + list_sum (map (fun p => esize (snd p)) l) + esize d
  | FuncType a r => esize a + esize r
  | FuncValue x t body => esize t + esize body
  | PolyValue _ body => esize body
  | PolyApply p a => esize p + esize a
  | ListExpr f l => esize f + list_sum (map esize l)
  | AbstractCast p t v => esize p + esize t + esize v
  | MiscApply f l => esize f + list_sum (map esize l)
  end.

Lemma in_sum {A} (f : A -> nat) l x : In x l -> f x <= list_sum (map f l).
Proof.
  induction l as [|a l IH]; [intros []|].
  change (list_sum (map f (a :: l))) with (f a + list_sum (map f l)).
  intros [->|I]; [lia|specialize (IH I); lia].
Qed.

Lemma sub_size e c : In c (sub e) -> esize c < esize e.
Proof.
  assert (S : forall (l : list (vname * expr)) c, In c (map snd l) ->
            esize c <= list_sum (map (fun p => esize (snd p)) l)).
  { intros l d I; apply in_map_iff in I; destruct I as (p & <- & I); apply (in_sum (fun p => esize (snd p))), I. }
  destruct e; cbn [sub In]; intro I; cbn [esize];
    repeat match goal with
           | H : _ \/ _ |- _ => destruct H
           | H : False |- _ => destruct H
           | H : _ = c |- _ => subst c
           | H : In c (map snd _) |- _ => apply S in H
           | H : In c (_ ++ _) |- _ => apply in_app_iff in H; cbn [In] in H
           end; try lia.
  - apply in_map_iff in I; destruct I as (b & <- & I).
    apply (in_sum (fun b => esize (fst (snd b)) + esize (snd (snd b)))) in I; cbn beta in I; lia.
  - apply (in_sum esize) in H; lia.
  - apply (in_sum esize) in H; lia.
Qed.

Lemma value_size bs body b : In b bs -> esize (snd (snd b)) < esize (Let bs body).
Proof.
  intro I; cbn [esize]; apply (in_sum (fun b => esize (fst (snd b)) + esize (snd (snd b)))) in I; cbn beta in I; lia.
Qed.

(** ** Flags *)

Fixpoint marks (U : K -> Prop) (vs vs' : vars) : Prop :=
  match vs, vs' with
  | [], [] => True
  | (x, u) :: r, (y, u') :: r' =>
      x = y /\ (u' = true <-> u = true \/ U (key x)) /\ marks (fun k => U k /\ key x <> k) r r'
  | _, _ => False
  end.

Lemma marks_ext U V vs vs' : (forall k, U k <-> V k) -> marks U vs vs' -> marks V vs vs'.
Proof.
  revert U V vs'; induction vs as [|(x, u) r IH]; intros U V vs' E; destruct vs' as [|(y, u') r']; cbn; auto.
  intros (-> & F & M); split; [reflexivity|split].
  - rewrite F, E; reflexivity.
  - eapply IH; [|exact M]; intro k; cbn; rewrite E; reflexivity.
Qed.

Lemma marks_none U vs : (forall k, ~ U k) -> marks U vs vs.
Proof.
  revert U; induction vs as [|(x, u) r IH]; intros U N; cbn; [exact I|].
  split; [reflexivity|split; [specialize (N (key x)); tauto|apply IH; intros k (H & _); apply (N k H)]].
Qed.

Lemma marks_trans U V a b c : marks U a b -> marks V b c -> marks (fun k => U k \/ V k) a c.
Proof.
  revert U V b c; induction a as [|(x, u) r IH]; intros U V b c; destruct b as [|(y, v) b], c as [|(z, t) c]; cbn; try tauto.
  intros (-> & F & M) (-> & G & N); split; [reflexivity|split; [rewrite G, F; tauto|]].
  eapply marks_ext; [|apply (IH _ _ _ _ M N)]; cbn; intro k; tauto.
Qed.

Lemma marks_length U a b : marks U a b -> length a = length b.
Proof.
  revert U b; induction a as [|(x, u) r IH]; intros U b; destruct b as [|(y, v) b]; cbn; try tauto.
  intros (_ & _ & M); f_equal; eapply IH; exact M.
Qed.

Lemma marks_app U a b c : marks U (a ++ b) c ->
  exists a' b', c = a' ++ b' /\ length a' = length a /\
    marks (fun k => U k /\ forall p, In p a -> key (fst p) <> k) b b'.
Proof.
  revert U c; induction a as [|(x, u) r IH]; intros U c M; cbn in M.
  - exists [], c; split; [reflexivity|split; [reflexivity|]]. eapply marks_ext; [|exact M]; cbn; firstorder.
  - destruct c as [|(y, v) c]; [destruct M|]; destruct M as (-> & _ & M).
    destruct (IH _ _ M) as (a' & b' & -> & L & N).
    exists ((y, v) :: a'), b'; split; [reflexivity|split; [cbn; congruence|]].
    eapply marks_ext; [|exact N]; cbn; intro k; split.
    + intros ((H1 & H2) & H3); split; [assumption|]; intros p [<-|I]; auto.
    + intros (H1 & H2); split; [split; [assumption|apply (H2 (y, u)); auto]|auto].
Qed.

Lemma marks_nth U a b i x u : marks U a b -> nth_error a i = Some (x, u) ->
  (flag b i = true <-> u = true \/
     (U (key x) /\ forall j y v, j < i -> nth_error a j = Some (y, v) -> key y <> key x)).
Proof.
  revert U b i; induction a as [|(z, t) r IH]; intros U b i M E; [destruct i; discriminate|].
  destruct b as [|(y, v) b]; cbn in M; [destruct M|]; destruct M as (<- & F & M).
  destruct i as [|i]; cbn in E.
  - inversion E; subst; unfold flag; cbn; rewrite F; split; [intros [H|H]; auto|intros [H|(H & _)]; auto].
    right; split; [assumption|intros j y w L; lia].
  - unfold flag; cbn; fold (flag b i); rewrite (IH _ _ _ M E); split.
    + intros [H|((H1 & H2) & H3)]; [auto|right; split; [assumption|]].
      intros [|j] y w L Ej; cbn in Ej; [inversion Ej; subst; assumption|eapply H3; [|exact Ej]; lia].
    + intros [H|(H1 & H2)]; [auto|right; split; [split; [assumption|]|]].
      * apply (H2 0 z t); [lia|reflexivity].
      * intros j y w L Ej; apply (H2 (S j) y w); [lia|exact Ej].
Qed.

Lemma use_marks x vs : marks (fun k => k = key x) vs (use x vs).
Proof.
  induction vs as [|(y, u) r IH]; cbn; [exact I|].
  destruct (vname_equal x y) eqn:E; cbn.
  - apply vname_equal_key in E; split; [reflexivity|split; [split; [rewrite E; auto|reflexivity]|]].
    apply marks_none; intros k (-> & N); congruence.
  - assert (NE : key x <> key y) by (intro Q; apply vname_equal_key in Q; congruence).
    split; [reflexivity|split].
    + split; [auto|intros [H|H]; [assumption|congruence]].
    + eapply marks_ext; [|exact IH]; cbn; intro k; split; [intros ->; split; congruence|tauto].
Qed.

(** ** Traversals that do what they should *)

Record good (f : step) (U : K -> Prop) (W : warning -> Prop) (B : list warning) : Prop := {
  g_run : forall vs, exists vs' out, f vs = Some (vs', out) /\ marks U vs vs' /\
    (forall w, In w out <-> W w) /\ (forall w, count w out <= count w B)
}.

Lemma count_app w a b : count w (a ++ b) = count w a + count w b.
Proof. unfold count; apply count_occ_app. Qed.

Lemma good_nothing U W B : (forall k, ~ U k) -> (forall w, ~ W w) -> good nothing U W B.
Proof.
  intros NU NW; constructor; intro vs; exists vs, []; split; [reflexivity|].
  split; [apply marks_none, NU|split; [intro w; split; [intros []|apply NW]|intro; cbn; lia]].
Qed.

Lemma good_andthen f g U V W X B C :
  good f U W B -> good g V X C ->
  good (andthen f g) (fun k => U k \/ V k) (fun w => W w \/ X w) (B ++ C).
Proof.
  intros [F] [G]; constructor; intro vs; unfold andthen.
  destruct (F vs) as (vs1 & o1 & E1 & M1 & I1 & C1); rewrite E1.
  destruct (G vs1) as (vs2 & o2 & E2 & M2 & I2 & C2); rewrite E2.
  exists vs2, (o1 ++ o2); split; [reflexivity|split; [eapply marks_trans; eassumption|split]].
  - intro w; rewrite in_app_iff, I1, I2; tauto.
  - intro w; specialize (C1 w); specialize (C2 w); rewrite !count_app; lia.
Qed.

Lemma good_ext f g U V W X B C :
  (forall vs, f vs = g vs) -> (forall k, U k <-> V k) -> (forall w, W w <-> X w) ->
  (forall w, count w B <= count w C) -> good f U W B -> good g V X C.
Proof.
  intros E EU EW EB [F]; constructor; intro vs; destruct (F vs) as (vs' & o & R & M & I & Q).
  exists vs', o; split; [rewrite <- E; assumption|split; [eapply marks_ext; eassumption|split]].
  - intro w; rewrite I; apply EW.
  - intro w; specialize (Q w); specialize (EB w); lia.
Qed.

Lemma good_each (f : expr -> step) l :
  (forall c, In c l -> good (f c) (uses c) (warned c) (binders c)) ->
  good (each (map f l)) (fun k => exists c, In c l /\ uses c k)
       (fun w => exists c, In c l /\ warned c w) (flat_map binders l).
Proof.
  induction l as [|a l IH]; intro H; cbn [map each fold_right flat_map].
  - apply good_nothing; [intros k (c & [] & _)|intros k (c & [] & _)].
  - eapply good_ext; [| | | |apply good_andthen; [apply H; left; reflexivity|
      apply IH; intros; apply H; right; assumption]]; [reflexivity| | |reflexivity].
    + intro k; split; [intros [Q|(c & I & Q)]; eauto with datatypes|intros (c & [->|I] & Q); eauto].
    + intro k; split; [intros [Q|(c & I & Q)]; eauto with datatypes|intros (c & [->|I] & Q); eauto].
Qed.

(** The nodes that bind no variable and are none. *)
Definition simple (e : expr) : bool :=
  match e with
  | Var _ | Let _ _ | FuncValue _ _ _ | PolyValue _ _ => false
  | _ => true
  end.

Lemma andthen_assoc f g h vs : andthen f (andthen g h) vs = andthen (andthen f g) h vs.
Proof.
  unfold andthen; destruct (f vs) as [(a & o)|]; [|reflexivity].
  destruct (g a) as [(b & q)|]; [|reflexivity]. destruct (h b) as [(c & r)|]; [|reflexivity].
  rewrite app_assoc; reflexivity.
Qed.

Lemma andthen_nothing f vs : andthen f nothing vs = f vs.
Proof.
  unfold andthen, nothing; destruct (f vs) as [(a & o)|]; [|reflexivity]. rewrite List.app_nil_r; reflexivity.
Qed.

Lemma andthen_ext f f' g g' vs :
  (forall v, f v = f' v) -> (forall v, g v = g' v) -> andthen f g vs = andthen f' g' vs.
Proof.
  intros E F; unfold andthen; rewrite E; destruct (f' vs) as [(a & o)|]; [|reflexivity]. rewrite F; reflexivity.
Qed.

Lemma each_app l r vs : each (l ++ r) vs = andthen (each l) (each r) vs.
Proof.
  revert vs; induction l as [|a l IH]; intro vs.
  - change (each r vs = match each r vs with Some (b, o) => Some (b, [] ++ o) | None => None end).
    destruct (each r vs) as [(b & o)|]; reflexivity.
  - change (andthen a (each (l ++ r)) vs = andthen (andthen a (each l)) (each r) vs).
    rewrite <- andthen_assoc. apply andthen_ext; [reflexivity|exact IH].
Qed.

Lemma visit_simple fuel e vs : simple e = true -> visit fuel e vs = each (map (visit fuel) (sub e)) vs.
Proof.
  destruct e; cbn [simple visit sub map]; intro S; try discriminate; cbn [each fold_right];
    rewrite ?map_map; try reflexivity; try (symmetry; apply andthen_nothing);
    try (apply andthen_ext; [reflexivity|intro; symmetry; apply andthen_nothing]).
  - apply andthen_ext; [reflexivity|intro v]. rewrite map_app.
    change (fold_right andthen nothing (map (visit fuel) (map snd choices) ++ map (visit fuel) [e2]))
      with (each (map (visit fuel) (map snd choices) ++ map (visit fuel) [e2])).
    rewrite each_app, map_map; apply andthen_ext; [reflexivity|intro; symmetry; apply andthen_nothing].
  - apply andthen_ext; [reflexivity|intro v]. apply andthen_ext; [reflexivity|intro; symmetry; apply andthen_nothing].
Qed.

Lemma flat_map_snd (l : list (vname * expr)) :
  flat_map binders (map snd l) = flat_map (fun p => binders (snd p)) l.
Proof. rewrite !flat_map_concat_map, map_map; reflexivity. Qed.

Lemma binders_simple e : simple e = true -> binders e = flat_map binders (sub e).
Proof.
  destruct e; cbn [simple binders sub flat_map]; intro S; try discriminate;
    rewrite ?flat_map_app, ?flat_map_snd; cbn [flat_map]; rewrite ?List.app_nil_r; reflexivity.
Qed.

Lemma uses_simple e k : simple e = true -> (uses e k <-> exists c, In c (sub e) /\ uses c k).
Proof.
  intro S; split; [|intros (c & I & U); eapply u_sub; eassumption].
  intro U; inversion U; subst; try discriminate; eauto.
Qed.

Lemma warned_simple e w : simple e = true -> (warned e w <-> exists c, In c (sub e) /\ warned c w).
Proof.
  intro S; split; [|intros (c & I & U); eapply w_sub; eassumption].
  intro U; inversion U; subst; try discriminate; eauto.
Qed.

Definition ok (fuel : nat) (e : expr) : Prop :=
  good (visit fuel e) (uses e) (warned e) (binders e).

Lemma ok_simple fuel e : simple e = true -> (forall c, In c (sub e) -> ok fuel c) -> ok fuel e.
Proof.
  intros S H; eapply good_ext; [| | | |apply (good_each (visit fuel) (sub e)); exact H].
  - intro vs; symmetry; apply visit_simple, S.
  - intro k; symmetry; apply uses_simple, S.
  - intro k; symmetry; apply warned_simple, S.
  - rewrite (binders_simple e S); reflexivity.
Qed.

Lemma ok_var fuel x : ok fuel (Var x).
Proof.
  constructor; intro vs; exists (use x vs), []; split; [reflexivity|split; [|split]].
  - eapply marks_ext; [|apply use_marks]; cbn; intro k; split; [intros ->; constructor|].
    intro U; inversion U; subst; [reflexivity|]. match goal with H : In _ (sub _) |- _ => destruct H end.
  - intro w; split; [intros []|]. intro U; inversion U; subst. match goal with H : In _ (sub _) |- _ => destruct H end.
  - intro w; cbn; lia.
Qed.

Lemma ok_func fuel x t body : ok fuel t -> ok fuel body -> ok fuel (FuncValue x t body).
Proof.
  intros [T] [Bd]; constructor; intro vs; cbn [visit].
  destruct (T vs) as (vs1 & o1 & -> & M1 & I1 & C1).
  destruct (Bd ((x, underscore x) :: vs1)) as (vs2 & o2 & -> & M2 & I2 & C2).
  destruct vs2 as [|(y, u) vs2]; cbn in M2; [destruct M2|]; destruct M2 as (<- & F & M2).
  eexists; eexists; split; [reflexivity|]; cbn [tl flag nth_error]. split; [|split].
  - eapply marks_ext; [|eapply marks_trans; [exact M1|exact M2]]; cbn; intro k; split.
    + intros [U|(U & N)]; [eapply u_sub; [left; reflexivity|assumption]|apply u_func; assumption].
    + intro U; inversion U; subst; [|auto]. left.
      match goal with H : In _ (sub _) |- _ => destruct H as [<-|[]] end; assumption.
  - assert (FU : u = true <-> underscore x = true \/ uses body (key x)) by exact F.
    intro w; unfold flag; cbn [nth_error]; rewrite !in_app_iff, I1, I2; split.
    + intros [Q|[Q|Q]].
      * eapply w_sub; [left; reflexivity|assumption].
      * apply w_func_body, Q.
      * destruct u; [destruct Q|destruct Q as [<-|[]]]. apply w_func.
        -- destruct (underscore x); [|reflexivity]. assert (false = true) by (apply FU; auto); discriminate.
        -- intro H; assert (false = true) by (apply FU; auto); discriminate.
    + intro Q; inversion Q; subst; auto.
      * match goal with H : In _ (sub _) |- _ => destruct H as [<-|[]] end; auto.
      * right; right; destruct u; [|left; reflexivity]. destruct FU as (FU & _).
        destruct (FU eq_refl) as [Z|Z]; [congruence|contradiction].
  - intro w; specialize (C1 w); specialize (C2 w); rewrite !count_app.
    cbn [binders]; change (UnusedArg x :: binders t ++ binders body) with ([UnusedArg x] ++ binders t ++ binders body).
    rewrite !count_app. unfold flag; cbn [nth_error]; destruct u; [change (count w []) with 0|]; lia.
Qed.

Lemma ok_poly fuel x body : ok fuel body -> ok fuel (PolyValue x body).
Proof.
  intros [Bd]; constructor; intro vs; cbn [visit].
  destruct (Bd ((x, false) :: vs)) as (vs2 & o2 & -> & M2 & I2 & C2).
  destruct vs2 as [|(y, u) vs2]; cbn in M2; [destruct M2|]; destruct M2 as (<- & F & M2).
  eexists; eexists; split; [reflexivity|]; cbn [tl]. split; [|split].
  - eapply marks_ext; [|exact M2]; cbn; intro k; split.
    + intros (U & N); apply u_poly; assumption.
    + intro U; inversion U; subst; [|auto].
      match goal with H : In _ (sub _) |- _ => destruct H end.
  - intro w; rewrite I2; split; [apply w_poly_body|].
    intro Q; inversion Q; subst; auto. match goal with H : In _ (sub _) |- _ => destruct H end.
  - exact C2.
Qed.

(** ** The loop of let *)

Section LetLoop.
Variables (bs : list binding) (body : expr) (g : expr -> step) (base : vars).
Hypothesis GV : forall b, In b bs -> good (g (snd (snd b))) (uses (snd (snd b))) (warned (snd (snd b))) (binders (snd (snd b))).
Hypothesis BASE : forall i b, nth_error bs i = Some b ->
  nth_error base (length bs - 1 - i) = Some (fst b, underscore (fst b)).

Definition fs := map (fun b => g (snd (snd b))) bs.
Definition pr (p : list bool) (i : nat) : Prop := nth i p false = true.

Definition Uof (p : list bool) : K -> Prop := fun k =>
  uses body k \/ exists j b, pr p j /\ nth_error bs j = Some b /\ uses (snd (snd b)) k.

Fixpoint weigh (w : warning) (p : list bool) (l : list binding) : nat :=
  match p, l with
  | b :: p', x :: l' => (if b : bool then count w (binders (snd (snd x))) else 0) + weigh w p' l'
  | _, _ => 0
  end.

Lemma set_true_length v p : length (set_true v p) = length p.
Proof. revert v; induction p as [|b p IH]; intros [|v]; cbn; auto. Qed.

Lemma pr_set v p j : v < length p -> (pr (set_true v p) j <-> j = v \/ pr p j).
Proof.
  unfold pr; revert v j; induction p as [|b p IH]; intros [|v] [|j] L; cbn in *; try lia; try tauto.
  - split; auto; intros [E|E]; [lia|assumption].
  - split; auto; intros [E|E]; [lia|assumption].
  - rewrite IH by lia; split; (intros [E|E]; [left; lia|auto]).
Qed.

Lemma weigh_set w v p l b :
  nth v p false = false -> v < length p -> nth_error l v = Some b ->
  weigh w (set_true v p) l = weigh w p l + count w (binders (snd (snd b))).
Proof.
  revert v l; induction p as [|c p IH]; intros [|v] l F L E; cbn in L; try lia; destruct l as [|x l]; try discriminate; cbn in *.
  - inversion E; subst; lia.
  - rewrite (IH v l F) by (assumption || lia); lia.
Qed.

Fixpoint trues (p : list bool) : nat :=
  match p with [] => 0 | b :: r => (if b : bool then 1 else 0) + trues r end.

Lemma trues_set v p : nth v p false = false -> v < length p -> trues (set_true v p) = S (trues p).
Proof.
  revert v; induction p as [|c p IH]; intros [|v] F L; cbn in *; try lia; [subst; reflexivity|].
  rewrite (IH v F) by lia; lia.
Qed.

Lemma trues_le p : trues p <= length p.
Proof. induction p as [|b p IH]; cbn; [lia|destruct b; lia]. Qed.

(** The flag of a binding, when the flags are up to date. *)
Lemma flag_of p vs i b :
  marks (Uof p) base vs -> nth_error bs i = Some b ->
  (flag vs (length bs - 1 - i) = true <->
   underscore (fst b) = true \/ (Uof p (key (fst b)) /\ visible bs i (key (fst b)))).
Proof.
  intros M E; rewrite (marks_nth _ _ _ _ _ _ M (BASE i b E)); split; (intros [H|(H1 & H2)]; [auto|right; split; [assumption|]]).
  - split; [exists b; auto|]. intros j c L Ec; pose proof (BASE j c Ec) as Bc.
    assert (j < length bs) by (apply nth_error_Some; congruence).
    eapply H2; [|exact Bc]; lia.
  - intros j y v L Ej; destruct H2 as (_ & H2).
    assert (Li : i < length bs) by (apply nth_error_Some; congruence).
    destruct (nth_error bs (length bs - 1 - j)) as [c|] eqn:Ec.
    + pose proof (BASE _ _ Ec) as Bc. replace (length bs - 1 - (length bs - 1 - j)) with j in Bc by lia.
      rewrite Bc in Ej; inversion Ej; subst. eapply H2; [|exact Ec]; lia.
    + apply nth_error_None in Ec; lia.
Qed.

Lemma settle_good fuel : forall v p vs,
  length p = length bs -> v <= length bs ->
  (length bs - trues p) * S (length bs) + (length bs - v) < fuel ->
  (forall j, j < v -> flag vs (length bs - 1 - j) = true -> pr p j) ->
  marks (Uof p) base vs ->
  (forall j, pr p j -> needed bs body j) ->
  exists vs' out p', settle fuel fs v p vs = Some (vs', out) /\ length p' = length bs /\
    marks (Uof p') base vs' /\
    (forall j, j < length bs -> flag vs' (length bs - 1 - j) = true -> pr p' j) /\
    (forall j, pr p' j -> needed bs body j) /\
    (forall j, pr p j -> pr p' j) /\
    (forall w, In w out <-> exists j b, pr p' j /\ ~ pr p j /\ nth_error bs j = Some b /\ warned (snd (snd b)) w) /\
    (forall w, count w out + weigh w p bs <= weigh w p' bs).
Proof.
  induction fuel as [|fuel IH]; intros v p vs Lp Lv Lf DN M ND; [exfalso; apply (Nat.nlt_0_r _ Lf)|]; cbn [settle].
  assert (LF : length fs = length bs) by (unfold fs; apply map_length). rewrite LF.
  destruct (v <? length bs) eqn:Q; [apply Nat.ltb_lt in Q|apply Nat.ltb_ge in Q].
  - destruct (nth_error bs v) as [b|] eqn:Eb; [|apply nth_error_None in Eb; lia].
    destruct (flag vs (length bs - 1 - v)) eqn:F; cbn [andb]; [destruct (nth v p false) eqn:P; cbn [negb]|].
    + apply IH; auto; [generalize dependent ((length bs - trues p) * S (length bs)); intros; lia|].
      intros j L; destruct (Nat.eq_dec j v) as [->|NE]; [intros _; exact P|apply DN; lia].
    + assert (EF : nth v fs (fun _ => None) = g (snd (snd b))).
      { unfold fs. apply nth_error_nth, (map_nth_error (fun b : binding => g (snd (snd b))) v bs Eb). }
      rewrite EF; destruct (GV b) as [G]; [eapply nth_error_In; exact Eb|].
      destruct (G vs) as (vs1 & o1 & -> & M1 & I1 & C1).
      assert (NV : needed bs body v).
      { apply (flag_of p vs v b M Eb) in F; destruct F as [F|([F|(j & c & F1 & F2 & F3)] & F4)].
        - eapply n_name; eassumption.
        - eapply n_body; eassumption.
        - eapply n_value; eauto. }
      pose proof (trues_set v p P) as TS; pose proof (trues_le (set_true v p)) as TL.
      rewrite set_true_length in TL; rewrite Lp in TL, TS; specialize (TS Q).
      assert (PS : forall j, pr (set_true v p) j <-> j = v \/ pr p j) by (intro; apply pr_set; lia).
      destruct (IH 0 (set_true v p) vs1) as (vs' & out & p' & E' & L' & M' & D' & N' & S' & I' & C').
      * rewrite set_true_length; assumption.
      * lia.
      * rewrite TS in *.
        assert (X : length bs - trues p = S (length bs - S (trues p))) by lia. rewrite X in Lf; cbn [Nat.mul] in Lf.
        generalize dependent ((length bs - S (trues p)) * S (length bs)); intros; lia.
      * intros; lia.
      * eapply marks_ext; [|eapply marks_trans; [exact M|exact M1]]; unfold Uof; cbn; intro k; split.
        -- intros [[H|(j & c & H1 & H2 & H3)]|H]; [auto| |].
           ++ right; exists j, c; split; [apply PS; auto|auto].
           ++ right; exists v, b; split; [apply PS; auto|auto].
        -- intros [H|(j & c & H1 & H2 & H3)]; [auto|]. apply PS in H1; destruct H1 as [->|H1].
           ++ right; congruence.
           ++ left; right; eauto.
      * intros j H; apply PS in H; destruct H as [->|H]; auto.
      * rewrite E'; exists vs', (o1 ++ out), p'; split; [reflexivity|].
        split; [assumption|split; [assumption|split; [assumption|split; [assumption|split; [|split]]]]].
        -- intros j H; apply S', PS; auto.
        -- intro w; rewrite in_app_iff, I1, I'; split.
           ++ intros [H|(j & c & H1 & H2 & H3)].
              ** exists v, b; split; [apply S', PS; auto|split; [unfold pr; congruence|auto]].
              ** exists j, c; split; [assumption|split; [intro Z; apply H2, PS; auto|assumption]].
           ++ intros (j & c & H1 & H2 & H3 & H4).
              destruct (Nat.eq_dec j v) as [->|NE]; [left; congruence|right; exists j, c].
              split; [assumption|split; [|auto]]. intro Z; apply PS in Z; destruct Z; [congruence|contradiction].
        -- intro w; specialize (C1 w); specialize (C' w); rewrite count_app.
           rewrite (weigh_set w v p bs b P) in C' by (assumption || lia); lia.
    + apply IH; auto; [generalize dependent ((length bs - trues p) * S (length bs)); intros; lia|].
      intros j L; destruct (Nat.eq_dec j v) as [->|NE]; [congruence|apply DN; lia].
  - exists vs, [], p; split; [reflexivity|split; [assumption|split; [assumption|]]].
    split; [intros j L; apply DN; lia|split; [assumption|split; [auto|split]]].
    + intro w; split; [intros []|]. intros (j & b & H1 & H2 & _); contradiction.
    + intro w; cbn; lia.
Qed.

End LetLoop.

(** ** Let *)

Lemma nth_error_rev {A} (l : list A) i : i < length l -> nth_error (rev l) (length l - 1 - i) = nth_error l i.
Proof.
  revert i; induction l as [|a l IH]; intros i L; cbn [length] in L; [lia|]; cbn [rev].
  destruct i as [|i].
  - cbn [length nth_error]; rewrite nth_error_app2 by (rewrite rev_length; lia).
    rewrite rev_length; replace (S (length l) - 1 - 0 - length l) with 0 by lia; reflexivity.
  - cbn [length nth_error]; rewrite nth_error_app1 by (rewrite rev_length; lia).
    replace (S (length l) - 1 - S i) with (length l - 1 - i) by lia. apply IH; lia.
Qed.

Lemma let_warnings_in (xs : list vname) vs w :
  In w (let_warnings xs vs) <->
  exists i x, nth_error xs i = Some x /\ flag vs (length xs - 1 - i) = false /\ w = UnusedVar x.
Proof.
  unfold let_warnings; rewrite in_flat_map; split.
  - intros (i & _ & H); destruct (nth_error xs i) as [x|] eqn:E; [|destruct H].
    destruct (flag vs _) eqn:F; [destruct H|destruct H as [<-|[]]]. exists i, x; auto.
  - intros (i & x & E & F & ->); exists i; split.
    + apply in_seq; split; [lia|]. cbn; apply nth_error_Some; congruence.
    + rewrite E, F; left; reflexivity.
Qed.

Lemma let_warnings_count (xs : list vname) vs w :
  count w (let_warnings xs vs) <= count w (map UnusedVar xs).
Proof.
  unfold let_warnings.
  assert (G : forall (f : nat -> bool) l a (ys : list vname), (forall i, i < length l -> nth_error ys (a + i) = nth_error l i) ->
    count w (flat_map (fun i => match nth_error ys i with
                     | Some x => if f i then [] else [UnusedVar x] | None => [] end) (seq a (length l)))
    <= count w (map UnusedVar l)).
  { intros f l; induction l as [|x l IH]; intros a ys H; cbn [length seq flat_map map]; [cbn; lia|].
    pose proof (H 0) as H0; rewrite Nat.add_0_r in H0; rewrite H0 by (cbn; lia); cbn [nth_error].
    assert (I : forall i, i < length l -> nth_error ys (S a + i) = nth_error l i).
    { intros i L; specialize (H (S i)); rewrite Nat.add_succ_r in H; apply H; cbn; lia. }
    specialize (IH (S a) ys I). rewrite count_app.
    change (UnusedVar x :: map UnusedVar l) with ([UnusedVar x] ++ map UnusedVar l); rewrite count_app.
    destruct (f a); [change (count w []) with 0|]; lia. }
  apply (G (fun i => flag vs (length xs - 1 - i)) xs 0 xs); reflexivity.
Qed.

Lemma weigh_le w p l : weigh w p l <= count w (flat_map (fun b => binders (snd (snd b))) l).
Proof.
  revert l; induction p as [|b p IH]; intros [|x l]; cbn [weigh flat_map]; try lia.
  rewrite count_app; specialize (IH l); destruct b; lia.
Qed.

Lemma weigh_none w l : weigh w (map (fun _ => false) l) l = 0.
Proof. induction l as [|a l IH]; cbn; auto. Qed.

Lemma pr_none (l : list binding) j : ~ pr (map (fun _ => false) l) j.
Proof. unfold pr; revert j; induction l as [|a l IH]; intros [|j]; cbn; try discriminate; apply IH. Qed.

Lemma trues_none (l : list binding) : trues (map (fun _ => false) l) = 0.
Proof. induction l; cbn; auto. Qed.

Lemma count_binders w (l : list binding) :
  count w (flat_map (fun b => UnusedVar (fst b) :: binders (fst (snd b)) ++ binders (snd (snd b))) l) =
  count w (map UnusedVar (map fst l)) + count w (flat_map binders (map (fun b => fst (snd b)) l))
  + count w (flat_map (fun b => binders (snd (snd b))) l).
Proof.
  induction l as [|b l IH]; [reflexivity|]; cbn [flat_map map].
  change (UnusedVar (fst b) :: binders (fst (snd b)) ++ binders (snd (snd b)))
    with ([UnusedVar (fst b)] ++ binders (fst (snd b)) ++ binders (snd (snd b))).
  change (UnusedVar (fst b) :: map UnusedVar (map fst l)) with ([UnusedVar (fst b)] ++ map UnusedVar (map fst l)).
  rewrite !count_app, IH; lia.
Qed.

Lemma needed_lt bs body i : needed bs body i -> i < length bs.
Proof.
  destruct 1 as [bs body i b E|bs body i k ((b & E & _) & _)|bs body i j c k _ _ _ ((b & E & _) & _)];
    apply nth_error_Some; congruence.
Qed.

Lemma ok_let fuel bs body :
  bs <> [] -> (forall c, In c (sub (Let bs body)) -> ok fuel c) -> ok fuel body ->
  (forall b, In b bs -> ok fuel (snd (snd b))) ->
  length bs * S (length bs) + length bs < fuel -> ok fuel (Let bs body).
Proof.
  intros NE HT HB HV LF; constructor; intro vs; cbn [visit].
  destruct (good_each (visit fuel) (sub (Let bs body)) HT) as [T].
  destruct (T vs) as (vs1 & o1 & E1 & M1 & I1 & C1).
  cbn [sub] in E1; rewrite map_map in E1; rewrite E1.
  destruct bs as [|b0 bs0] eqn:EB; [congruence|]; rewrite <- EB in *; clear EB b0 bs0.
  set (nvars := map (fun b : vname * (expr * expr) => (fst b, underscore (fst b))) bs).
  destruct HB as [Bd]; destruct (Bd (rev nvars ++ vs1)) as (vs2 & o2 & -> & M2 & I2 & C2).
  assert (LN : length nvars = length bs) by (unfold nvars; apply map_length).
  assert (BASE : forall i b, nth_error bs i = Some b ->
    nth_error (rev nvars ++ vs1) (length bs - 1 - i) = Some (fst b, underscore (fst b))).
  { intros i b E; assert (L : i < length bs) by (apply nth_error_Some; congruence).
    rewrite nth_error_app1 by (rewrite rev_length, LN; lia).
    rewrite <- LN, nth_error_rev by (rewrite LN; assumption).
    unfold nvars; apply (map_nth_error (fun b : binding => (fst b, underscore (fst b))) i bs E). }
  set (p0 := map (fun _ : vname * (expr * expr) => false) bs).
  assert (P0 : forall j, ~ pr p0 j) by apply pr_none.
  destruct (settle_good bs body (visit fuel) (rev nvars ++ vs1) HV BASE fuel 0 p0 vs2)
    as (vs3 & o3 & p' & E3 & Lp' & M3 & D3 & N3 & _ & I3 & C3).
  { unfold p0; apply map_length. }
  { lia. }
  { unfold p0; rewrite trues_none, !Nat.sub_0_r; exact LF. }
  { intros j L; lia. }
  { eapply marks_ext; [|exact M2]; intro k; unfold Uof; split; [auto|].
    intros [H|(j & b & H & _)]; [assumption|destruct (P0 j H)]. }
  { intros j H; destruct (P0 j H). }
  unfold fs in E3; rewrite E3.
  eexists; eexists; split; [reflexivity|].
  (* a binding is needed when its flag is set *)
  assert (ND : forall i, i < length bs -> (flag vs3 (length bs - 1 - i) = true <-> needed bs body i)).
  { intros i L; split; [intro F; apply N3, D3; assumption|].
    assert (G : forall bs' body' j, needed bs' body' j -> bs' = bs -> body' = body ->
              flag vs3 (length bs - 1 - j) = true).
    { induction 1 as [bs' body' j b E U|bs' body' j k V U|bs' body' j m b k N IH E U V];
        intros -> ->.
      - apply (flag_of bs body (rev nvars ++ vs1) BASE p' vs3 j b M3 E); auto.
      - destruct V as ((b & E & <-) & V).
        apply (flag_of bs body (rev nvars ++ vs1) BASE p' vs3 j b M3 E); right; split.
        + left; assumption.
        + split; eauto.
      - destruct V as ((c & Ec & <-) & V).
        apply (flag_of bs body (rev nvars ++ vs1) BASE p' vs3 j c M3 Ec); right; split.
        + right; exists m, b; split; [|auto]. apply D3; [apply nth_error_Some; congruence|auto].
        + split; eauto. }
    intro N; eapply G; [exact N|reflexivity|reflexivity]. }
  assert (PN : forall j, pr p' j <-> needed bs body j).
  { intro j; split; [apply N3|]. intro N; pose proof (needed_lt _ _ _ N); apply D3; [assumption|apply ND; assumption]. }
  split; [|split].
  - destruct (marks_app _ _ _ _ M3) as (a' & b' & E & La & Mb).
    rewrite rev_length, LN in La; rewrite E, skipn_app, La, Nat.sub_diag, <- La, skipn_all; cbn [skipn app].
    assert (NN : forall k, (forall p, In p (rev nvars) -> key (fst p) <> k) <-> (forall b, In b bs -> key (fst b) <> k)).
    { intro k; split; intros H q Iq.
      - apply (H (fst q, underscore (fst q))). apply -> in_rev.
        apply (in_map (fun b : binding => (fst b, underscore (fst b)))), Iq.
      - apply in_rev in Iq; unfold nvars in Iq; apply in_map_iff in Iq; destruct Iq as (b & <- & Iq); apply H, Iq. }
    eapply marks_ext; [|eapply marks_trans; [exact M1|exact Mb]]; cbn beta; intro k; rewrite NN; split.
    + intros [(c & Ic & U)|([U|(j & b & H1 & H2 & H3)] & N)].
      * eapply u_sub; eassumption.
      * apply u_let_body; assumption.
      * eapply u_let_value; try eassumption. apply PN, H1.
    + intro U; inversion U; subst; [left; eauto|right; split; [left; assumption|assumption]|].
      right; split; [right; do 2 eexists; split; [apply PN; eassumption|eauto]|assumption].
  - intro w; rewrite !in_app_iff, I1, I2, I3, let_warnings_in; split.
    + intros [(c & Ic & U)|[U|[(j & b & H1 & _ & H2 & H3)|(i & x & Ex & F & ->)]]].
      * eapply w_sub; eassumption.
      * apply w_let_body; assumption.
      * eapply w_let_value; try eassumption. apply PN, H1.
      * rewrite map_length in F. rewrite nth_error_map in Ex.
        destruct (nth_error bs i) as [b|] eqn:Eb; [|discriminate]; cbn in Ex; inversion Ex; subst x.
        apply (w_let bs body i b Eb). intro N; apply ND in N; [congruence|apply nth_error_Some; congruence].
    + intro U; inversion U; subst.
      * left; eauto.
      * right; right; right; exists i, (fst b). rewrite map_length; split; [|split; [|reflexivity]].
        -- apply (map_nth_error fst i bs); assumption.
        -- destruct (flag vs3 (length bs - 1 - i)) eqn:F; [|reflexivity].
           apply ND in F; [contradiction|apply nth_error_Some; congruence].
      * auto.
      * right; right; left; exists i, b; split; [apply PN; assumption|auto].
  - intro w; cbn [binders]; rewrite !count_app, count_binders.
    specialize (C1 w); specialize (C2 w); specialize (C3 w).
    unfold p0 in C3; rewrite weigh_none in C3; pose proof (weigh_le w p' bs).
    pose proof (let_warnings_count (map fst bs) vs3 w).
    cbn [sub] in C1. change (map (fun b : vname * (expr * expr) => fst (snd b)) bs) with (map (fun b : binding => fst (snd b)) bs) in C1.
    lia.
Qed.

(** ** The theorems *)

Lemma common_bound {A} (Q : nat -> A -> Prop) (l : list A) :
  (forall c, In c l -> exists N, forall fuel, N <= fuel -> Q fuel c) ->
  exists N, forall fuel, N <= fuel -> forall c, In c l -> Q fuel c.
Proof.
  induction l as [|a l IH]; intro H; [exists 0; intros ? ? ? []|].
  destruct (H a) as (N & HN); [left; reflexivity|].
  destruct IH as (M & HM); [intros c I; apply H; right; assumption|].
  exists (N + M); intros fuel L c [<-|I]; [apply HN; lia|apply HM; [lia|assumption]].
Qed.

Lemma visit_ok e : lets_ok e -> exists N, forall fuel, N <= fuel -> ok fuel e.
Proof.
  remember (S (esize e)) as n eqn:En; assert (L : esize e < n) by lia; clear En; revert e L.
  induction n as [|n IH]; intros e L W; [lia|].
  inversion W as [? WS WL WF WP]; subst.
  destruct (common_bound ok (sub e)) as (N & HN).
  { intros c I; apply IH; [pose proof (sub_size e c I); lia|apply WS, I]. }
  destruct (simple e) eqn:Se.
  { exists N; intros fuel Lf; apply ok_simple; [assumption|intros c I; apply HN; assumption]. }
  destruct e; try discriminate.
  - exists 0; intros; apply ok_var.
  - destruct (WL bs e eq_refl) as (NE & Wb & WV).
    destruct (IH e) as (M & HM); [cbn [esize] in L; lia|assumption|].
    destruct (common_bound (fun f b => ok f (snd (snd b))) bs) as (R & HR).
    { intros b I; apply IH; [pose proof (value_size bs e b I); lia|apply WV, I]. }
    exists (N + M + R + S (length bs * S (length bs) + length bs)); intros fuel Lf.
    apply ok_let; [assumption|intros; apply HN; [lia|assumption]|apply HM; lia|intros; apply HR; [lia|assumption]|lia].
  - destruct (IH e2) as (M & HM); [cbn [esize] in L; lia|eapply WF; reflexivity|].
    exists (N + M); intros fuel Lf; apply ok_func; [apply HN; [lia|left; reflexivity]|apply HM; lia].
  - destruct (IH e) as (M & HM); [cbn [esize] in L; lia|eapply WP; reflexivity|].
    exists M; intros fuel Lf; apply ok_poly, HM, Lf.
Qed.

(** The check of any program ends, without undefined behaviour; it warns about
    exactly the variables that deserve it, each of them at most once. *)
Theorem unused_warnings_exact e :
  lets_ok e ->
  exists N, forall fuel, N <= fuel ->
    exists out, warn_about_unused_vars fuel e = Some out /\
      (forall w, In w out <-> warned e w) /\
      (NoDup (binders e) -> NoDup out).
Proof.
  intro W; destruct (visit_ok e W) as (N & HN); exists N; intros fuel L.
  destruct (HN fuel L) as [G]; destruct (G []) as (vs & out & E & _ & I & C).
  exists out; unfold warn_about_unused_vars; rewrite E; split; [reflexivity|split; [assumption|]].
  intro ND; apply (NoDup_count_occ warning_dec); intro w.
  specialize (C w); unfold count in C; rewrite (NoDup_count_occ warning_dec) in ND; specialize (ND w); lia.
Qed.

(** In particular a function argument is reported exactly when it has no '_'
    and its body does not use it. *)
Corollary unused_argument x t body :
  lets_ok (FuncValue x t body) -> NoDup (binders (FuncValue x t body)) ->
  exists N, forall fuel, N <= fuel ->
    exists out, warn_about_unused_vars fuel (FuncValue x t body) = Some out /\
      (In (UnusedArg x) out <-> underscore x = false /\ ~ uses body (key x)).
Proof.
  intros W ND; destruct (unused_warnings_exact _ W) as (N & H); exists N; intros fuel L.
  destruct (H fuel L) as (out & E & I & _); exists out; split; [assumption|rewrite I].
  cbn [binders] in ND; apply NoDup_cons_iff in ND; destruct ND as (NI & _).
  assert (WB : forall e w, warned e w -> In w (binders e)).
  { clear. intros e w H; induction H as [e c w Ic H IH|bs body i b E N|bs body w H IH|bs body i b w E N H IH|x t body U N|x t body w H IH|x body w H IH]; cbn [binders].
    - destruct (simple e) eqn:S.
      + rewrite (binders_simple e S); apply in_flat_map; eauto.
      + destruct e; try discriminate; cbn [sub] in Ic; try destruct Ic; cbn [binders].
        * apply in_app_iff; left. apply in_map_iff in Ic; destruct Ic as (b & <- & Ib).
          apply in_flat_map; exists b; split; [assumption|]. right; apply in_app_iff; auto.
        * subst c; right; apply in_app_iff; auto.
        * destruct H0.
    - apply in_app_iff; left; apply in_flat_map; exists b; split; [eapply nth_error_In; exact E|left; reflexivity].
    - apply in_app_iff; auto.
    - apply in_app_iff; left; apply in_flat_map; exists b; split; [eapply nth_error_In; exact E|].
      right; apply in_app_iff; auto.
    - left; reflexivity.
    - right; apply in_app_iff; auto.
    - assumption. }
  split.
  - intro U; inversion U; subst; auto.
    + match goal with H : In _ (sub _) |- _ => destruct H as [<-|[]] end.
      exfalso; apply NI, in_app_iff; left; apply WB; assumption.
    + exfalso; apply NI, in_app_iff; right; apply WB; assumption.
  - intros (A & B); apply w_func; assumption.
Qed.

(** ** An example: mutual recursion, a binding used only by an unused one, a
    shadowed name and a name in the other name space. *)
Definition nm (s : string) (l : nat) : vname := MkVName s false l.
Definition tnm (s : string) (l : nat) : vname := MkVName s true l.

Definition demo : expr :=
  Let [(nm "f" 1, (Null, FuncValue (nm "x" 2) (Var (tnm "T" 0)) (MiscApply (Var (nm "g" 0)) [Var (nm "x" 0)])));
       (nm "g" 3, (Null, FuncValue (nm "y" 4) (Var (tnm "T" 0)) (Var (nm "f" 0))));
       (nm "h" 5, (Null, Var (nm "k" 0)));
       (nm "k" 6, (Null, Let [(nm "z" 7, (Null, ModulePath))] ModulePath));
       (nm "_u" 8, (Null, Var (nm "m" 0)));
       (nm "m" 9, (Null, FuncValue (nm "f" 10) Null (Var (tnm "f" 0))))]
      (Var (nm "f" 0)).

Ltac lk :=
  apply lets_intro;
  [ let c := fresh in let I := fresh in intros c I; cbn in I; ins I
  | let E := fresh in intros ? ? E;
    first [ discriminate E
          | injection E; clear E; intros <- <-; split; [discriminate|split; [lk|]];
            let c := fresh in let I := fresh in intros c I; cbn in I; ins I ]
  | let E := fresh in intros ? ? ? E; first [ discriminate E | injection E; clear E; intros <- <- <-; lk ]
  | let E := fresh in intros ? ? E; first [ discriminate E | injection E; clear E; intros <- <-; lk ] ]
with ins I :=
  match type of I with
  | False => destruct I
  | _ \/ _ => destruct I as [I|I]; [rewrite <- I; cbn [fst snd]; clear I; lk|ins I]
  end.

Example demo_lets_ok : lets_ok demo.
Proof. unfold demo; lk. Qed.

Example demo_run :
  warn_about_unused_vars 100 demo =
  Some [UnusedArg (nm "y" 4); UnusedArg (nm "f" 10); UnusedVar (nm "h" 5); UnusedVar (nm "k" 6)].
Proof. vm_compute. reflexivity. Qed.

Example demo_nodup : NoDup (binders demo).
Proof.
  vm_compute. repeat constructor; cbn; intuition discriminate.
Qed.
