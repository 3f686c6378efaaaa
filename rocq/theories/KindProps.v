(** * C29: kinds; C44: printed kinds. *)
From Coq Require Import ZArith List Bool Arith Lia Decimal DecimalNat DecimalFacts.
From Verif Require Import KindModel.
Import ListNotations.

(** ** C29 *)

(** Equality of kinds is identity: an equivalence. *)
Theorem kinds_equal_exact : forall a b, kinds_equal a b = true <-> a = b.
Proof.
  induction a as [i|x IHx r IHr]; intros [j|y s]; cbn; try (split; congruence).
  - rewrite Nat.eqb_eq. split; congruence.
  - rewrite andb_true_iff, IHx, IHr. split; [intros [-> ->]; auto|intros E; injection E; auto].
Qed.
Theorem kinds_equal_equivalence :
  (forall a, kinds_equal a a = true) /\ (forall a b, kinds_equal a b = kinds_equal b a) /\
  (forall a b c, kinds_equal a b = true -> kinds_equal b c = true -> kinds_equal a c = true).
Proof.
  split; [|split].
  - intros a. apply kinds_equal_exact. auto.
  - intros a b. destruct (kinds_equal a b) eqn:E; [apply kinds_equal_exact in E; subst; symmetry; apply kinds_equal_exact; auto|].
    destruct (kinds_equal b a) eqn:F; auto. apply kinds_equal_exact in F. subst. assert (X : kinds_equal a a = true) by (apply kinds_equal_exact; auto). congruence.
  - intros a b c A B. apply kinds_equal_exact in A, B. subst. apply kinds_equal_exact. auto.
Qed.

(** The specification of level adjustment: the parameters stay, the level changes. *)
Fixpoint params (k : kind) : list kind := match k with Basic _ => [] | Poly a r => a :: params r end.
Lemma kind_ext : forall a b, params a = params b -> kind_level a = kind_level b -> a = b.
Proof.
  induction a as [i|x _ r IH]; intros [j|y s]; cbn; intros P L; try discriminate; [congruence|]. injection P as -> P. f_equal. auto.
Qed.

(** It is defined exactly if the level does not become negative. *)
Theorem level_adjusted_exact : forall k i,
  (forall k', level_adjusted k i = Some k' <-> params k' = params k /\ Z.of_nat (kind_level k') = (Z.of_nat (kind_level k) + i)%Z) /\
  (level_adjusted k i = None <-> (Z.of_nat (kind_level k) + i < 0)%Z).
Proof.
  assert (D : forall k i, (0 <= Z.of_nat (kind_level k) + i)%Z -> exists k', level_adjusted k i = Some k' /\ params k' = params k /\ Z.of_nat (kind_level k') = (Z.of_nat (kind_level k) + i)%Z).
  { induction k as [l|a _ r IH]; intros i H; cbn in *.
    - rewrite (proj2 (Z.leb_le _ _) H). eexists. split; [reflexivity|]. cbn. split; auto. lia.
    - destruct (IH i H) as [k' [E [P L]]]. rewrite E. eexists. split; [reflexivity|]. cbn. split; [congruence|auto]. }
  assert (N : forall k i, (Z.of_nat (kind_level k) + i < 0)%Z -> level_adjusted k i = None).
  { induction k as [l|a _ r IH]; intros i H; cbn in *; [destruct (Z.leb_spec 0 (Z.of_nat l + i)); [lia|auto]|rewrite IH; auto]. }
  intros k i. split.
  - intros k'. destruct (Z_lt_le_dec (Z.of_nat (kind_level k) + i) 0) as [L|L].
    + rewrite N by auto. split; [discriminate|intros [_ X]; lia].
    + destruct (D k i L) as [k1 [E [P Q]]]. rewrite E. split.
      * intros X. injection X as <-. auto.
      * intros [P' Q']. f_equal. apply kind_ext; [congruence|]. lia.
  - split; [|apply N]. intros E. destruct (Z_lt_le_dec (Z.of_nat (kind_level k) + i) 0) as [L|L]; auto.
    destruct (D k i L) as [k1 [E' _]]. congruence.
Qed.

(** Adjustments compose and can be undone. *)
Theorem level_adjusted_compose : forall k i j k', level_adjusted k i = Some k' -> level_adjusted k' j = level_adjusted k (i + j).
Proof.
  intros k i j k' E. apply level_adjusted_exact in E. destruct E as [P L].
  destruct (level_adjusted k (i + j)) as [k2|] eqn:E2.
  - apply level_adjusted_exact in E2. destruct E2 as [P2 L2]. apply level_adjusted_exact. split; [congruence|lia].
  - apply level_adjusted_exact. apply level_adjusted_exact in E2. lia.
Qed.
Theorem level_adjusted_inverse : forall k i k', level_adjusted k i = Some k' -> level_adjusted k' (- i) = Some k.
Proof. intros k i k' E. rewrite (level_adjusted_compose _ _ _ _ E). apply level_adjusted_exact. split; [auto|lia]. Qed.

(** The kind of a type value has a level one above that of the type, and never fails for
    it. *)
Theorem kind_of_typeof : forall t k, get_kind t = Some k -> exists k', get_kind (KType t) = Some k' /\ params k' = params k /\ kind_level k' = S (kind_level k).
Proof.
  intros t k E. cbn. rewrite E. destruct (level_adjusted k 1) as [k'|] eqn:A.
  - exists k'. apply level_adjusted_exact in A. destruct A as [P L]. split; auto. split; auto. lia.
  - apply level_adjusted_exact in A. lia.
Qed.
(** Applying a polymorphic type gives the kind of its body: the parameter kind is one level
    above the kind of the bound type variable. *)
Theorem kind_of_poly : forall a b ka kb, get_kind a = Some ka -> get_kind b = Some kb ->
  exists ka', get_kind (KPoly a b) = Some (Poly ka' kb) /\ level_adjusted ka' (-1) = Some ka /\ get_kind (KPolyApply (KPoly a b)) = Some kb /\
  kind_level (Poly ka' kb) = kind_level kb.
Proof.
  intros a b ka kb A B. cbn. rewrite A, B. destruct (level_adjusted ka 1) as [k'|] eqn:E.
  - exists k'. split; auto. split; [apply (level_adjusted_inverse ka 1); auto|]. auto.
  - apply level_adjusted_exact in E. lia.
Qed.

Example ex_kind : level_adjusted (Poly (Basic 2) (Basic 1)) (-1) = Some (Poly (Basic 2) (Basic 0)) /\
  level_adjusted (Basic 0) (-1) = None /\ get_kind (KPoly (KVar (Basic 0)) KPlain) = Some (Poly (Basic 1) (Basic 0)).
Proof. repeat split. Qed.

(** ** C44: a printed kind is the kind it shows *)

Lemma digits_inj : forall u v, digits u = digits v -> u = v.
Proof. induction u; destruct v; cbn; intros E; try discriminate; auto; injection E as E; f_equal; auto. Qed.
Lemma digits_range : forall u z, In z (digits u) -> (48 <= z <= 57)%Z.
Proof. induction u; cbn; intros z I; [tauto|..]; destruct I as [<-|I]; auto; lia. Qed.

Definition ends (x : list Z) : Prop := match x with [] => True | c :: _ => (c < 48 \/ c > 57)%Z end.

Lemma digits_split : forall a b x y, (forall z, In z a -> (48 <= z <= 57)%Z) -> (forall z, In z b -> (48 <= z <= 57)%Z) -> ends x -> ends y -> a ++ x = b ++ y -> a = b /\ x = y.
Proof.
  induction a as [|c a IH]; intros [|d b] x y A B X Y E; cbn in E; auto.
  - exfalso. subst x. cbn in X. specialize (B d (or_introl eq_refl)). lia.
  - exfalso. subst y. cbn in Y. specialize (A c (or_introl eq_refl)). lia.
  - injection E as -> E. destruct (IH b x y) as [-> ->]; auto; intros z Z; [apply A|apply B]; right; auto.
Qed.

Lemma basic_split : forall i j x y, ends x -> ends y -> basic_text i ++ x = basic_text j ++ y -> i = j /\ x = y.
Proof.
  assert (B : forall i, exists l, basic_text i = l /\ (i = 0 /\ l = [37%Z] \/ i = 1 /\ l = [64%Z] \/ 2 <= i /\ l = 64%Z :: digits (Nat.to_uint i) /\ digits (Nat.to_uint i) <> [])).
  { intros [|[|i]]; eexists; (split; [reflexivity|]); auto. right. right. split; [lia|]. split; [reflexivity|].
    intros Q. assert (Z : Nat.to_uint (S (S i)) = Nil) by (apply digits_inj; rewrite Q; reflexivity).
    pose proof (DecimalNat.Unsigned.of_to (S (S i))) as O. rewrite Z in O. discriminate. }
  intros i j x y X Y E. destruct (B i) as [l [Ei Li]], (B j) as [m [Ej Lj]]. rewrite Ei, Ej in E. clear Ei Ej.
  destruct Li as [[-> ->]|[[-> ->]|[Li [-> Ni]]]], Lj as [[-> ->]|[[-> ->]|[Lj [-> Nj]]]]; cbn in E; try discriminate; injection E as E; auto.
  - exfalso. subst x. destruct (digits (Nat.to_uint j)) as [|c d] eqn:D; [congruence|]. cbn in X. assert (H : (48 <= c <= 57)%Z) by (apply (digits_range (Nat.to_uint j)); rewrite D; left; auto). lia.
  - exfalso. subst y. destruct (digits (Nat.to_uint i)) as [|c d] eqn:D; [congruence|]. cbn in Y. assert (H : (48 <= c <= 57)%Z) by (apply (digits_range (Nat.to_uint i)); rewrite D; left; auto). lia.
  - apply digits_split in E; auto; try (intros z Z; eapply digits_range; eauto). destruct E as [E ->]. split; auto.
    apply digits_inj in E. rewrite <- (DecimalNat.Unsigned.of_to i), <- (DecimalNat.Unsigned.of_to j), E. auto.
Qed.

Fixpoint poly_text (k : kind) : list Z :=
  match k with
  | Poly a r => [44%Z; 32%Z] ++ print_kind a ++ poly_text r
  | Basic l => [62%Z] ++ basic_text l
  end.
Lemma print_poly a r : print_kind (Poly a r) = [60%Z] ++ print_kind a ++ poly_text r.
Proof. reflexivity. Qed.

Lemma poly_text_ends k x : ends (poly_text k ++ x).
Proof. destruct k; cbn; lia. Qed.

Lemma print_split : forall a, (forall b x y, ends x -> ends y -> print_kind a ++ x = print_kind b ++ y -> a = b /\ x = y) /\
  (forall b x y, ends x -> ends y -> poly_text a ++ x = poly_text b ++ y -> a = b /\ x = y).
Proof.
  induction a as [i|a [IHa _] r [_ IHr]]; split; intros [j|b s] x y X Y E.
  - cbn in E. apply basic_split in E; auto. destruct E as [-> ->]. auto.
  - exfalso. rewrite print_poly in E. cbn in E. destruct i as [|[|i]]; discriminate.
  - cbn [poly_text] in E. rewrite <- !app_assoc in E. apply app_inv_head in E. apply basic_split in E; auto. destruct E as [-> ->]. auto.
  - cbn in E. discriminate.
  - exfalso. rewrite print_poly in E. cbn in E. destruct j as [|[|j]]; discriminate.
  - rewrite !print_poly, <- !app_assoc in E. apply app_inv_head in E. apply IHa in E; try apply poly_text_ends. destruct E as [-> E].
    apply IHr in E; auto. destruct E as [-> ->]. auto.
  - cbn in E. discriminate.
  - cbn [poly_text] in E. rewrite <- !app_assoc in E. apply app_inv_head in E. apply IHa in E; try apply poly_text_ends. destruct E as [-> E].
    apply IHr in E; auto. destruct E as [-> ->]. auto.
Qed.

(** Different kinds print differently, even inside other text (that does not go on with a
    digit). *)
Theorem printed_kinds_unambiguous : forall a b x y, ends x -> ends y -> print_kind a ++ x = print_kind b ++ y -> a = b /\ x = y.
Proof. intros a. apply (proj1 (print_split a)). Qed.
Corollary printed_kind_injective : forall a b, print_kind a = print_kind b -> a = b.
Proof. intros a b E. apply (printed_kinds_unambiguous a b [] []); cbn; auto. rewrite !List.app_nil_r. auto. Qed.

(** <@, <@>%>@12 *)
Example ex_print : print_kind (Poly (Basic 1) (Poly (Poly (Basic 1) (Basic 0)) (Basic 12))) =
  map Z.of_nat [60; 64; 44; 32; 60; 64; 62; 37; 62; 64; 49; 50].
Proof. reflexivity. Qed.
