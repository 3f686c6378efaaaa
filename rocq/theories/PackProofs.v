(** * Proofs about value packing. *)
From Coq Require Import ZArith List Bool Lia.
From Verif Require Import PackModel PackSpec.
Import ListNotations.
Local Open Scope Z_scope.

(** ** Induction principle for [data]. *)
Section DataInd.
  Variable P : data -> Prop.
  Hypothesis HS : forall ds, Forall P ds -> P (DStruct ds).
  Hypothesis HU : forall t a, P a -> P (DUnion t a).
  Fixpoint data_ind' (d : data) : P d :=
    match d with
    | DStruct ds =>
      HS ds ((fix go ds := match ds return Forall P ds with
              | [] => Forall_nil _
              | x :: xs => Forall_cons x (data_ind' x) (go xs)
              end) ds)
    | DUnion t a => HU t a (data_ind' a)
    end.
End DataInd.

Lemma Forall2_len {A B} (R : A -> B -> Prop) l1 l2 : Forall2 R l1 l2 -> length l1 = length l2.
Proof. induction 1; simpl; congruence. Qed.

(** ** Bits *)
Lemma testbit_wrap64_lo z i : 0 <= i < 64 -> Z.testbit (wrap64 z) i = Z.testbit z i.
Proof.
  intros Hi. unfold wrap64.
  assert (H: Z.testbit (((z + 2^63) mod 2^64 - 2^63) mod 2^64) i = Z.testbit (z mod 2^64) i).
  { f_equal. rewrite Zminus_mod_idemp_l. f_equal. lia. }
  rewrite !Z.mod_pow2_bits_low in H by lia. exact H.
Qed.

Lemma wrap64_word z : is_word (wrap64 z).
Proof. unfold is_word, wrap64. pose proof (Z.mod_pos_bound (z + 2^63) (2^64)). lia. Qed.

Lemma word_bits_high w i : is_word w -> 63 <= i -> Z.testbit w i = Z.testbit w 63.
Proof.
  intros [H1 H2] Hi.
  destruct (Z_lt_ge_dec w 0).
  - assert (HL: 0 <= Z.lnot w < 2^63) by (unfold Z.lnot; lia).
    assert (B: forall n, 63 <= n -> Z.testbit (Z.lnot w) n = false).
    { intros n Hn. rewrite <- (Z.mod_small (Z.lnot w) (2^63)) by lia.
      apply Z.mod_pow2_bits_high. lia. }
    pose proof (B i Hi) as B1. pose proof (B 63 ltac:(lia)) as B2.
    rewrite Z.lnot_spec in B1, B2 by lia.
    destruct (Z.testbit w i), (Z.testbit w 63); simpl in *; congruence.
  - rewrite <- (Z.mod_small w (2^63)) by lia.
    rewrite !Z.mod_pow2_bits_high by lia. reflexivity.
Qed.

Lemma lor_word a b : is_word a -> is_word b -> is_word (Z.lor a b).
Proof.
  intros Ha Hb.
  assert (E: wrap64 (Z.lor a b) = Z.lor a b).
  { apply Z.bits_inj'. intros n Hn.
    destruct (Z_lt_ge_dec n 64).
    - apply testbit_wrap64_lo; lia.
    - rewrite (word_bits_high (wrap64 _)) by (try apply wrap64_word; lia).
      rewrite testbit_wrap64_lo by lia.
      rewrite !Z.lor_spec.
      rewrite (word_bits_high a n), (word_bits_high b n) by (assumption || lia). reflexivity. }
  rewrite <- E. apply wrap64_word.
Qed.

Lemma shiftr_word w k : is_word w -> 0 <= k -> is_word (Z.shiftr w k).
Proof.
  intros [H1 H2] Hk. unfold is_word. rewrite Z.shiftr_div_pow2 by lia.
  assert (1 <= 2^k) by (pose proof (Z.pow_pos_nonneg 2 k); lia).
  split.
  - apply Z.div_le_lower_bound; nia.
  - apply Z.div_lt_upper_bound; nia.
Qed.

Lemma holds_nil w : holds w [].
Proof. intros i Hi. simpl in Hi. lia. Qed.

Lemma holds_app w bs1 bs2 :
  holds w (bs1 ++ bs2) <-> holds w bs1 /\ holds (Z.shiftr w (Z.of_nat (length bs1))) bs2.
Proof.
  unfold holds. rewrite app_length. split.
  - intros H. split.
    + intros i Hi. rewrite H by lia. rewrite app_nth1 by lia. reflexivity.
    + intros i Hi. rewrite Z.shiftr_spec by lia.
      replace (Z.of_nat i + Z.of_nat (length bs1)) with (Z.of_nat (i + length bs1)) by lia.
      rewrite H by lia. rewrite app_nth2 by lia. f_equal. lia.
  - intros [H1 H2] i Hi. destruct (Nat.lt_ge_cases i (length bs1)).
    + rewrite app_nth1 by lia. auto.
    + rewrite app_nth2 by lia. rewrite <- H2 by lia.
      rewrite Z.shiftr_spec by lia. f_equal. lia.
Qed.

Lemma holds_cons w b bs :
  holds w (b :: bs) <-> Z.testbit w 0 = b /\ holds (Z.shiftr w 1) bs.
Proof.
  change (b :: bs) with ([b] ++ bs). rewrite holds_app. simpl length.
  split; intros [H1 H2]; split; auto.
  - apply (H1 0%nat). simpl. lia.
  - intros i Hi. simpl in Hi. assert (i = 0)%nat by lia. subst i. exact H1.
Qed.

(** Words only carry 64 bits: [holds64] looks at those only. *)
Definition holds64 (w : Z) (bs : list bool) : Prop :=
  forall i, (i < length bs)%nat -> (i < 64)%nat -> Z.testbit w (Z.of_nat i) = nth i bs false.

Lemma holds_holds64 w bs : holds w bs -> holds64 w bs.
Proof. intros H i Hi _. auto. Qed.

Lemma shl_lo ub w k : 0 <= k < 64 -> shl ub w k = wrap64 (Z.shiftl w k).
Proof. intros. unfold shl. destruct (Z.ltb_spec k 64); [reflexivity | lia]. Qed.

Lemma testbit_small_false n i : 0 <= n < 2 -> 1 <= i -> Z.testbit n i = false.
Proof.
  intros Hn Hi. assert (E: n = 0 \/ n = 1) by lia. destruct E; subst n.
  - apply Z.bits_0.
  - apply (Z.bits_above_log2 1 i); simpl; lia.
Qed.

(** Pushing [k] low bits [low] (given as a number [x < 2^k]) below [w]. *)
Lemma push_bits ub w bs low x :
  holds64 w bs -> holds x low -> Z.shiftr x (Z.of_nat (length low)) = 0 ->
  (length low < 64)%nat ->
  holds64 (Z.lor (shl ub w (Z.of_nat (length low))) x) (low ++ bs).
Proof.
  intros Hw Hx Hx0 Hk i Hi Hi64.
  rewrite app_length in Hi.
  rewrite shl_lo by lia.
  rewrite Z.lor_spec, testbit_wrap64_lo by lia.
  rewrite Z.shiftl_spec by lia.
  destruct (Nat.lt_ge_cases i (length low)).
  - rewrite Z.testbit_neg_r by lia. simpl. rewrite app_nth1 by lia. apply Hx. lia.
  - rewrite app_nth2 by lia.
    assert (E: Z.testbit x (Z.of_nat i) = false).
    { replace (Z.of_nat i) with ((Z.of_nat (i - length low)) + Z.of_nat (length low)) by lia.
      rewrite <- Z.shiftr_spec by lia. rewrite Hx0. apply Z.bits_0. }
    rewrite E, orb_false_r.
    replace (Z.of_nat i - Z.of_nat (length low)) with (Z.of_nat (i - length low)) by lia.
    apply Hw; lia.
Qed.

Lemma shl_word ub w k : 0 <= k < 64 -> is_word (shl ub w k).
Proof. intros. rewrite shl_lo by lia. apply wrap64_word. Qed.

Lemma push_zero ub w bs : holds64 w bs -> holds64 (shl ub w 1) (false :: bs).
Proof.
  intros H. pose proof (push_bits ub w bs [false] 0 H) as P.
  rewrite Z.lor_0_r in P. simpl in P. apply P.
  - intros i Hi. simpl in Hi. assert (i = 0)%nat by lia. subst. reflexivity.
  - reflexivity.
  - lia.
Qed.

Lemma push_one ub w bs : holds64 w bs -> holds64 (Z.lor (shl ub w 1) 1) (true :: bs).
Proof.
  intros H. pose proof (push_bits ub w bs [true] 1 H) as P.
  simpl in P. apply P.
  - intros i Hi. simpl in Hi. assert (i = 0)%nat by lia. subst. reflexivity.
  - reflexivity.
  - lia.
Qed.

Lemma push_two ub w bs x b0 b1 :
  holds64 w bs -> holds x [b0; b1] -> 0 <= x < 4 ->
  holds64 (Z.lor (shl ub w 2) x) (b0 :: b1 :: bs).
Proof.
  intros H Hx Hr. pose proof (push_bits ub w bs [b0; b1] x H Hx) as P.
  simpl in P. apply P; [|lia]. rewrite Z.shiftr_div_pow2 by lia.
  change (2^2) with 4. apply Z.div_small. lia.
Qed.

Lemma push_ones_holds ub n : forall w bs, holds64 w bs ->
  holds64 (push_ones ub n w) (repeat true n ++ bs).
Proof.
  induction n as [|n IH]; intros w bs H; [exact H|].
  cbn [push_ones]. pose proof (IH _ _ (push_one ub w bs H)) as P.
  replace (repeat true (S n) ++ bs) with (repeat true n ++ true :: bs); [exact P|].
  change (true :: bs) with ([true] ++ bs). rewrite app_assoc.
  f_equal. symmetry. apply repeat_cons.
Qed.

Lemma one_word : is_word 1. Proof. unfold is_word. lia. Qed.

Lemma push_ones_word ub n : forall w, is_word w -> is_word (push_ones ub n w).
Proof.
  induction n as [|n IH]; intros w H; [exact H|].
  cbn [push_ones]. apply IH. apply lor_word; [apply shl_word; lia | apply one_word].
Qed.

(** A word whose format ends in two zero bits and needs at most 65 bits loses
    nothing: bit 63 is zero and hence so is every bit above. *)
Lemma holds64_holds w bs :
  is_word w -> holds64 w (bs ++ [false; false]) -> (length bs <= 63)%nat ->
  holds w (bs ++ [false; false]).
Proof.
  intros Hw H Hl i Hi. rewrite app_length in Hi. simpl in Hi.
  destruct (Nat.lt_ge_cases i 64); [apply H; [rewrite app_length; simpl; lia | assumption]|].
  assert (i = 64)%nat by lia. assert (length bs = 63)%nat by lia. subst i.
  rewrite word_bits_high by (auto; lia).
  change 63 with (Z.of_nat 63). rewrite H by (rewrite ?app_length; simpl; lia).
  rewrite !app_nth2 by lia. replace (length bs) with 63%nat. reflexivity.
Qed.

(** ** The format *)
Lemma enc_ends_00 d : exists bs, enc d = bs ++ [false; false].
Proof.
  induction d as [ds IH | t a IH] using data_ind'.
  - destruct ds as [|d0 ds0] eqn:E.
    + exists []. reflexivity.
    + rewrite <- E in *.
      assert (exists bs, flat_map enc ds = bs ++ [false; false]) as [bs Hbs].
      { assert (ds <> []) by (subst; discriminate). clear E d0 ds0.
        induction IH as [|x l Hx Hl IHl]; [congruence|].
        destruct l as [|y l'].
        - destruct Hx as [bs Hbs]. exists bs. simpl. rewrite app_nil_r. exact Hbs.
        - destruct IHl as [bs Hbs]; [discriminate|]. exists (enc x ++ bs).
          cbn [flat_map] in *. rewrite Hbs. rewrite app_assoc. reflexivity. }
      exists (false :: repeat true (length ds) ++ false :: bs).
      cbn [enc]. rewrite Hbs. simpl. rewrite <- app_assoc. reflexivity.
  - destruct IH as [bs Hbs]. exists (true :: repeat true t ++ false :: bs).
    cbn [enc]. rewrite Hbs. simpl. rewrite <- app_assoc. reflexivity.
Qed.

Lemma enc_len_size d : (2 * data_size d <= length (enc d))%nat.
Proof.
  induction d as [ds IH | t a IH] using data_ind'.
  - cbn [enc data_size length]. rewrite app_length. cbn [length].
    assert (2 * list_sum (map data_size ds) <= length (flat_map enc ds))%nat.
    { induction IH as [|x l Hx Hl IHl]; simpl; [lia|]. rewrite app_length. lia. }
    lia.
  - cbn [enc data_size length]. rewrite app_length. cbn [length]. lia.
Qed.

Lemma skip_ones_spec n : forall fuel w bs,
  holds w (repeat true n ++ false :: bs) -> (n <= fuel)%nat ->
  exists d1, skip_ones fuel w = Some (n, d1) /\ holds (Z.shiftr d1 1) bs.
Proof.
  induction n as [|n IH]; intros fuel w bs H Hf.
  - cbn [repeat app] in H. apply holds_cons in H. destruct H as [H0 H].
    exists w. split; [|exact H]. destruct fuel; cbn [skip_ones]; rewrite H0; reflexivity.
  - cbn [repeat app] in H. apply holds_cons in H. destruct H as [H0 H].
    destruct fuel as [|fuel]; [lia|]. cbn [skip_ones]. rewrite H0.
    destruct (IH fuel _ _ H) as (d1 & E & Hd); [lia|].
    rewrite E. exists d1. auto.
Qed.

Lemma packed_len_spec : forall fuel d w rest,
  (data_size d <= fuel)%nat -> holds w (enc d ++ rest) -> (length (enc d) <= 64)%nat ->
  packed_len fuel w = Some (length (enc d)).
Proof.
  induction fuel as [|fuel IH]; intros d w rest Hs Hw Hl.
  { destruct d; simpl in Hs; lia. }
  destruct d as [ds | t a].
  - cbn [enc] in *. cbn [app] in Hw. apply holds_cons in Hw. destruct Hw as [H0 Hw].
    cbn [packed_len]. rewrite H0. cbn [negb].
    cbn [length] in Hl. rewrite app_length, repeat_length in Hl. cbn [length] in Hl.
    rewrite <- app_assoc in Hw. cbn [app] in Hw.
    destruct (skip_ones_spec _ ones_fuel _ _ Hw) as (d1 & E & Hd);
      [unfold ones_fuel; lia|].
    rewrite E. cbn [length]. rewrite app_length, repeat_length. cbn [length].
    replace (S (length ds + S (length (flat_map enc ds))))
      with (2 + length ds + length (flat_map enc ds))%nat by lia.
    assert (Hsz : (list_sum (map data_size ds) <= fuel)%nat) by (cbn [data_size] in Hs; lia).
    assert (Hl' : (length (flat_map enc ds) <= 62)%nat) by lia.
    clear E Hw H0 Hl Hs.
    generalize (2 + length ds)%nat as acc. revert d1 Hd.
    intros d1. generalize (Z.shiftr d1 1) as x. clear d1.
    induction ds as [|d ds IHds]; intros x Hd acc.
    + simpl. f_equal. lia.
    + cbn [flat_map] in *. cbn [length]. rewrite app_length in Hl'.
      simpl in Hsz. rewrite <- app_assoc in Hd.
      rewrite (IH d x (flat_map enc ds ++ rest)) by (auto; lia).
      unfold shr. destruct (Z.ltb_spec (Z.of_nat (length (enc d))) 64); [|lia].
      apply holds_app in Hd. destruct Hd as [_ Hd].
      rewrite IHds by (auto; lia). rewrite app_length. f_equal. lia.
  - cbn [enc] in *. cbn [app] in Hw. apply holds_cons in Hw. destruct Hw as [H0 Hw].
    cbn [packed_len]. rewrite H0. cbn [negb].
    cbn [length] in Hl. rewrite app_length, repeat_length in Hl. cbn [length] in Hl.
    rewrite <- app_assoc in Hw. cbn [app] in Hw.
    destruct (skip_ones_spec _ ones_fuel _ _ Hw) as (d1 & E & Hd);
      [unfold ones_fuel; lia|].
    rewrite E. cbn [data_size] in Hs.
    rewrite (IH a _ rest) by (auto; lia).
    cbn [length]. rewrite app_length, repeat_length. cbn [length]. f_equal. lia.
Qed.

Lemma packed_value_length_spec d w rest :
  holds w (enc d ++ rest) -> (length (enc d) <= 64)%nat ->
  packed_value_length w = Some (length (enc d)).
Proof.
  intros. unfold packed_value_length. apply packed_len_spec with rest; auto.
  pose proof (enc_len_size d). unfold len_fuel. lia.
Qed.

Lemma holds_self w d : holds w (enc d) -> holds w (enc d ++ []).
Proof. rewrite app_nil_r. auto. Qed.

(** ** Prefix-freeness *)
Lemma repeat_false_inj n : forall m x y,
  repeat true n ++ false :: x = repeat true m ++ false :: y -> n = m /\ x = y.
Proof.
  induction n as [|n IH]; intros [|m] x y H; simpl in H; try discriminate.
  - inversion H. auto.
  - inversion H as [H']. destruct (IH _ _ _ H'). auto.
Qed.

Lemma enc_prefix_free d : forall d' x y, enc d ++ x = enc d' ++ y -> d = d' /\ x = y.
Proof.
  induction d as [ds IH | t a IH] using data_ind'; intros [ds' | t' a'] x y H;
    cbn [enc app] in H; try discriminate; inversion H as [H1]; clear H;
    rewrite <- !app_assoc in H1; cbn [app] in H1;
    apply repeat_false_inj in H1; destruct H1 as [Hn H1].
  - assert (ds = ds' /\ x = y) as [-> ->]; [|auto].
    clear - IH Hn H1. revert ds' Hn x y H1.
    induction IH as [|d l Hd Hl IHl]; intros [|d' l'] Hn x y H1; simpl in Hn; try discriminate.
    + auto.
    + cbn [flat_map] in H1. rewrite <- !app_assoc in H1.
      apply Hd in H1. destruct H1 as [-> H1].
      destruct (IHl l' ltac:(lia) _ _ H1) as [-> ->]. auto.
  - destruct (IH _ _ _ H1) as [-> ->]. subst. auto.
Qed.

Lemma holds_prefix w bs1 bs2 : holds w bs1 -> holds w bs2 -> (length bs1 <= length bs2)%nat ->
  bs2 = bs1 ++ skipn (length bs1) bs2.
Proof.
  intros H1 H2 Hl. rewrite <- (firstn_skipn (length bs1) bs2) at 1. f_equal.
  apply nth_ext with false false.
  - rewrite firstn_length. lia.
  - intros n Hn. rewrite firstn_length in Hn.
    rewrite <- H1 by lia.
    replace (nth n (firstn (length bs1) bs2) false) with (nth n bs2 false).
    + symmetry. apply H2. lia.
    + rewrite <- (firstn_skipn (length bs1) bs2) at 1. rewrite app_nth1; [reflexivity|].
      rewrite firstn_length. lia.
Qed.

Lemma holds_enc_inj w d d' : holds w (enc d) -> holds w (enc d') -> d = d'.
Proof.
  intros H1 H2. destruct (Nat.le_ge_cases (length (enc d)) (length (enc d'))) as [Hl|Hl].
  - pose proof (holds_prefix _ _ _ H1 H2 Hl) as E.
    rewrite <- (app_nil_r (enc d')) in E at 1. symmetry in E. apply enc_prefix_free in E. apply E.
  - pose proof (holds_prefix _ _ _ H2 H1 Hl) as E.
    rewrite <- (app_nil_r (enc d)) in E at 1. apply enc_prefix_free in E. apply E.
Qed.

Lemma packed_as_inj w d d' : packed_as w d -> packed_as w d' -> d = d'.
Proof.
  intros (_ & H1 & _) (_ & H2 & _). apply holds_cons in H1, H2.
  destruct H1 as [_ H1], H2 as [_ H2]. eapply holds_enc_inj; eauto.
Qed.

Lemma packed_as_is_packed w d : packed_as w d -> is_packed w = true.
Proof. intros (_ & H & _). apply holds_cons in H. apply H. Qed.

(** ** Packing structs *)
Definition bits_of (ds : list data) : nat := length (flat_map enc ds).

Lemma mask_land arglen x i : 0 <= arglen < 63 -> 0 <= i ->
  Z.testbit (Z.land (wrap64 (wrap64 (Z.shiftl 1 arglen) - 1)) x) i
  = (i <? arglen) && Z.testbit x i.
Proof.
  intros Ha Hi.
  assert (E: wrap64 (wrap64 (Z.shiftl 1 arglen) - 1) = Z.ones arglen).
  { rewrite Z.shiftl_1_l.
    assert (2^arglen < 2^63) by (apply Z.pow_lt_mono_r; lia).
    assert (0 < 2^arglen) by (apply Z.pow_pos_nonneg; lia).
    assert (W: forall z, -2^63 <= z < 2^63 -> wrap64 z = z).
    { intros z Hz. unfold wrap64. rewrite Z.mod_small; lia. }
    rewrite (W (2^arglen)) by lia. rewrite W by lia.
    rewrite Z.ones_equiv. lia. }
  rewrite E, Z.land_spec. f_equal.
  destruct (Z.ltb_spec i arglen).
  - apply Z.ones_spec_low. lia.
  - apply Z.ones_spec_high. lia.
Qed.

Lemma pack_loop_spec ub : forall rargs data nb u acc,
  Forall valid_arg rargs -> 0 <= nb ->
  (nb < 62 -> nb = Z.of_nat (bits_of acc) /\ holds64 data (flat_map enc acc) /\ is_word data) ->
  exists data' nb' u', pack_loop ub rargs data nb u = Some (data', nb', u') /\ nb <= nb' /\
    (nb' < 62 -> exists ds, Forall2 packed_as rargs ds /\
        nb' = Z.of_nat (bits_of (rev ds ++ acc)) /\
        holds64 data' (flat_map enc (rev ds ++ acc)) /\ is_word data').
Proof.
  induction rargs as [|arg rest IH]; intros data nb u acc Hok Hnb Hinv; cbn [pack_loop].
  - exists data, nb, u. split; [reflexivity|]. split; [lia|].
    intros Hlt. exists []. split; [constructor|]. exact (Hinv Hlt).
  - inversion Hok as [|? ? Harg Hrest]; subst.
    destruct (is_packed arg) eqn:Ep.
    + destruct Harg as [Harg | [d Hd]]; [congruence|].
      pose proof Hd as (Hword & Hh & Hlen).
      apply holds_cons in Hh. destruct Hh as [_ Hh].
      rewrite (packed_value_length_spec d _ []) by (try apply holds_self; auto).
      cbv zeta. set (al := length (enc d)) in *.
      assert (Hal: (2 <= al)%nat).
      { pose proof (enc_len_size d) as Q. fold al in Q. destruct d; cbn [data_size] in Q; lia. }
      destruct (IH
        (Z.lor (shl ub data (Z.of_nat al))
               (Z.land (wrap64 (shl ub 1 (Z.of_nat al) - 1)) (Z.shiftr arg 1)))
        (nb + Z.of_nat al) (u || (64 <=? Z.of_nat al)) (d :: acc) Hrest) as
        (data' & nb' & u' & E & Hle & Hres).
      * lia.
      * intros Hlt. destruct Hinv as (Hnb' & Hdata & Hdw); [lia|].
        split; [|split].
        -- unfold bits_of in *. cbn [flat_map]. rewrite app_length. fold al. lia.
        -- cbn [flat_map]. apply push_bits; auto; try (fold al; lia).
           ++ intros i Hi. rewrite shl_lo by lia. rewrite mask_land by lia.
              destruct (Z.ltb_spec (Z.of_nat i) (Z.of_nat al)); [|fold al in Hi; lia].
              simpl. apply Hh. exact Hi.
           ++ fold al. apply Z.bits_inj'. intros n Hn. rewrite Z.shiftr_spec by lia.
              rewrite shl_lo by lia. rewrite mask_land by lia.
              destruct (Z.ltb_spec (n + Z.of_nat al) (Z.of_nat al)); [lia|].
              rewrite Z.bits_0. reflexivity.
        -- apply lor_word; [apply shl_word; lia|].
           rewrite shl_lo by lia.
           assert (W: Z.land (wrap64 (wrap64 (Z.shiftl 1 (Z.of_nat al)) - 1)) (Z.shiftr arg 1)
                      = wrap64 (Z.land (wrap64 (wrap64 (Z.shiftl 1 (Z.of_nat al)) - 1)) (Z.shiftr arg 1))).
           { apply Z.bits_inj'. intros n Hn. destruct (Z_lt_ge_dec n 64).
             - rewrite testbit_wrap64_lo by lia. reflexivity.
             - rewrite (word_bits_high (wrap64 _)) by (try apply wrap64_word; lia).
               rewrite testbit_wrap64_lo by lia. rewrite !mask_land by lia.
               destruct (Z.ltb_spec n (Z.of_nat al)); [lia|].
               destruct (Z.ltb_spec 63 (Z.of_nat al)); [lia|]. reflexivity. }
           rewrite W. apply wrap64_word.
      * rewrite E. exists data', nb', u'. split; [reflexivity|]. split; [lia|].
        intros Hlt. destruct (Hres Hlt) as (ds & H2 & Hb & Hh' & Hw').
        exists (d :: ds). split; [constructor; auto|].
        cbn [rev]. rewrite <- app_assoc. cbn [app]. auto.
    + exists data, (nb + 64), u. split; [reflexivity|]. split; [lia|]. lia.
Qed.

Lemma new_struct_spec ub m args : Forall valid_arg args ->
  exists b, new_struct ub m args = Some b /\
   ((exists ds, Forall2 packed_as args ds /\ packed_as (b_val b) (DStruct ds) /\ b_mem b = m)
    \/ (b_val b = addr_of (length m) /\ b_mem b = m ++ [OStruct args])).
Proof.
  intros Hok. unfold new_struct.
  assert (Hokr: Forall valid_arg (rev args)) by (apply Forall_rev; exact Hok).
  destruct (pack_loop_spec ub (rev args) 0 0 false [] Hokr ltac:(lia)) as
    (data & nb & u & E & Hle & Hres).
  { intros _. split; [reflexivity|]. split; [intros i Hi; simpl in Hi; lia | unfold is_word; lia]. }
  rewrite E. cbv zeta.
  destruct (Z.ltb_spec (nb + Z.of_nat (length args) + 1) 64) as [Hlt | Hge].
  - eexists. split; [reflexivity|]. left. cbn [b_val b_mem].
    destruct (Z_lt_ge_dec nb 62) as [Hnb | Hnb].
    + destruct (Hres Hnb) as (ds & H2 & Hb & Hh & Hw).
      exists (rev ds). split; [|split; [|reflexivity]].
      { rewrite <- (rev_involutive args). clear - H2.
        set (l := rev args) in *. clearbody l. induction H2; simpl; [constructor|].
        apply Forall2_app; auto. }
      rewrite app_nil_r in *.
      assert (Hlen: length args = length (rev ds)).
      { apply Forall2_len in H2. rewrite rev_length in *. lia. }
      assert (Henc: enc (DStruct (rev ds)) = false :: repeat true (length args) ++ false :: flat_map enc (rev ds)).
      { cbn [enc]. rewrite Hlen. reflexivity. }
      assert (HL: length (enc (DStruct (rev ds))) = (2 + length args + bits_of (rev ds))%nat).
      { rewrite Henc. cbn [length]. rewrite app_length, repeat_length. cbn [length]. unfold bits_of. lia. }
      assert (Hword: is_word (Z.lor (shl ub (push_ones ub (length args) (shl ub data 1)) 2) 1)).
      { apply lor_word; [apply shl_word; lia | apply one_word]. }
      assert (H64: holds64 (Z.lor (shl ub (push_ones ub (length args) (shl ub data 1)) 2) 1)
                    (true :: enc (DStruct (rev ds)))).
      { rewrite Henc. apply push_two; [| |lia].
        - apply push_ones_holds. apply push_zero. exact Hh.
        - intros i Hi. simpl in Hi. destruct i as [|[|i]]; [reflexivity|reflexivity|lia]. }
      split; [exact Hword|]. split; [|lia].
      destruct (enc_ends_00 (DStruct (rev ds))) as [bs Hbs].
      rewrite Hbs in *. change (true :: bs ++ [false; false]) with ((true :: bs) ++ [false; false]) in *.
      apply holds64_holds; auto. rewrite app_length in HL. simpl in HL. simpl. lia.
    + (* nb in {62}: then args = [] and nb = 0, contradiction *)
      assert (length args = 0)%nat by lia.
      destruct args; [|simpl in *; lia]. simpl in E. inversion E. lia.
  - destruct (alloc m (OStruct args)) as [a m'] eqn:Ea. unfold alloc in Ea. inversion Ea; subst.
    eexists. split; [reflexivity|]. right. auto.
Qed.

Lemma new_union_spec ub m tag arg : valid_arg arg ->
  exists b, new_union ub m tag arg = Some b /\ b_ub b = false /\
   ((exists d, packed_as arg d /\ packed_as (b_val b) (DUnion tag d) /\ b_mem b = m)
    \/ (b_val b = addr_of (length m) /\ b_mem b = m ++ [OUnion tag arg])).
Proof.
  intros Hok. unfold new_union, alloc.
  destruct (is_packed arg) eqn:Ep.
  - destruct Hok as [Hok | [d Hd]]; [congruence|].
    pose proof Hd as (Hword & Hh & Hlen).
    apply holds_cons in Hh. destruct Hh as [_ Hh].
    rewrite (packed_value_length_spec d _ []) by (try apply holds_self; auto).
    cbv zeta.
    destruct (Z.ltb_spec (Z.of_nat (length (enc d)) + Z.of_nat tag + 1) 64) as [Hlt|Hge].
    + eexists. split; [reflexivity|]. split; [reflexivity|]. left. cbn [b_val b_mem].
      exists d. split; [exact Hd|]. split; [|reflexivity].
      assert (HL: length (enc (DUnion tag d)) = (2 + tag + length (enc d))%nat).
      { cbn [enc length]. rewrite app_length, repeat_length. cbn [length]. lia. }
      split; [|split; [|lia]].
      { apply lor_word; [apply shl_word; lia | unfold is_word; lia]. }
      assert (H64: holds64 (Z.lor (shl ub (push_ones ub tag (shl ub (Z.shiftr arg 1) 1)) 2) 3)
                    (true :: enc (DUnion tag d))).
      { cbn [enc]. apply push_two; [| |lia].
        - apply push_ones_holds. apply push_zero. apply holds_holds64. exact Hh.
        - intros i Hi. simpl in Hi. destruct i as [|[|i]]; [reflexivity|reflexivity|lia]. }
      destruct (enc_ends_00 (DUnion tag d)) as [bs Hbs].
      rewrite Hbs in *. change (true :: bs ++ [false; false]) with ((true :: bs) ++ [false; false]) in *.
      apply holds64_holds; auto.
      { apply lor_word; [apply shl_word; lia | unfold is_word; lia]. }
      rewrite app_length in HL. simpl in HL. simpl. lia.
    + eexists. split; [reflexivity|]. split; [reflexivity|]. right. auto.
  - eexists. split; [reflexivity|]. split; [reflexivity|]. right. auto.
Qed.

(** ** Reading *)
Lemma lookup_addr_of m i : lookup m (addr_of i) = nth_error m i.
Proof.
  unfold lookup, addr_of.
  assert (E: (16 * (Z.of_nat i + 1)) mod 16 = 0) by (rewrite Z.mul_comm; apply Z.mod_mul; lia).
  assert (E2: 16 * (Z.of_nat i + 1) / 16 = Z.of_nat i + 1)
    by (rewrite Z.mul_comm; apply Z.div_mul; lia).
  rewrite E, E2. destruct (Z.ltb_spec 0 (16 * (Z.of_nat i + 1))); [|lia].
  cbn [andb Z.eqb]. f_equal. lia.
Qed.

Lemma addr_of_not_packed i : is_packed (addr_of i) = false.
Proof.
  unfold is_packed, addr_of. rewrite Z.bit0_odd. rewrite Z.odd_mul. reflexivity.
Qed.

Lemma addr_of_alloced i : is_alloced (addr_of i) = true.
Proof.
  unfold is_alloced. rewrite addr_of_not_packed. simpl. unfold addr_of.
  destruct (Z.eqb_spec (16 * (Z.of_nat i + 1)) 0); [lia|reflexivity].
Qed.

Lemma packed_not_zero w : is_packed w = true -> (w =? 0) = false.
Proof. intros H. destruct (Z.eqb_spec w 0); auto. subst. discriminate. Qed.

Lemma strict_packed m w : is_packed w = true -> strict m w = Some w.
Proof.
  intros H. unfold strict. destruct (length m); simpl; unfold is_alloced; rewrite H; reflexivity.
Qed.

Lemma strict_obj m i o : nth_error m i = Some o -> (forall v, o <> ORef v) ->
  strict m (addr_of i) = Some (addr_of i).
Proof.
  intros H Ho. unfold strict. destruct (length m); simpl; rewrite addr_of_alloced, lookup_addr_of, H;
  destruct o; auto; exfalso; eapply Ho; reflexivity.
Qed.

Lemma repack_packed ub d x rest : is_word x -> holds x (enc d ++ rest) -> (length (enc d) <= 63)%nat ->
  packed_as (repack ub x) d.
Proof.
  intros Hx H Hl. unfold repack. split; [|split].
  - apply lor_word; [apply shl_word; lia | apply one_word].
  - assert (H64: holds64 (Z.lor (shl ub x 1) 1) (true :: enc d)).
    { apply push_one. apply holds_holds64. apply holds_app in H. apply H. }
    intros i Hi. apply H64; auto. simpl in Hi. lia.
  - lia.
Qed.

Lemma shiftr_shiftr1 w : Z.shiftr w 2 = Z.shiftr (Z.shiftr w 1) 1.
Proof. rewrite Z.shiftr_shiftr by lia. reflexivity. Qed.

Lemma skip_ones_word fuel : forall w n d, is_word w -> skip_ones fuel w = Some (n, d) -> is_word d.
Proof.
  induction fuel as [|fuel IH]; intros w n d Hw H; cbn [skip_ones] in H;
    destruct (Z.testbit w 0); try discriminate; try (inversion H; subst; assumption).
  destruct (skip_ones fuel (Z.shiftr w 1)) as [[n' d']|] eqn:E; [|discriminate].
  inversion H; subst. eapply IH; [|exact E]. apply shiftr_word; [assumption|lia].
Qed.

Lemma skip_fields_spec : forall i ds x d rest,
  nth_error ds i = Some d -> is_word x -> holds x (flat_map enc ds ++ rest) ->
  (length (flat_map enc ds) <= 63)%nat ->
  exists x', skip_fields i x = Some x' /\ is_word x' /\ exists rest', holds x' (enc d ++ rest').
Proof.
  induction i as [|i IH]; intros [|d0 ds] x d rest Hn Hx Hh Hl; try discriminate.
  - simpl in Hn. inversion Hn; subst. cbn [flat_map] in Hh. rewrite <- app_assoc in Hh.
    exists x. split; [reflexivity|]. split; [auto|]. eauto.
  - simpl in Hn. cbn [flat_map] in *. rewrite app_length in Hl. rewrite <- app_assoc in Hh.
    cbn [skip_fields]. rewrite (packed_value_length_spec d0 _ (flat_map enc ds ++ rest)) by (auto; lia).
    unfold shr. destruct (Z.ltb_spec (Z.of_nat (length (enc d0))) 64); [|lia].
    apply holds_app in Hh. destruct Hh as [_ Hh].
    apply (IH ds _ d rest); auto; [|lia]. apply shiftr_word; [assumption|lia].
Qed.

Lemma struct_field_packed ub m w ds i d : packed_as w (DStruct ds) -> nth_error ds i = Some d ->
  exists w', struct_field ub m w i = Some w' /\ packed_as w' d.
Proof.
  intros Hp Hn. pose proof Hp as (Hw & Hh & Hl). unfold struct_field.
  pose proof (packed_as_is_packed _ _ Hp) as Hip.
  rewrite strict_packed by auto. rewrite packed_not_zero by auto. rewrite Hip.
  cbn [enc] in Hh. apply holds_cons in Hh. destruct Hh as [_ Hh].
  apply holds_cons in Hh. destruct Hh as [_ Hh]. rewrite shiftr_shiftr1.
  cbn [enc length] in Hl. rewrite app_length, repeat_length in Hl. cbn [length] in Hl.
  destruct (skip_ones_spec _ ones_fuel _ _ Hh) as (d1 & E & Hd); [unfold ones_fuel; lia|].
  rewrite E.
  assert (Hd1: is_word d1).
  { eapply skip_ones_word; [|exact E]. repeat (apply shiftr_word; [|lia]). exact Hw. }
  destruct (skip_fields_spec i ds (Z.shiftr d1 1) d []) as (x' & E' & Hx' & rest & Hh'); auto.
  { apply shiftr_word; [auto|lia]. }
  { rewrite app_nil_r. exact Hd. }
  { lia. }
  rewrite E'. eexists. split; [reflexivity|]. eapply repack_packed; eauto.
  assert (length (enc d) <= length (flat_map enc ds))%nat; [|lia].
  clear - Hn. revert i Hn. induction ds as [|d0 ds IH]; intros [|i] Hn; try discriminate;
    cbn [flat_map]; rewrite app_length.
  - inversion Hn; subst. lia.
  - specialize (IH _ Hn). lia.
Qed.

Lemma union_packed w t d : packed_as w (DUnion t d) ->
  exists x, skip_ones ones_fuel (Z.shiftr w 2) = Some (t, x) /\ is_word x /\
    holds (Z.shiftr x 1) (enc d) /\ (length (enc d) <= 62)%nat.
Proof.
  intros (Hw & Hh & Hl).
  cbn [enc] in Hh. apply holds_cons in Hh. destruct Hh as [_ Hh].
  apply holds_cons in Hh. destruct Hh as [_ Hh]. rewrite shiftr_shiftr1.
  cbn [enc length] in Hl. rewrite app_length, repeat_length in Hl. cbn [length] in Hl.
  destruct (skip_ones_spec _ ones_fuel _ _ Hh) as (d1 & E & Hd); [unfold ones_fuel; lia|].
  exists d1. split; [exact E|]. split; [|split; [exact Hd|lia]].
  eapply skip_ones_word; [|exact E]. repeat (apply shiftr_word; [|lia]). exact Hw.
Qed.

Lemma union_tag_packed m w t d : packed_as w (DUnion t d) -> union_tag m w = Some (Some t).
Proof.
  intros Hp. destruct (union_packed _ _ _ Hp) as (x & E & _).
  pose proof (packed_as_is_packed _ _ Hp) as Hip. unfold union_tag.
  rewrite strict_packed by auto. rewrite packed_not_zero by auto. rewrite Hip, E. reflexivity.
Qed.

Lemma union_arg_packed ub m w t d : packed_as w (DUnion t d) ->
  exists w', union_arg ub m w = Some w' /\ packed_as w' d.
Proof.
  intros Hp. destruct (union_packed _ _ _ Hp) as (x & E & Hx & Hh & Hl).
  pose proof (packed_as_is_packed _ _ Hp) as Hip. unfold union_arg.
  rewrite strict_packed by auto. rewrite packed_not_zero by auto. rewrite Hip, E.
  eexists. split; [reflexivity|]. apply repack_packed with []; [|rewrite app_nil_r; auto|lia].
  apply shiftr_word; [auto|lia].
Qed.

Lemma union_field_packed ub m w t d f : packed_as w (DUnion t d) ->
  exists w', union_field ub m w f = Some w' /\
    (if Nat.eqb t f then packed_as w' d else w' = wrong_union_tag).
Proof.
  intros Hp. destruct (union_packed _ _ _ Hp) as (x & E & Hx & Hh & Hl).
  pose proof (packed_as_is_packed _ _ Hp) as Hip. unfold union_field.
  rewrite strict_packed by auto. rewrite packed_not_zero by auto. rewrite Hip, E.
  destruct (Nat.eqb t f); simpl.
  - eexists. split; [reflexivity|]. apply repack_packed with []; [|rewrite app_nil_r; auto|lia].
    apply shiftr_word; [auto|lia].
  - eauto.
Qed.

(** ** Finite denotation of words in memory *)
Inductive den (m : mem) : Z -> data -> Prop :=
| den_packed w d : packed_as w d -> den m w d
| den_struct w ws ds : is_packed w = false -> lookup m w = Some (OStruct ws) ->
    Forall2 (den m) ws ds -> den m w (DStruct ds)
| den_union w t v d : is_packed w = false -> lookup m w = Some (OUnion t v) ->
    den m v d -> den m w (DUnion t d).

Section DenInd.
  Variable m : mem.
  Variable P : Z -> data -> Prop.
  Hypothesis HP : forall w d, packed_as w d -> P w d.
  Hypothesis HS : forall w ws ds, is_packed w = false -> lookup m w = Some (OStruct ws) ->
    Forall2 (den m) ws ds -> Forall2 P ws ds -> P w (DStruct ds).
  Hypothesis HU : forall w t v d, is_packed w = false -> lookup m w = Some (OUnion t v) ->
    den m v d -> P v d -> P w (DUnion t d).
  Fixpoint den_ind' w d (H : den m w d) : P w d :=
    match H in den _ w d return P w d with
    | den_packed _ w d Hp => HP w d Hp
    | den_struct _ w ws ds Hi Hl HF =>
      HS w ws ds Hi Hl HF
        ((fix go ws ds (HF : Forall2 (den m) ws ds) : Forall2 P ws ds :=
            match HF in Forall2 _ ws ds return Forall2 P ws ds with
            | Forall2_nil _ => Forall2_nil _
            | Forall2_cons x y Hxy HF' => Forall2_cons x y (den_ind' x y Hxy) (go _ _ HF')
            end) ws ds HF)
    | den_union _ w t v d Hi Hl Hd => HU w t v d Hi Hl Hd (den_ind' v d Hd)
    end.
End DenInd.

Lemma lookup_app m x a o : lookup m a = Some o -> lookup (m ++ x) a = Some o.
Proof.
  unfold lookup. destruct ((0 <? a) && (a mod 16 =? 0)); [|discriminate].
  intros H. rewrite nth_error_app1; auto. apply nth_error_Some. congruence.
Qed.

Lemma den_app m x w d : den m w d -> den (m ++ x) w d.
Proof.
  intros H. induction H as [w d H | w ws ds Hi Hl HF HF' | w t v d Hi Hl Hd IH] using den_ind'.
  - constructor. auto.
  - eapply den_struct; eauto. apply lookup_app. auto.
  - eapply den_union; eauto. apply lookup_app. auto.
Qed.

Lemma den_valid_arg m w d : den m w d -> valid_arg w.
Proof.
  intros H. inversion H; subst; [right; eauto | left; auto | left; auto].
Qed.

(** [m'] extends [m]. *)
Definition extends (m m' : mem) : Prop := exists x, m' = m ++ x.

Lemma extends_refl m : extends m m.
Proof. exists []. rewrite app_nil_r. reflexivity. Qed.
Lemma extends_trans m1 m2 m3 : extends m1 m2 -> extends m2 m3 -> extends m1 m3.
Proof. intros [x ->] [y ->]. exists (x ++ y). rewrite app_assoc. reflexivity. Qed.
Lemma den_extends m m' w d : extends m m' -> den m w d -> den m' w d.
Proof. intros [x ->]. apply den_app. Qed.

Lemma Forall2_den_packed m ws ds ds' :
  Forall2 (den m) ws ds -> Forall2 packed_as ws ds' -> ds = ds'.
Proof.
  intros H. revert ds'. induction H as [|w d ws ds Hwd H IH]; intros ds' H'; inversion H'; subst; auto.
  f_equal; auto. inversion Hwd; subst.
  - eapply packed_as_inj; eauto.
  - match goal with H : packed_as _ _ |- _ => apply packed_as_is_packed in H end. congruence.
  - match goal with H : packed_as _ _ |- _ => apply packed_as_is_packed in H end. congruence.
Qed.

Lemma new_struct_den ub m ws ds : Forall2 (den m) ws ds ->
  exists b, new_struct ub m ws = Some b /\ extends m (b_mem b) /\ den (b_mem b) (b_val b) (DStruct ds).
Proof.
  intros H.
  assert (Hok: Forall valid_arg ws).
  { clear -H. induction H; constructor; auto. eapply den_valid_arg; eauto. }
  destruct (new_struct_spec ub m ws Hok) as (b & E & Hb). exists b. split; [exact E|].
  destruct Hb as [(ds' & H2 & Hp & Hm) | (Hv & Hm)].
  - rewrite Hm. split; [apply extends_refl|]. rewrite (Forall2_den_packed _ _ _ _ H H2).
    constructor. exact Hp.
  - rewrite Hm, Hv. split; [eexists; reflexivity|].
    eapply den_struct.
    + apply addr_of_not_packed.
    + rewrite lookup_addr_of. rewrite nth_error_app2 by lia. rewrite Nat.sub_diag. reflexivity.
    + clear - H. remember [OStruct ws] as x eqn:Hx. clear Hx.
      induction H; constructor; auto. apply den_app. auto.
Qed.

Lemma new_union_den ub m t w d : den m w d ->
  exists b, new_union ub m t w = Some b /\ extends m (b_mem b) /\ den (b_mem b) (b_val b) (DUnion t d).
Proof.
  intros H. destruct (new_union_spec ub m t w (den_valid_arg _ _ _ H)) as (b & E & _ & Hb).
  exists b. split; [exact E|]. destruct Hb as [(d' & Hd & Hp & Hm) | (Hv & Hm)].
  - rewrite Hm. split; [apply extends_refl|].
    assert (E2: [d] = [d']) by (eapply (Forall2_den_packed m [w]); constructor; eauto).
    inversion E2; subst. constructor. exact Hp.
  - rewrite Hm, Hv. split; [eexists; reflexivity|].
    eapply den_union.
    + apply addr_of_not_packed.
    + rewrite lookup_addr_of. rewrite nth_error_app2 by lia. rewrite Nat.sub_diag. reflexivity.
    + apply den_app. exact H.
Qed.

Lemma lookup_is_addr m w o : lookup m w = Some o -> exists i, w = addr_of i /\ nth_error m i = Some o.
Proof.
  unfold lookup. intros H.
  destruct (Z.ltb_spec 0 w); simpl in H; [|discriminate].
  destruct (Z.eqb_spec (w mod 16) 0) as [e|]; [|discriminate].
  exists (Z.to_nat (w / 16 - 1)). split; [|exact H]. unfold addr_of.
  pose proof (Z.div_mod w 16 ltac:(lia)) as Hd. rewrite e in Hd.
  assert (1 <= w / 16) by lia. rewrite Z2Nat.id by lia. lia.
Qed.

Lemma lookup_strict m w o : lookup m w = Some o -> (forall v, o <> ORef v) ->
  strict m w = Some w /\ (w =? 0) = false.
Proof.
  intros H Ho. destruct (lookup_is_addr _ _ _ H) as (i & -> & Hn). split.
  - eapply strict_obj; eauto.
  - unfold addr_of. destruct (Z.eqb_spec (16 * (Z.of_nat i + 1)) 0); auto; lia.
Qed.

Lemma den_struct_field ub m w ds i d : den m w (DStruct ds) -> nth_error ds i = Some d ->
  exists w', struct_field ub m w i = Some w' /\ den m w' d.
Proof.
  intros H Hn. inversion H as [? ? Hp | ? ws ? Hi Hl HF |]; subst.
  - destruct (struct_field_packed ub m _ _ _ _ Hp Hn) as (w' & E & Hw'). exists w'.
    split; auto. constructor. auto.
  - destruct (lookup_strict _ _ _ Hl) as [Hs Hz]; [discriminate|].
    unfold struct_field. rewrite Hs, Hz, Hi, Hl.
    clear - HF Hn. revert i Hn. induction HF as [|x y l l' Hxy HF IH]; intros [|i] Hn; try discriminate.
    + inversion Hn; subst. simpl. eauto.
    + simpl in *. apply IH. exact Hn.
Qed.

Lemma den_union_tag m w t d : den m w (DUnion t d) -> union_tag m w = Some (Some t).
Proof.
  intros H. inversion H as [? ? Hp | | ? ? v ? Hi Hl Hd]; subst.
  - eapply union_tag_packed; eauto.
  - destruct (lookup_strict _ _ _ Hl) as [Hs Hz]; [discriminate|].
    unfold union_tag. rewrite Hs, Hz, Hi, Hl. reflexivity.
Qed.

Lemma den_union_arg ub m w t d : den m w (DUnion t d) ->
  exists w', union_arg ub m w = Some w' /\ den m w' d.
Proof.
  intros H. inversion H as [? ? Hp | | ? ? v ? Hi Hl Hd]; subst.
  - destruct (union_arg_packed ub m _ _ _ Hp) as (w' & E & Hw'). exists w'. split; auto. constructor; auto.
  - destruct (lookup_strict _ _ _ Hl) as [Hs Hz]; [discriminate|].
    unfold union_arg. rewrite Hs, Hz, Hi, Hl. eauto.
Qed.

Lemma den_union_field ub m w t d f : den m w (DUnion t d) ->
  exists w', union_field ub m w f = Some w' /\ (if Nat.eqb t f then den m w' d else w' = wrong_union_tag).
Proof.
  intros H. inversion H as [? ? Hp | | ? ? v ? Hi Hl Hd]; subst.
  - destruct (union_field_packed ub m _ _ _ f Hp) as (w' & E & Hw'). exists w'. split; auto.
    destruct (Nat.eqb t f); auto. constructor; auto.
  - destruct (lookup_strict _ _ _ Hl) as [Hs Hz]; [discriminate|].
    unfold union_field. rewrite Hs, Hz, Hi, Hl. destruct (Nat.eqb t f); eauto.
Qed.

(** ** Building and observing *)
Fixpoint build_list_with (bld : mem -> data -> option (Z * mem)) (m : mem) (ds : list data)
  : option (list Z * mem) :=
  match ds with
  | [] => Some ([], m)
  | d :: ds' =>
    match bld m d with
    | None => None
    | Some (w, m1) =>
      match build_list_with bld m1 ds' with
      | None => None
      | Some (ws, m2) => Some (w :: ws, m2)
      end
    end
  end.

Lemma build_unfold ub m d : build ub m d =
  match d with
  | DStruct ds =>
    match build_list_with (build ub) m ds with
    | None => None
    | Some (ws, m1) =>
      match new_struct ub m1 ws with
      | None => None
      | Some b => Some (b_val b, b_mem b)
      end
    end
  | DUnion t a =>
    match build ub m a with
    | None => None
    | Some (w, m1) =>
      match new_union ub m1 t w with
      | None => None
      | Some b => Some (b_val b, b_mem b)
      end
    end
  end.
Proof.
  destruct d as [ds|t a]; [|reflexivity]. cbn [build].
  match goal with |- match ?f m ds with _ => _ end = _ =>
    assert (E: forall ds m, f m ds = build_list_with (build ub) m ds) end.
  { clear. induction ds as [|d ds IH]; intros m; cbn [build_list_with]; [reflexivity|].
    destruct (build ub m d) as [[w m1]|]; [|reflexivity]. rewrite IH. reflexivity. }
  rewrite E. reflexivity.
Qed.

Lemma build_den ub d : forall m, exists w m', build ub m d = Some (w, m') /\ extends m m' /\ den m' w d.
Proof.
  induction d as [ds IH | t a IH] using data_ind'; intros m; rewrite build_unfold.
  - assert (exists ws m1, build_list_with (build ub) m ds = Some (ws, m1) /\ extends m m1 /\
              Forall2 (den m1) ws ds) as (ws & m1 & E & Hx & HF).
    { revert m. induction IH as [|d ds Hd Hds IHds]; intros m; cbn [build_list_with].
      - exists [], m. split; [reflexivity|]. split; [apply extends_refl | constructor].
      - destruct (Hd m) as (w & m1 & E1 & X1 & D1). rewrite E1.
        destruct (IHds m1) as (ws & m2 & E2 & X2 & D2). rewrite E2.
        exists (w :: ws), m2. split; [reflexivity|]. split; [eapply extends_trans; eauto|].
        constructor; auto. eapply den_extends; eauto. }
    rewrite E. destruct (new_struct_den ub m1 ws ds HF) as (b & Eb & Xb & Db). rewrite Eb.
    eexists _, _. split; [reflexivity|]. split; [eapply extends_trans; eauto | exact Db].
  - destruct (IH m) as (w & m1 & E1 & X1 & D1). rewrite E1.
    destruct (new_union_den ub m1 t w a D1) as (b & Eb & Xb & Db). rewrite Eb.
    eexists _, _. split; [reflexivity|]. split; [eapply extends_trans; eauto | exact Db].
Qed.

Lemma access_den ub m p : forall w d d', den m w d -> subdata d p = Some d' ->
  exists w', access ub m w p = Some w' /\ den m w' d'.
Proof.
  induction p as [|[i|] p IH]; intros w d d' Hd Hs; cbn [subdata access] in *.
  - inversion Hs; subst. eauto.
  - destruct d as [ds|]; [|discriminate]. destruct (nth_error ds i) as [d1|] eqn:En; [|discriminate].
    destruct (den_struct_field ub m w ds i d1 Hd En) as (w1 & E & D1). rewrite E. eapply IH; eauto.
  - destruct d as [|t a]; [discriminate|].
    destruct (den_union_arg ub m w t a Hd) as (w1 & E & D1). rewrite E. eapply IH; eauto.
Qed.

Lemma den_packed_inv m w d : is_packed w = true -> den m w d -> packed_as w d.
Proof. intros H Hd. inversion Hd; subst; congruence. Qed.

(** ** Lists *)
Lemma same_value_trans a b c : same_value a b -> same_value b c -> same_value a c.
Proof.
  intros [<-|(d & Ha & Hb)]; [auto|]. intros [<-|(d' & Hb' & Hc)]; [right; eauto|].
  assert (d = d') by (eapply packed_as_inj; eauto). subst. right; eauto.
Qed.

(** [w], and any word that is the same value, reads as the list [vs]. *)
Definition listlike ub m w vs : Prop := valid_arg w /\
  forall m' w', extends m m' -> same_value w w' ->
    exists ws, list_of ub m' w' ws /\ Forall2 same_value vs ws.

Lemma listlike_nil ub m w d : den m w (DUnion 1 d) -> listlike ub m w [].
Proof.
  intros H. split; [eapply den_valid_arg; eauto|].
  intros m' w' Hx Hs. exists []. split; [|constructor]. apply lo_nil.
  destruct Hs as [<- | (d' & P & P')].
  - eapply den_union_tag. eapply den_extends; eauto.
  - assert (d' = DUnion 1 d).
    { eapply packed_as_inj; [exact P|]. eapply den_packed_inv; eauto.
      eapply packed_as_is_packed; eauto. }
    subst. eapply union_tag_packed; eauto.
Qed.

Lemma built_valid b d m o :
  packed_as (b_val b) d \/ (b_val b = addr_of (length m) /\ b_mem b = m ++ [o]) -> valid_arg (b_val b).
Proof. intros [H | (-> & _)]; [right; eauto | left; apply addr_of_not_packed]. Qed.

Lemma listlike_cons ub m w vs a : listlike ub m w vs -> valid_arg a ->
  exists c t, new_struct ub m [a; w] = Some c /\ new_union ub (b_mem c) 0 (b_val c) = Some t /\
    extends m (b_mem t) /\ listlike ub (b_mem t) (b_val t) (a :: vs).
Proof.
  intros [Hw Hmono] Ha.
  destruct (new_struct_spec ub m [a; w]) as (c & Ec & Hc); [constructor; auto|].
  assert (Xc: extends m (b_mem c)).
  { destruct Hc as [(? & _ & _ & ->) | (_ & ->)]; [apply extends_refl | eexists; reflexivity]. }
  assert (Vc: valid_arg (b_val c)).
  { destruct Hc as [(? & _ & Hp & _) | (-> & _)]; [right; eauto | left; apply addr_of_not_packed]. }
  destruct (new_union_spec ub (b_mem c) 0 (b_val c) Vc) as (t & Et & _ & Ht).
  assert (Xt: extends (b_mem c) (b_mem t)).
  { destruct Ht as [(? & _ & _ & ->) | (_ & ->)]; [apply extends_refl | eexists; reflexivity]. }
  assert (Vt: valid_arg (b_val t)).
  { destruct Ht as [(? & _ & Hp & _) | (-> & _)]; [right; eauto | left; apply addr_of_not_packed]. }
  exists c, t. split; [exact Ec|]. split; [exact Et|].
  assert (Xmt: extends m (b_mem t)) by (eapply extends_trans; eauto).
  split; [exact Xmt|]. split; [exact Vt|].
  intros m' w' Hx Hs.
  assert (Xm': extends m m') by (eapply extends_trans; eauto).
  destruct Ht as [(dc & Pc & Pt & Mt) | (Vt' & Mt)].
  - (* everything packed *)
    destruct Hc as [(ds & H2 & Pc' & Mc) | (Vc' & Mc)].
    2:{ apply packed_as_is_packed in Pc. rewrite Vc', addr_of_not_packed in Pc. discriminate. }
    inversion H2 as [|? da ? ? Pa H2']; subst. inversion H2' as [|? dw ? ? Pw H2'']; subst.
    inversion H2''; subst.
    assert (dc = DStruct [da; dw]) by (eapply packed_as_inj; eauto). subst dc.
    assert (Pw': packed_as w' (DUnion 0 (DStruct [da; dw]))).
    { destruct Hs as [<- | (d & P1 & P2)]; [exact Pt|].
      rewrite (packed_as_inj _ _ _ P1 Pt) in P2. exact P2. }
    destruct (union_arg_packed ub m' w' _ _ Pw') as (c2 & Ec2 & Pc2).
    destruct (struct_field_packed ub m' c2 _ 0 da Pc2) as (wa & Ewa & Pwa); [reflexivity|].
    destruct (struct_field_packed ub m' c2 _ 1 dw Pc2) as (wt & Ewt & Pwt); [reflexivity|].
    destruct (Hmono m' wt Xm') as (ws & Lo & F); [right; eauto|].
    exists (wa :: ws). split; [|constructor; [right; eauto | exact F]].
    eapply lo_cons; eauto. eapply union_tag_packed; eauto.
  - assert (Pt: is_packed (b_val t) = false) by (rewrite Vt'; apply addr_of_not_packed).
    destruct Hs as [<- | (d & P1 & _)]; [|apply packed_as_is_packed in P1; congruence].
    assert (Lt: lookup m' (b_val t) = Some (OUnion 0 (b_val c))).
    { destruct Hx as [x ->]. apply lookup_app. rewrite Mt, Vt', lookup_addr_of, nth_error_app2 by lia.
      rewrite Nat.sub_diag. reflexivity. }
    destruct (lookup_strict _ _ _ Lt) as [Hst Hz]; [discriminate|].
    assert (Tag: union_tag m' (b_val t) = Some (Some 0%nat)).
    { unfold union_tag. rewrite Hst, Hz, Pt, Lt. reflexivity. }
    assert (Arg: union_arg ub m' (b_val t) = Some (b_val c)).
    { unfold union_arg. rewrite Hst, Hz, Pt, Lt. reflexivity. }
    destruct Hc as [(ds & H2 & Pc' & Mc) | (Vc' & Mc)].
    + inversion H2 as [|? da ? ? Pa H2']; subst. inversion H2' as [|? dw ? ? Pw H2'']; subst.
      inversion H2''; subst.
      destruct (struct_field_packed ub m' (b_val c) _ 0 da Pc') as (wa & Ewa & Pwa); [reflexivity|].
      destruct (struct_field_packed ub m' (b_val c) _ 1 dw Pc') as (wt & Ewt & Pwt); [reflexivity|].
      destruct (Hmono m' wt Xm') as (ws & Lo & F); [right; eauto|].
      exists (wa :: ws). split; [|constructor; [right; eauto | exact F]].
      eapply lo_cons; eauto.
    + assert (Lc: lookup m' (b_val c) = Some (OStruct [a; w])).
      { destruct Hx as [x ->]. apply lookup_app. destruct Xt as [y ->]. apply lookup_app.
        rewrite Mc, Vc', lookup_addr_of, nth_error_app2 by lia.
        rewrite Nat.sub_diag. reflexivity. }
      assert (Pc: is_packed (b_val c) = false) by (rewrite Vc'; apply addr_of_not_packed).
      destruct (lookup_strict _ _ _ Lc) as [Hs' Hz']; [discriminate|].
      destruct (Hmono m' w Xm') as (ws & Lo & F); [left; reflexivity|].
      exists (a :: ws). split; [|constructor; [left; reflexivity | exact F]].
      eapply lo_cons; eauto;
        unfold struct_field; rewrite Hs', Hz', Pc, Lc; reflexivity.
Qed.

Lemma new_list_listlike ub m args : Forall valid_arg args ->
  exists w m', new_list ub m args = Some (w, m') /\ extends m m' /\ listlike ub m' w args.
Proof.
  intros Hok. unfold new_list.
  destruct (new_struct_den ub m [] [] (Forall2_nil _)) as (u & Eu & Xu & Du). rewrite Eu.
  destruct (new_union_den ub (b_mem u) 1 _ _ Du) as (t & Et & Xt & Dt). rewrite Et.
  assert (Hok': Forall valid_arg (rev args)) by (apply Forall_rev; auto).
  assert (L: forall rargs m w vs, Forall valid_arg rargs -> listlike ub m w vs ->
     exists w' m', list_loop ub m rargs w = Some (w', m') /\ extends m m' /\
       listlike ub m' w' (rev rargs ++ vs)).
  { clear. induction rargs as [|a rest IH]; intros m w vs Hok HG; cbn [list_loop].
    - exists w, m. split; [reflexivity|]. split; [apply extends_refl|]. exact HG.
    - inversion Hok as [|? ? Ha Hrest]; subst.
      destruct (listlike_cons ub m w vs a HG Ha) as (c & t & Ec & Et & X & HG').
      rewrite Ec, Et.
      destruct (IH _ _ _ Hrest HG') as (w' & m' & E' & X' & L').
      exists w', m'. split; [exact E'|]. split; [eapply extends_trans; eauto|].
      cbn [rev]. rewrite <- app_assoc. exact L'. }
  destruct (L (rev args) _ _ [] Hok' (listlike_nil ub _ _ _ Dt)) as (w & m' & E & X & Lo).
  exists w, m'. split; [exact E|]. split.
  { eapply extends_trans; [exact Xu|]. eapply extends_trans; [exact Xt|exact X]. }
  rewrite app_nil_r, rev_involutive in Lo. exact Lo.
Qed.

Lemma new_literal_den ub m letters :
  exists w m', new_literal ub m letters = Some (w, m') /\ extends m m' /\
    den m' w (data_list (map (fun l => DUnion l (DStruct [])) letters)).
Proof.
  unfold new_literal.
  destruct (new_struct_den ub m [] [] (Forall2_nil _)) as (u & Eu & Xu & Du). rewrite Eu.
  destruct (new_union_den ub (b_mem u) 1 _ _ Du) as (t & Et & Xt & Dt). rewrite Et.
  assert (L: forall rl m w d, den m (b_val u) (DStruct []) -> den m w d ->
     exists w' m', literal_loop ub m rl (b_val u) w = Some (w', m') /\ extends m m' /\
       den m' w' (fold_left (fun d l => DUnion 0 (DStruct [DUnion l (DStruct []); d])) rl d)).
  { clear. induction rl as [|l rest IH]; intros m w d Hu Hd; cbn [literal_loop fold_left].
    - exists w, m. split; [reflexivity|]. split; [apply extends_refl|]. exact Hd.
    - destruct (new_union_den ub m l _ _ Hu) as (a & Ea & Xa & Da). rewrite Ea.
      destruct (new_struct_den ub (b_mem a) [b_val a; w] [DUnion l (DStruct []); d]) as (c & Ec & Xc & Dc).
      { constructor; [exact Da|]. constructor; [eapply den_extends; eauto | constructor]. }
      rewrite Ec.
      destruct (new_union_den ub (b_mem c) 0 _ _ Dc) as (t & Et & Xt & Dt). rewrite Et.
      assert (X: extends m (b_mem t)) by (eapply extends_trans; [|eapply extends_trans]; eauto).
      destruct (IH (b_mem t) (b_val t) _ ltac:(eapply den_extends; [exact X | exact Hu]) Dt)
        as (w' & m' & E' & X' & D').
      exists w', m'. split; [exact E'|]. split; [eapply extends_trans; eauto | exact D']. }
  destruct (L (rev letters) (b_mem t) (b_val t) _ ltac:(eapply den_extends; [exact Xt | exact Du]) Dt)
    as (w & m' & E & X & D).
  exists w, m'. split; [exact E|]. split.
  { eapply extends_trans; [exact Xu|]. eapply extends_trans; [exact Xt|exact X]. }
  rewrite fold_left_rev_right in D || (rewrite <- fold_left_rev_right, rev_involutive in D).
  clear - D. unfold data_list.
  replace (fold_right (fun d t => DUnion 0 (DStruct [d; t])) (DUnion 1 (DStruct []))
            (map (fun l => DUnion l (DStruct [])) letters))
    with (fold_right (fun l d => DUnion 0 (DStruct [DUnion l (DStruct []); d])) (DUnion 1 (DStruct [])) letters);
    [exact D|].
  clear D. induction letters; simpl; congruence.
Qed.
