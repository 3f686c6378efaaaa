(** * C39: command lines are read exactly. *)
From Coq Require Import ZArith String List Bool Lia Arith.
From Verif Require Import PathModel PathProps ArgModel.
Import ListNotations.
Local Open Scope list_scope.

(** ** The specification: command lines as sequences of options *)

(** An option as a user writes it. *)
Inductive item :=
| Flag (name : str)
| Value (name v : str)
| Dir (d : str)                     (** -I d *)
| Dir_joined (d : str)              (** -Id *)
| Package (name p : str)            (** --package p, -p p *)
| Module (name m : str).            (** --module m, -m m *)

Definition words (i : item) : list str :=
  match i with
  | Flag n => [n]
  | Value n v => [n; v]
  | Dir d => [text "-I"; d]
  | Dir_joined d => [text "-I" ++ d]
  | Package n p => [n; p]
  | Module n m => [n; m]
  end.

Definition package_option (n : str) : Prop := n = text "--package" \/ n = text "-p".
Definition module_option (n : str) : Prop := n = text "--module" \/ n = text "-m".

Section spec.
  Variable find_package : str -> option str.
  Variable parse_path : str -> option path.
  Variable es : list entry.

  (** The program has this option (an -I without a directory is not a joined one). *)
  Definition offered (i : item) : Prop :=
    match i with
    | Flag n => exists id, In (EBool n id) es
    | Value n _ => exists id, In (EString n id) es
    | Dir _ => In EModule es
    | Dir_joined d => In EModule es /\ d <> []
    | Package n _ => In EModule es /\ package_option n
    | Module n _ => In EModule es /\ module_option n
    end.

  (** What a list of options sets. *)
  Definition sets_flag (i : item) (id : nat) : Prop := match i with Flag n => In (EBool n id) es | _ => False end.
  Definition sets_string (i : item) (id : nat) (v : str) : Prop := match i with Value n w => In (EString n id) es /\ w = v | _ => False end.
  Definition dir_of (i : item) : list str :=
    match i with
    | Dir d | Dir_joined d => [d]
    | Package _ p => match find_package p with Some d => [d] | None => [] end
    | _ => []
    end.
  Definition module_of (i : item) : list path :=
    match i with Module _ m => match parse_path m with Some p => [p] | None => [] end | _ => [] end.

  (** The options [before] allow the option [i] to follow: a string option and the module
      are given only once, packages exist, module paths can be read. *)
  Definition allowed (before : list item) (i : item) : Prop :=
    match i with
    | Value n _ => forall id, In (EString n id) es -> forall j v, In j before -> ~ sets_string j id v
    | Package _ p => find_package p <> None
    | Module _ m => (forall j, In j before -> module_of j = []) /\ parse_path m <> None
    | _ => True
    end.
  Definition stops (i : item) : Prop := exists id, id < 2 /\ sets_flag i id.

  (** A list of options that are all read. *)
  Definition legal (is : list item) : Prop :=
    forall a i b, is = a ++ i :: b -> offered i /\ allowed a i /\ (stops i -> b = []).

  (** The program has an option of this name. *)
  Definition option_word (w : str) : Prop :=
    (exists id, In (EBool w id) es) \/ (exists id, In (EString w id) es) \/
    (In EModule es /\ (package_option w \/ module_option w \/ exists d, w = text "-I" ++ d)).
  Definition takes_value (w : str) : Prop :=
    (exists id, In (EString w id) es) \/ (In EModule es /\ (w = text "-I" \/ package_option w \/ module_option w)).

  Definition running (is : list item) : Prop := forall i, In i is -> ~ stops i.

  (** How reading ends, when the options [is] were read and [rest] is left. *)
  Inductive ending (is : list item) : list str -> bool -> list str -> Prop :=
  | end_stop : forall i is' rest, is = is' ++ [i] -> stops i -> ending is rest false rest
  | end_all : running is -> ending is [] false []
  | end_options : forall w rest, running is -> In EEnd es -> ~ option_word w -> w <> text "--" -> ending is (w :: rest) false (w :: rest)
  | end_dashes : forall rest, running is -> In EEnd es -> ~ option_word (text "--") -> ending is (text "--" :: rest) false rest
  | bad_missing : forall w, running is -> takes_value w -> ending is [w] true [w]
  | bad_invalid : forall w rest, running is -> In EInvalid es -> ~ option_word w -> ending is (w :: rest) true (w :: rest)
  | bad_twice : forall n v rest, running is -> offered (Value n v) -> ~ allowed is (Value n v) -> ending is (n :: v :: rest) true (n :: v :: rest)
  | bad_item : forall i rest, running is -> match i with Package _ _ | Module _ _ => True | _ => False end ->
      offered i -> ~ allowed is i -> ending is (words i ++ rest) true rest.

  (** What was read. *)
  Record shows (is : list item) (s : state) : Prop := mk_shows {
    sh_flags : forall id, In id (s_flags s) <-> exists i, In i is /\ sets_flag i id;
    sh_strings : forall id v, In (id, v) (s_strings s) <-> exists i, In i is /\ sets_string i id v;
    sh_search : ma_search (s_module s) = flat_map dir_of is;
    sh_module : ma_module (s_module s) = hd_error (flat_map module_of is) }.

  (** Option tables: the names are text, are not those of other options, and the last line
      is for what is not an option. *)
  Definition name_of (e : entry) : list str := match e with EBool n _ | EString n _ => [n] | _ => [] end.
  Record table := mk_table {
    t_front : list entry; t_last : entry;
    t_es : es = t_front ++ [t_last];
    t_lastok : t_last = EInvalid \/ t_last = EEnd;
    t_kinds : forall e, In e t_front -> match e with EBool _ _ | EString _ _ | EModule => True | _ => False end;
    t_names : NoDup (flat_map name_of t_front);
    t_text : forall n, In n (flat_map name_of t_front) -> text_ok n;
    t_module : In EModule t_front -> forall n, In n (flat_map name_of t_front) ->
      ~ package_option n /\ ~ module_option n /\ ~ exists d, n = text "-I" ++ d;
    t_once : forall a b, t_front = a ++ EModule :: b -> ~ In EModule a }.

  (** ** Proofs *)
  Variable T : table.
  Notation do_entry := (do_entry find_package parse_path).
  Notation body := (body find_package parse_path).
  Notation run := (run find_package parse_path).

  Lemma same_eq a b : text_ok a -> text_ok b -> same a b = true <-> a = b.
  Proof. intros A B. unfold same. rewrite Z.eqb_eq. apply strcmp_eq; auto. Qed.
  Lemma same_refl a : text_ok a -> same a a = true.
  Proof. intros A. apply same_eq; auto. Qed.
  Lemma same_ne a b : text_ok a -> text_ok b -> a <> b -> same a b = false.
  Proof. intros A B N. destruct (same a b) eqn:E; auto. apply same_eq in E; auto. contradiction. Qed.

  Lemma after_I_spec w d : after_I w = Some d <-> w = text "-I" ++ d.
  Proof.
    split.
    - destruct w as [|c [|c' r]]; cbn; try discriminate. destruct (Z.eqb_spec c 45), (Z.eqb_spec c' 73); cbn; try discriminate. intros E. injection E as <-. subst. reflexivity.
    - intros ->. reflexivity.
  Qed.

  Definition module_word (w : str) : Prop := package_option w \/ module_option w \/ exists d, w = text "-I" ++ d.
  Definition hits (e : entry) (w : str) : Prop :=
    match e with EBool n _ | EString n _ | EAppend n _ => n = w | EModule => module_word w | _ => True end.
  Definition entry_text (e : entry) : Prop := match e with EBool n _ | EString n _ | EAppend n _ => text_ok n | _ => True end.

  Lemma text_lit : text_ok (text "-I") /\ text_ok (text "--package") /\ text_ok (text "-p") /\ text_ok (text "--module") /\ text_ok (text "-m") /\ text_ok (text "--").
  Proof. repeat split; repeat constructor; vm_compute; auto. Qed.

  Lemma or_else_pass name f d a w r err k : (f = parse_package find_package name \/ f = parse_module parse_path name) -> a = w :: r -> same name w = false ->
    or_else (f d a err) k = k d a err.
  Proof. intros [->| ->] -> S; unfold parse_package, parse_module, parse_string; rewrite S; reflexivity. Qed.

  Lemma pass e s w r : s_argv s = w :: r -> text_ok w -> entry_text e -> ~ hits e w -> do_entry e s = Some (false, s).
  Proof.
    intros E Tw Te N. destruct s as [av fl st m er en]. cbn in E. subst av. destruct e; cbn [hits entry_text] in *; cbn [do_entry s_argv s_flags s_strings s_module s_error s_end].
    - unfold parse_bool. rewrite same_ne by auto. reflexivity.
    - unfold parse_string. rewrite same_ne by auto. destruct (lookup id st); reflexivity.
    - unfold parse_string. rewrite same_ne by auto. reflexivity.
    - destruct text_lit as [T1 [T2 [T3 [T4 [T5 _]]]]]. unfold parse_module_arg.
      assert (N1 : w <> text "-I") by (intros ->; apply N; right; right; exists []; rewrite app_nil_r; auto).
      rewrite same_ne by auto. destruct (after_I w) as [d|] eqn:A; [exfalso; apply N; right; right; exists d; apply after_I_spec; auto|].
      rewrite (or_else_pass (text "--package") (parse_package find_package (text "--package")) m (w :: r) w r er) by (auto; apply same_ne; auto; intros <-; apply N; left; left; auto).
      rewrite (or_else_pass (text "-p") (parse_package find_package (text "-p")) m (w :: r) w r er) by (auto; apply same_ne; auto; intros <-; apply N; left; right; auto).
      rewrite (or_else_pass (text "--module") (parse_module parse_path (text "--module")) m (w :: r) w r er) by (auto; apply same_ne; auto; intros <-; apply N; right; left; left; auto).
      rewrite (or_else_pass (text "-m") (parse_module parse_path (text "-m")) m (w :: r) w r er) by (auto; apply same_ne; auto; intros <-; apply N; right; left; right; auto).
      reflexivity.
    - exfalso; auto.
    - exfalso; auto.
  Qed.

  Lemma body_at a e b s w r : s_argv s = w :: r -> text_ok w -> (forall x, In x a -> entry_text x /\ ~ hits x w) ->
    body (a ++ e :: b) s = match do_entry e s with None => None | Some (true, s') => Some s' | Some (false, s') => body b s' end.
  Proof.
    intros E Tw. induction a as [|x a IH]; intros H; cbn [app ArgModel.body]; auto.
    destruct (H x (or_introl eq_refl)) as [Hx Nx]. rewrite (pass x s w r) by auto. apply IH. intros y Hy. apply H. right. auto.
  Qed.

  Lemma front_text e : In e (t_front T) -> entry_text e.
  Proof.
    intros I. pose proof (t_kinds T e I) as K. pose proof (t_text T) as Tx. destruct e; cbn in *; auto; try tauto; apply Tx; apply in_flat_map; eexists; (split; [exact I|left; auto]).
  Qed.

  Lemma NoDup_app_not {A} (a b : list A) x : NoDup (a ++ b) -> In x a -> In x b -> False.
  Proof. induction a as [|y a IH]; cbn; intros N I J; [auto|]. inversion N as [|? ? N1 N2]; subst. destruct I as [->|I]; auto. apply N1. apply in_or_app. auto. Qed.

  (** The line of an option is reached. *)
  Lemma reached e w s r s' : In e (t_front T) -> hits e w -> text_ok w -> s_argv s = w :: r ->
    do_entry e s = Some (true, s') -> body es s = Some s'.
  Proof.
    intros I H Tw E D. apply in_split in I. destruct I as [a [b F]].
    rewrite (t_es T), F, <- app_assoc. cbn [app]. rewrite (body_at a e (b ++ [t_last T]) s w r); auto; [rewrite D; reflexivity|].
    intros x Ix. assert (Fx : In x (t_front T)) by (rewrite F; apply in_or_app; auto).
    assert (Fe : In e (t_front T)) by (rewrite F; apply in_or_app; right; left; auto).
    split; [apply front_text; auto|]. intros Hx.
    pose proof (t_kinds T x Fx) as Kx. pose proof (t_kinds T e Fe) as Ke.
    assert (Nm : forall n, name_of x = [n] -> In n (flat_map name_of (t_front T))) by (intros n Q; apply in_flat_map; exists x; split; auto; rewrite Q; left; auto).
    assert (Ne : forall n, name_of e = [n] -> In n (flat_map name_of (t_front T))) by (intros n Q; apply in_flat_map; exists e; split; auto; rewrite Q; left; auto).
    assert (ND : forall n, name_of x = [n] -> name_of e = [n] -> False).
    { intros n Q1 Q2. pose proof (t_names T) as N. rewrite F, flat_map_app in N. apply (NoDup_app_not _ _ n N).
      - apply in_flat_map. exists x. split; auto. rewrite Q1. left. auto.
      - apply in_flat_map. exists e. split; [left; auto|]. rewrite Q2. left. auto. }
    assert (MW : In EModule (t_front T) -> forall n, In n (flat_map name_of (t_front T)) -> module_word n -> False).
    { intros IM n In_ M. destruct (t_module T IM n In_) as [M1 [M2 M3]]. unfold module_word in M. tauto. }
    destruct x as [nx ix|nx ix| | | |], e as [ne ie|ne ie| | | |]; cbn [hits name_of] in *; try tauto; subst; eauto.
    apply (t_once T a b F Ix).
  Qed.

  Lemma fell w s r : ~ option_word w -> text_ok w -> s_argv s = w :: r -> body es s = match do_entry (t_last T) s with None => None | Some (_, s') => Some s' end.
  Proof.
    intros N Tw E. rewrite (t_es T) at 1. rewrite (body_at (t_front T) (t_last T) [] s w r); auto.
    - destruct (do_entry (t_last T) s) as [[[] s']|]; reflexivity.
    - intros x Ix. split; [apply front_text; auto|]. intros H. apply N. unfold option_word. rewrite (t_es T).
      pose proof (t_kinds T x Ix) as K. destruct x; cbn [hits] in *; try tauto; subst.
      + left. exists id. apply in_or_app. auto.
      + right. left. exists id. apply in_or_app. auto.
      + right. right. split; [apply in_or_app; auto|exact H].
  Qed.

  Lemma in_front e : In e es -> match e with EInvalid | EEnd => False | _ => True end -> In e (t_front T).
  Proof.
    intros I K. rewrite (t_es T) in I. apply in_app_or in I. destruct I as [I|[<-|[]]]; auto. destruct (t_lastok T) as [Q | Q]; rewrite Q in K; destruct K.
  Qed.

  (** Ids of names are unique. *)
  Lemma flag_id n i j : In (EBool n i) es -> In (EBool n j) es -> i = j.
  Proof.
    intros A B. apply in_front in A; [|exact I]. apply in_front in B; [|exact I]. pose proof (t_names T) as N.
    apply in_split in A. destruct A as [a [b F]]. rewrite F in B, N. rewrite flat_map_app in N. cbn in N.
    apply NoDup_remove_2 in N. apply in_app_or in B. destruct B as [B|[B|B]].
    - exfalso. apply N. apply in_or_app. left. apply in_flat_map. eexists. split; [exact B|left; auto].
    - congruence.
    - exfalso. apply N. apply in_or_app. right. apply in_flat_map. eexists. split; [exact B|left; auto].
  Qed.
  Lemma string_id n i j : In (EString n i) es -> In (EString n j) es -> i = j.
  Proof.
    intros A B. apply in_front in A; [|exact I]. apply in_front in B; [|exact I]. pose proof (t_names T) as N.
    apply in_split in A. destruct A as [a [b F]]. rewrite F in B, N. rewrite flat_map_app in N. cbn in N.
    apply NoDup_remove_2 in N. apply in_app_or in B. destruct B as [B|[B|B]].
    - exfalso. apply N. apply in_or_app. left. apply in_flat_map. eexists. split; [exact B|left; auto].
    - congruence.
    - exfalso. apply N. apply in_or_app. right. apply in_flat_map. eexists. split; [exact B|left; auto].
  Qed.

  Lemma lookup_none id l : lookup id l = None <-> forall v, ~ In (id, v) l.
  Proof.
    unfold lookup. destruct (find (fun e => fst e =? id) l) as [[j v]|] eqn:F.
    - apply find_some in F. destruct F as [I E]. cbn in E. apply Nat.eqb_eq in E. subst j. split; [discriminate|]. intros H. exfalso. apply (H v I).
    - split; auto. intros _ v I. pose proof (find_none _ _ F _ I) as X. cbn in X. rewrite Nat.eqb_refl in X. discriminate.
  Qed.

  (** The module options. *)
  Lemma package_step n p m r err : package_option n -> text_ok n ->
    parse_module_arg find_package parse_path m (n :: p :: r) err =
    if err then Some (true, m, r, err) else
    match find_package p with
    | Some d => Some (true, mk_ma (ma_search m ++ [d]) (ma_module m), r, err)
    | None => Some (true, m, r, true)
    end.
  Proof.
    intros O Tn. destruct text_lit as [T1 [T2 [T3 [T4 [T5 _]]]]]. destruct O as [-> | ->]; unfold parse_module_arg.
    - change (same (text "-I") (text "--package")) with false. change (after_I (text "--package")) with (@None str). cbv iota.
      unfold parse_package at 1. unfold parse_string at 1. change (same (text "--package") (text "--package")) with true. cbv iota.
      destruct err; [reflexivity|]. destruct (find_package p); reflexivity.
    - change (same (text "-I") (text "-p")) with false. change (after_I (text "-p")) with (@None str). cbv iota.
      unfold parse_package at 1. unfold parse_string at 1. change (same (text "--package") (text "-p")) with false. cbv iota. cbn [or_else].
      unfold parse_package at 1. unfold parse_string at 1. change (same (text "-p") (text "-p")) with true. cbv iota.
      destruct err; [reflexivity|]. destruct (find_package p); reflexivity.
  Qed.
  Lemma module_step n p m r err : module_option n -> text_ok n ->
    parse_module_arg find_package parse_path m (n :: p :: r) err =
    if err then Some (true, m, r, err) else
    match ma_module m with
    | Some _ => Some (true, m, r, true)
    | None =>
      match parse_path p with
      | Some d => Some (true, mk_ma (ma_search m) (Some d), r, err)
      | None => Some (true, m, r, true)
      end
    end.
  Proof.
    intros O Tn. destruct text_lit as [T1 [T2 [T3 [T4 [T5 _]]]]]. destruct O as [-> | ->]; unfold parse_module_arg.
    - change (same (text "-I") (text "--module")) with false. change (after_I (text "--module")) with (@None str). cbv iota.
      unfold parse_package at 1. unfold parse_string at 1. change (same (text "--package") (text "--module")) with false. cbv iota. cbn [or_else].
      unfold parse_package at 1. unfold parse_string at 1. change (same (text "-p") (text "--module")) with false. cbv iota. cbn [or_else].
      unfold parse_module at 1. unfold parse_string at 1. change (same (text "--module") (text "--module")) with true. cbv iota.
      destruct err; [reflexivity|]. destruct (ma_module m); [reflexivity|]. destruct (parse_path p); reflexivity.
    - change (same (text "-I") (text "-m")) with false. change (after_I (text "-m")) with (@None str). cbv iota.
      unfold parse_package at 1. unfold parse_string at 1. change (same (text "--package") (text "-m")) with false. cbv iota. cbn [or_else].
      unfold parse_package at 1. unfold parse_string at 1. change (same (text "-p") (text "-m")) with false. cbv iota. cbn [or_else].
      unfold parse_module at 1. unfold parse_string at 1. change (same (text "--module") (text "-m")) with false. cbv iota. cbn [or_else].
      unfold parse_module at 1. unfold parse_string at 1. change (same (text "-m") (text "-m")) with true. cbv iota.
      destruct err; [reflexivity|]. destruct (ma_module m); [reflexivity|]. destruct (parse_path p); reflexivity.
  Qed.
  Lemma missing_step w m err : (w = text "-I" \/ package_option w \/ module_option w) -> parse_module_arg find_package parse_path m [w] err = Some (true, m, [w], true).
  Proof. intros [-> | [[-> | ->] | [-> | ->]]]; reflexivity. Qed.

  (** ** Steps *)

  Lemma flat_snoc {A B} (f : A -> list B) l x : flat_map f (l ++ [x]) = flat_map f l ++ f x.
  Proof. rewrite flat_map_app. cbn. rewrite app_nil_r. reflexivity. Qed.

  Lemma item_step is i s rest : offered i -> allowed is i -> shows is s -> s_error s = false -> s_argv s = words i ++ rest ->
    Forall text_ok (words i ++ rest) ->
    exists s', body es s = Some s' /\ shows (is ++ [i]) s' /\ s_error s' = false /\ s_end s' = s_end s /\ s_argv s' = rest.
  Proof.
    intros O A Sh Er E Tx. destruct s as [av fl st [sp mp] er en]. cbn in Er, E. subst er av.
    assert (Snoc : forall P : item -> Prop, (exists j, In j (is ++ [i]) /\ P j) <-> (exists j, In j is /\ P j) \/ P i).
    { intros P. split.
      - intros [j [J Pj]]. apply in_app_or in J. destruct J as [J|[<-|[]]]; eauto.
      - intros [[j [J Pj]]|Pi]; [exists j|exists i]; (split; auto; apply in_or_app; auto). right. left. auto. }
    destruct Sh as [S1 S2 S3 S4]. cbn [s_flags s_strings s_module ma_search ma_module] in S1, S2, S3, S4.
    destruct i as [n|n v|d|d|n p|n m]; cbn [words app] in *; pose proof (Forall_inv Tx) as Tw.
    - destruct O as [id O]. eexists. split; [|split; [|split; [|split]]].
      + apply (reached (EBool n id) n _ rest); [apply in_front; [exact O|exact I]|reflexivity|auto|reflexivity|].
        cbn [ArgModel.do_entry s_argv]. unfold parse_bool. rewrite same_refl by auto. reflexivity.
      + constructor; cbn [s_flags s_strings s_module ma_search ma_module].
        * intros k. rewrite Snoc. cbn [sets_flag In]. rewrite S1. split; [intros [<-|H]; auto|intros [H|H]; [auto|]].
          left. apply (flag_id n); auto.
        * intros k v. rewrite Snoc, S2. cbn. tauto.
        * rewrite flat_snoc. cbn. rewrite app_nil_r. auto.
        * rewrite flat_snoc. cbn. rewrite app_nil_r. auto.
      + reflexivity.
      + reflexivity.
      + reflexivity.
    - destruct O as [id O]. cbn [allowed] in A.
      assert (L : lookup id st = None).
      { apply lookup_none. intros w I. apply S2 in I. destruct I as [j [J Sj]]. apply (A id O j w J Sj). }
      eexists. split; [|split; [|split; [|split]]].
      + apply (reached (EString n id) n _ (v :: rest)); [apply in_front; [exact O|exact I]|reflexivity|auto|reflexivity|].
        cbn [ArgModel.do_entry s_argv s_strings]. unfold parse_string. rewrite same_refl by auto. rewrite L. reflexivity.
      + constructor; cbn [s_flags s_strings s_module ma_search ma_module].
        * intros k. rewrite Snoc, S1. cbn. tauto.
        * intros k w. rewrite Snoc. cbn [sets_string In]. rewrite S2. split.
          -- intros [H|H]; auto. injection H as <- <-. auto.
          -- intros [H|[H <-]]; auto. left. f_equal. apply (string_id n); auto.
        * rewrite flat_snoc. cbn. rewrite app_nil_r. auto.
        * rewrite flat_snoc. cbn. rewrite app_nil_r. auto.
      + reflexivity.
      + reflexivity.
      + reflexivity.
    - eexists. split; [|split; [|split; [|split]]].
      + apply (reached EModule (text "-I") _ (d :: rest)); [apply in_front; [exact O|exact I]|right; right; exists []; reflexivity|auto|reflexivity|reflexivity].
      + constructor; cbn [s_flags s_strings s_module ma_search ma_module].
        * intros k. rewrite Snoc, S1. cbn. tauto.
        * intros k w. rewrite Snoc, S2. cbn. tauto.
        * rewrite flat_snoc, S3. reflexivity.
        * rewrite flat_snoc. cbn. rewrite app_nil_r. auto.
      + reflexivity.
      + reflexivity.
      + reflexivity.
    - destruct O as [O Nd]. destruct d as [|c d]; [congruence|]. eexists. split; [|split; [|split; [|split]]].
      + apply (reached EModule (text "-I" ++ c :: d) _ rest); [apply in_front; [exact O|exact I]|right; right; exists (c :: d); reflexivity|auto|reflexivity|].
        cbn [ArgModel.do_entry s_argv s_module s_error]. unfold parse_module_arg.
        rewrite same_ne; auto; [|apply text_lit|discriminate].
        assert (X : after_I (text "-I" ++ c :: d) = Some (c :: d)) by (apply after_I_spec; auto).
        rewrite X. reflexivity.
      + constructor; cbn [s_flags s_strings s_module ma_search ma_module].
        * intros k. rewrite Snoc, S1. cbn. tauto.
        * intros k w. rewrite Snoc, S2. cbn. tauto.
        * rewrite flat_snoc, S3. reflexivity.
        * rewrite flat_snoc. cbn. rewrite app_nil_r. auto.
      + reflexivity.
      + reflexivity.
      + reflexivity.
    - destruct O as [O Op]. cbn [allowed] in A. destruct (find_package p) as [d|] eqn:Fp; [|congruence].
      eexists. split; [|split; [|split; [|split]]].
      + apply (reached EModule n _ (p :: rest)); [apply in_front; [exact O|exact I]|left; auto|auto|reflexivity|].
        cbn [ArgModel.do_entry s_argv s_module s_error]. rewrite package_step by auto. rewrite Fp. reflexivity.
      + constructor; cbn [s_flags s_strings s_module ma_search ma_module].
        * intros k. rewrite Snoc, S1. cbn. tauto.
        * intros k w. rewrite Snoc, S2. cbn. tauto.
        * rewrite flat_snoc, S3. cbn. rewrite Fp. reflexivity.
        * rewrite flat_snoc. cbn. rewrite app_nil_r. auto.
      + reflexivity.
      + reflexivity.
      + reflexivity.
    - destruct O as [O Op]. cbn [allowed] in A. destruct A as [A Pm]. destruct (parse_path m) as [d|] eqn:Fp; [|congruence].
      assert (M0 : flat_map module_of is = []).
      { clear -A. induction is as [|j is IH]; auto. cbn. rewrite (A j (or_introl eq_refl)). apply IH. intros x Hx. apply A. right. auto. }
      rewrite M0 in S4. cbn in S4. subst mp.
      eexists. split; [|split; [|split; [|split]]].
      + apply (reached EModule n _ (m :: rest)); [apply in_front; [exact O|exact I]|right; left; auto|auto|reflexivity|].
        cbn [ArgModel.do_entry s_argv s_module s_error]. rewrite module_step by auto. cbn [ma_module]. rewrite Fp. reflexivity.
      + constructor; cbn [s_flags s_strings s_module ma_search ma_module].
        * intros k. rewrite Snoc, S1. cbn. tauto.
        * intros k w. rewrite Snoc, S2. cbn. tauto.
        * rewrite flat_snoc, S3. cbn. rewrite app_nil_r. reflexivity.
        * rewrite flat_snoc, M0. cbn. rewrite Fp. reflexivity.
      + reflexivity.
      + reflexivity.
      + reflexivity.
  Qed.

  Lemma stop_flag_spec is s : shows is s -> stop_flag s = true <-> exists i, In i is /\ stops i.
  Proof.
    intros [S1 _ _ _]. unfold stop_flag. rewrite existsb_exists. split.
    - intros [id [I L]]. apply Nat.ltb_lt in L. apply S1 in I. destruct I as [i [J Si]]. exists i. split; auto. exists id. auto.
    - intros [i [J [id [L Si]]]]. exists id. split; [apply S1; eauto|apply Nat.ltb_lt; auto].
  Qed.

  Lemma shows_same is s av er en : shows is s -> shows is (mk_state av (s_flags s) (s_strings s) (s_module s) er en).
  Proof. intros [S1 S2 S3 S4]. constructor; auto. Qed.

  Lemma not_module_word w : In EModule es -> ~ option_word w -> ~ module_word w.
  Proof. intros I N M. apply N. right. right. auto. Qed.

  Lemma ending_step is s rest err left : ending is rest err left -> running is -> rest <> [] -> shows is s -> s_error s = false -> s_argv s = rest -> Forall text_ok rest ->
    exists s', body es s = Some s' /\ shows is s' /\ s_error s' = err /\ s_argv s' = left /\ (err = true \/ s_end s' = true).
  Proof.
    intros En Ru Ne Sh Er E Tx. destruct En as [i is' rest Ei St|_|w rest _ Ie Nw Nd|rest _ Ie Nw|w _ Tv|w rest _ Ii Nw|n v rest _ O NA|i rest _ K O NA].
    - exfalso. apply (Ru i); auto. rewrite Ei. apply in_or_app. right. left. auto.
    - congruence.
    - pose proof (Forall_inv Tx) as Tw. assert (L : t_last T = EEnd).
      { rewrite (t_es T) in Ie. apply in_app_or in Ie. destruct Ie as [Ie|[Ie|[]]]; auto. destruct (t_kinds T _ Ie). }
      rewrite (fell w s rest Nw Tw E), L. cbn [ArgModel.do_entry]. rewrite E, same_ne by (auto; apply text_lit).
      eexists. split; [reflexivity|]. split; [apply shows_same; auto|]. auto.
    - pose proof (Forall_inv Tx) as Tw. assert (L : t_last T = EEnd).
      { rewrite (t_es T) in Ie. apply in_app_or in Ie. destruct Ie as [Ie|[Ie|[]]]; auto. destruct (t_kinds T _ Ie). }
      rewrite (fell (text "--") s rest Nw Tw E), L. cbn [ArgModel.do_entry]. rewrite E, same_refl by auto.
      eexists. split; [reflexivity|]. split; [apply shows_same; auto|]. auto.
    - pose proof (Forall_inv Tx) as Tw. destruct Tv as [[id I]|[I W]].
      + eexists. split; [apply (reached (EString w id) w s [])|]; auto.
        * apply in_front; [exact I|exact Logic.I].
        * reflexivity.
        * cbn [ArgModel.do_entry]. rewrite E. unfold parse_string. rewrite same_refl by auto. reflexivity.
        * split; [|cbn; auto]. cbn. replace (match lookup id (s_strings s) with Some _ => s_strings s | None => match lookup id (s_strings s) with Some v => (id, v) :: s_strings s | None => s_strings s end end) with (s_strings s).
          { apply shows_same; auto. }
          destruct (lookup id (s_strings s)); auto.
      + eexists. split; [apply (reached EModule w s [])|]; auto.
        * apply in_front; [exact I|exact Logic.I].
        * cbn. unfold module_word. destruct W as [-> |[W|W]]; auto. right. right. exists []. reflexivity.
        * cbn [ArgModel.do_entry]. rewrite E, missing_step by auto. reflexivity.
        * split; [apply shows_same; auto|]. auto.
    - pose proof (Forall_inv Tx) as Tw. assert (L : t_last T = EInvalid).
      { rewrite (t_es T) in Ii. apply in_app_or in Ii. destruct Ii as [Ii|[Ii|[]]]; auto. destruct (t_kinds T _ Ii). }
      rewrite (fell w s rest Nw Tw E), L. cbn [ArgModel.do_entry]. rewrite E.
      eexists. split; [reflexivity|]. split; [apply shows_same; auto|]. auto.
    - pose proof (Forall_inv Tx) as Tw. destruct O as [id O]. destruct (lookup id (s_strings s)) as [x|] eqn:L.
      + eexists. split; [apply (reached (EString n id) n s (v :: rest))|]; auto.
        * apply in_front; [exact O|exact Logic.I].
        * reflexivity.
        * cbn [ArgModel.do_entry]. rewrite E, L. unfold parse_string. rewrite same_refl by auto. reflexivity.
        * split; [apply shows_same; auto|]. auto.
      + exfalso. apply NA. cbn [allowed]. intros id' O' j x J Sj. assert (id' = id) by (apply (string_id n); auto). subst id'.
        apply (proj1 (lookup_none id (s_strings s)) L x). apply (sh_strings is s Sh). eauto.
    - destruct i as [| | | |n p|n p]; try destruct K; cbn [words app] in *; pose proof (Forall_inv Tx) as Tw; destruct O as [O Op].
      + destruct (find_package p) eqn:F; [exfalso; apply NA; cbn; congruence|].
        eexists. split; [apply (reached EModule n s (p :: rest))|]; auto.
        * apply in_front; [exact O|exact Logic.I].
        * left. auto.
        * cbn [ArgModel.do_entry]. rewrite E, package_step, Er, F by auto. reflexivity.
        * split; [apply shows_same; auto|]. auto.
      + assert (D : ma_module (s_module s) <> None \/ parse_path p = None).
        { destruct (parse_path p) eqn:P; auto. left. intros Mn. apply NA. cbn [allowed]. split; [|congruence].
          rewrite (sh_module is s Sh) in Mn. intros j J. destruct (module_of j) as [|x l] eqn:Mj; auto. exfalso.
          destruct (flat_map module_of is) as [|y l'] eqn:Fm; [|discriminate].
          assert (X : In x []) by (rewrite <- Fm; apply in_flat_map; exists j; rewrite Mj; cbn; auto). destruct X. }
        eexists. split; [apply (reached EModule n s (p :: rest))|]; auto.
        * apply in_front; [exact O|exact Logic.I].
        * right. left. auto.
        * cbn [ArgModel.do_entry]. rewrite E, module_step, Er by auto.
          instantiate (1 := mk_state rest (s_flags s) (s_strings s) (s_module s) true (s_end s)).
          destruct (ma_module (s_module s)); [reflexivity|]. destruct D as [D|D]; [congruence|]. rewrite D. reflexivity.
        * split; [apply shows_same; auto|]. auto.
  Qed.

  (** The options and the rest of a command line determine what is read. *)
  Lemma run_items : forall is2 is1 s rest err left, legal (is1 ++ is2) -> ending (is1 ++ is2) rest err left ->
    s_argv s = flat_map words is2 ++ rest -> Forall text_ok (s_argv s) -> shows is1 s -> s_error s = false -> s_end s = false ->
    exists n s', run n es s = Some (Some s') /\ shows (is1 ++ is2) s' /\ s_error s' = err /\ s_argv s' = left.
  Proof.
    induction is2 as [|i is2 IH]; intros is1 s rest err left Le En E Tx Sh Er Ed.
    - rewrite app_nil_r in *. cbn in E.
      assert (Stop : (exists i, In i is1 /\ stops i) \/ running is1).
      { destruct (stop_flag s) eqn:F; [left; apply (stop_flag_spec _ _ Sh); auto|right]. intros i I S. assert (X : stop_flag s = true) by (apply (stop_flag_spec _ _ Sh); eauto). congruence. }
      destruct Stop as [St|Ru].
      + exists 0, s. cbn [ArgModel.run]. rewrite (proj2 (stop_flag_spec _ _ Sh) St). cbn. split; auto. split; auto.
        destruct St as [j [Ij Sj]]. destruct En; auto; exfalso; match goal with R : running _ |- _ => apply (R j Ij Sj) end.
      + destruct rest as [|w rest].
        * exists 0, s. cbn [ArgModel.run]. rewrite E, !orb_true_r. split; auto. split; auto. rewrite Er. inversion En; subst; auto.
          destruct i; cbn in *; discriminate.
        * assert (Sf : stop_flag s = false).
          { destruct (stop_flag s) eqn:F; auto. apply (stop_flag_spec _ _ Sh) in F. destruct F as [i [Ii Si]]. exfalso. apply (Ru i Ii Si). }
          rewrite E in Tx.
          destruct (ending_step is1 s (w :: rest) err left En Ru ltac:(discriminate) Sh Er E Tx) as [s' [B [Sh' [Er' [Av' D]]]]].
          exists 1, s'. split; [|auto]. cbn [ArgModel.run]. rewrite Sf, Er, Ed, E. cbn [orb]. rewrite B. rewrite Er'.
          assert (X : stop_flag s' || err || s_end s' || match s_argv s' with [] => true | _ => false end = true).
          { destruct D as [-> | ->]; rewrite ?orb_true_r; reflexivity. }
          rewrite X. reflexivity.
    - destruct (Le is1 i is2 eq_refl) as [O [A St]]. cbn [flat_map] in E. rewrite <- app_assoc in E. rewrite E in Tx.
      destruct (item_step is1 i s _ O A Sh Er E Tx) as [s1 [B [Sh1 [Er1 [Ed1 Av1]]]]].
      destruct (IH (is1 ++ [i]) s1 rest err left) as [n [s' [R [Sh' [Er' Av']]]]]; rewrite <- ?app_assoc; auto.
      + rewrite Av1. apply Forall_app in Tx. apply Tx.
      + congruence.
      + rewrite <- app_assoc in Sh'. exists (S n), s'. split; [|auto]. cbn [ArgModel.run].
        assert (Sf : stop_flag s = false).
        { destruct (stop_flag s) eqn:F; auto. apply (stop_flag_spec _ _ Sh) in F. destruct F as [j [Ij Sj]].
          apply in_split in Ij. destruct Ij as [a [b Ej]]. destruct (Le a j (b ++ i :: is2)) as [_ [_ X]]; [subst is1; rewrite <- app_assoc; reflexivity|].
          specialize (X Sj). destruct b; discriminate. }
        rewrite Sf, Er, Ed, E. cbn [orb]. rewrite B, R.
        destruct i; reflexivity.
  Qed.

  (** ** C39 *)

  (** If a command line is a list of options followed by a [rest] where reading ends, the
      program reads exactly that: it sets what the options say, has an error exactly if the
      end is one, and leaves exactly the arguments after what it read. *)
  Theorem command_line_exact : forall argv is rest err left, Forall text_ok argv ->
    argv = flat_map words is ++ rest -> legal is -> ending is rest err left ->
    exists n s, run n es (start argv) = Some (Some s) /\ shows is s /\ s_error s = err /\ s_argv s = left.
  Proof.
    intros argv is rest err left Tx E Le En. apply (run_items is [] (start argv) rest err left); auto.
    constructor; cbn; try reflexivity; intros; (split; [tauto|intros [i [[] _]]]).
  Qed.

  (** ** Every command line is of this form *)

  Lemma str_dec : forall a b : str, {a = b} + {a <> b}.
  Proof. apply list_eq_dec, Z.eq_dec. Qed.

  Lemma entry_cases w : (exists id, In (EBool w id) es) \/ (exists id, In (EString w id) es) \/ ~ ((exists id, In (EBool w id) es) \/ (exists id, In (EString w id) es)).
  Proof.
    clear T. induction es as [|e l IH]; [right; right; intros [[id []]|[id []]]|].
    destruct IH as [[id I]|[[id I]|N]]; [left; exists id; right; auto|right; left; exists id; right; auto|].
    destruct e as [n id|n id| | | |]; try (right; right; intros [[i [Q|I]]|[i [Q|I]]]; try discriminate; apply N; [left|right]; exists i; exact I).
    - destruct (str_dec n w) as [->|D]; [left; exists id; left; auto|]. right. right. intros [[i [Q|I]]|[i [Q|I]]]; try congruence; apply N; eauto.
    - destruct (str_dec n w) as [->|D]; [right; left; exists id; left; auto|]. right. right. intros [[i [Q|I]]|[i [Q|I]]]; try congruence; apply N; eauto.
  Qed.
  Lemma module_cases : In EModule es \/ ~ In EModule es.
  Proof. clear T. induction es as [|e l [IH|IH]]; [right; intros []|left; right; auto|]. destruct e; try (right; intros [Q|I]; [discriminate|auto]; fail). left. left. auto. Qed.
  Lemma last_cases : In EInvalid es \/ In EEnd es.
  Proof.
    assert (I : In (t_last T) es) by (assert (J : In (t_last T) (t_front T ++ [t_last T])) by (apply in_or_app; right; left; auto); rewrite <- (t_es T) in J; exact J).
    destruct (t_lastok T) as [Q|Q]; rewrite Q in I; auto.
  Qed.

  Lemma stops_dec i : offered i -> stops i \/ ~ stops i.
  Proof.
    intros O. destruct i as [n| | | | |]; try (right; intros [id [_ []]]). destruct O as [id O]. destruct (le_lt_dec 2 id) as [L|L].
    - right. intros [j [Lj Sj]]. cbn in Sj. assert (j = id) by (apply (flag_id n); auto). lia.
    - left. exists id. auto.
  Qed.
  Lemma value_used_dec n id is : In (EString n id) es -> (forall j v, In j is -> ~ sets_string j id v) \/ exists j v, In j is /\ sets_string j id v.
  Proof.
    intros I. induction is as [|j is [IH|[k [v [K S]]]]]; [left; intros j v []| |right; exists k, v; split; [right|]; auto].
    destruct j as [|m v| | | |]; try solve [left; intros k x [<-|K]; [intros []|apply IH; auto]].
    destruct (in_dec (fun a b : entry => ltac:(decide equality; auto using str_dec, Nat.eq_dec) : {a = b} + {a <> b}) (EString m id) es) as [Q|Q].
    - right. exists (Value m v), v. split; [left; auto|split; auto].
    - left. intros k x [<-|K]; [intros [X _]; auto|apply IH; auto].
  Qed.

  (** The next option, or an end. *)
  Lemma next is argv : running is -> argv <> [] ->
    (exists i rest, argv = words i ++ rest /\ offered i /\ allowed is i) \/ (exists err left, ending is argv err left).
  Proof.
    intros Ru Ne. destruct argv as [|w r]; [congruence|].
    assert (Mod : In EModule es -> module_word w -> (exists i rest, w :: r = words i ++ rest /\ offered i /\ allowed is i) \/ exists err left, ending is (w :: r) err left).
    { intros IM [P|[P|[d ->]]].
      - destruct r as [|p r]; [right; exists true, [w]; apply bad_missing; auto; right; auto|].
        destruct (find_package p) as [d|] eqn:F; [left; exists (Package w p), r; cbn; rewrite F; repeat split; auto; discriminate|].
        right. exists true, r. apply (bad_item is (Package w p) r); cbn; auto.
      - destruct r as [|p r]; [right; exists true, [w]; apply bad_missing; auto; right; auto|].
        destruct (parse_path p) as [d|] eqn:F.
        + destruct (flat_map module_of is) as [|x l] eqn:M.
          * left. exists (Module w p), r. cbn. repeat split; auto; [|congruence]. intros j J. destruct (module_of j) as [|y l] eqn:Q; auto.
            assert (X : In y []) by (rewrite <- M; apply in_flat_map; exists j; rewrite Q; cbn; auto). destruct X.
          * right. exists true, r. apply (bad_item is (Module w p) r); cbn; auto. intros [X _].
            assert (Y : In x (flat_map module_of is)) by (rewrite M; left; auto). apply in_flat_map in Y. destruct Y as [j [J Y]]. rewrite (X j J) in Y. destruct Y.
        + right. exists true, r. apply (bad_item is (Module w p) r); cbn; auto. intros [_ X]. congruence.
      - destruct d as [|c d].
        + destruct r as [|d r]; [right; exists true, [text "-I"]; apply bad_missing; auto; right; auto|].
          left. exists (Dir d), r. cbn. auto.
        + left. exists (Dir_joined (c :: d)), r. cbn. repeat split; auto. discriminate. }
    destruct (entry_cases w) as [[id I]|[[id I]|N]].
    - left. exists (Flag w), r. cbn. repeat split; eauto.
    - destruct r as [|v r]; [right; exists true, [w]; apply bad_missing; auto; left; eauto|].
      destruct (value_used_dec w id is I) as [U|[j [x [J U]]]].
      + left. exists (Value w v), r. cbn [words app offered allowed]. repeat split; eauto. intros id' I'. rewrite (string_id w id' id); auto.
      + right. exists true, (w :: v :: r). apply bad_twice; auto; [exists id; auto|]. intros X. apply (X id I j x J U).
    - assert (Un : ~ option_word w -> exists err left, ending is (w :: r) err left).
      { intros Nw. destruct last_cases as [L|L]; [exists true, (w :: r); apply bad_invalid; auto|].
        destruct (str_dec w (text "--")) as [->|D]; [exists false, r; apply end_dashes; auto|exists false, (w :: r); apply end_options; auto]. }
      destruct module_cases as [IM|NM].
      + assert (D : module_word w \/ ~ module_word w).
        { unfold module_word, package_option, module_option.
          destruct (str_dec w (text "--package")); [auto|]. destruct (str_dec w (text "-p")); [auto|].
          destruct (str_dec w (text "--module")); [auto|]. destruct (str_dec w (text "-m")); [auto|].
          destruct (after_I w) as [d|] eqn:A; [apply after_I_spec in A; left; right; right; eauto|].
          right. intros [[?|?]|[[?|?]|[d ?]]]; auto. assert (X : after_I w = Some d) by (apply after_I_spec; auto). congruence. }
        destruct D as [D|D]; auto. right. apply Un. intros [X|[X|[_ X]]]; auto.
      + right. apply Un. intros [X|[X|[X _]]]; auto.
  Qed.

  Lemma words_len i : 0 < length (words i).
  Proof. destruct i; cbn; lia. Qed.

  Theorem command_line_total : forall argv, exists is rest err left,
    argv = flat_map words is ++ rest /\ legal is /\ ending is rest err left.
  Proof.
    assert (G : forall n argv is1, length argv <= n -> legal is1 -> running is1 ->
      exists is2 rest err left, argv = flat_map words is2 ++ rest /\ legal (is1 ++ is2) /\ ending (is1 ++ is2) rest err left).
    { induction n as [|n IH]; intros argv is1 L Le Ru.
      - destruct argv; [|cbn in L; lia]. exists [], [], false, []. rewrite !app_nil_r. split; [reflexivity|]. split; [exact Le|apply end_all; exact Ru].
      - destruct argv as [|w r] eqn:Ea.
        + exists [], [], false, []. rewrite !app_nil_r. split; [reflexivity|]. split; [exact Le|apply end_all; exact Ru].
        + rewrite <- Ea in *. destruct (next is1 argv Ru) as [[i [rest [E [O A]]]]|[err [left En]]]; [subst; discriminate| |].
          * assert (Le' : legal (is1 ++ [i])).
            { intros a j b Q. destruct (exists_last (l := j :: b)) as [b' [x Eb]]; [discriminate|]. rewrite Eb in Q. rewrite app_assoc in Q.
              apply app_inj_tail in Q. destruct Q as [Q <-]. destruct b' as [|j' b'].
              - cbn in Eb. injection Eb as -> ->. rewrite app_nil_r in Q. subst a. auto.
              - cbn in Eb. injection Eb as <- ->. destruct (Le a j b' Q) as [X [Y Z]]. repeat split; auto.
                intros Sj. exfalso. apply (Ru j); auto. rewrite Q. apply in_or_app. right. left. auto. }
            destruct (stops_dec i O) as [St|St].
            -- exists [i], rest, false, rest. cbn [flat_map]. rewrite app_nil_r. split; auto. split; auto. apply (end_stop (is1 ++ [i]) i is1 rest); auto.
            -- destruct (IH rest (is1 ++ [i])) as [is2 [rest' [err [left [E' [Le2 En]]]]]]; auto.
               ++ pose proof (words_len i). rewrite E, app_length in L. lia.
               ++ intros j J. apply in_app_or in J. destruct J as [J|[<-|[]]]; auto.
               ++ exists (i :: is2), rest', err, left. rewrite <- app_assoc in Le2, En. cbn [flat_map]. split; [rewrite <- app_assoc, <- E'; exact E|]. auto.
          * exists [], argv, err, left. rewrite app_nil_r. auto. }
    intros argv. destruct (G (length argv) argv []) as [is [rest [err [left H]]]]; auto.
    - intros a i b Q. destruct a; discriminate.
    - intros i [].
    - exists is, rest, err, left. exact H.
  Qed.
End spec.

(** ** The programs *)

Lemma no_twice (l : list str) : nodup (list_eq_dec Z.eq_dec) l = l -> NoDup l.
Proof. intros <-. apply NoDup_nodup. Qed.

Lemma module_once (l : list entry) : List.length (filter (fun e => match e with EModule => true | _ => false end) l) <= 1 ->
  forall a b, l = a ++ EModule :: b -> ~ In EModule a.
Proof.
  intros L a b -> I. rewrite filter_app, app_length in L. cbn in L. apply in_split in I. destruct I as [x [y ->]].
  rewrite filter_app, app_length in L. cbn in L. lia.
Qed.

Ltac check_table :=
  match goal with
  | |- table ?es => let f := eval vm_compute in (removelast es) in let l := eval vm_compute in (last es EInvalid) in
    apply (mk_table es f l); [reflexivity|auto|..]
  end;
  [ let e := fresh in intros e; cbn; intuition (subst; exact I)
  | match goal with |- NoDup ?l => apply (no_twice l); vm_compute; reflexivity end
  | let n := fresh in intros n; cbn; intuition (subst; repeat constructor; vm_compute; auto)
  | let n := fresh in intros _ n; cbn; intuition (subst; unfold package_option, module_option in *; cbn in *;
      repeat match goal with H : _ \/ _ |- _ => destruct H | H : exists _, _ |- _ => destruct H end; discriminate)
  | match goal with |- forall a b, ?l = _ -> _ => apply (module_once l); cbn; lia end ].

Lemma compile_table : table compile_options.
Proof. check_table. Qed.
Lemma deps_table : table deps_options.
Proof. check_table. Qed.
Lemma disassemble_table : table disassemble_options.
Proof. check_table. Qed.
Lemma stdio_table b : table (stdio_options b).
Proof. destruct b; check_table. Qed.
Lemma app_table b : table (app_options b).
Proof. destruct b; check_table. Qed.

(** *** Which names mean the same option: the same name, or its short and its long form. *)
Inductive synonyms : str -> str -> Prop :=
| syn_same n : synonyms n n
| syn_short c w : synonyms (text "-" ++ [c]) (text "--" ++ c :: w)
| syn_long c w : synonyms (text "--" ++ c :: w) (text "-" ++ [c]).

(** The names of each sort of option of a program, with the variable each sets. *)
Definition flags_of (es : list entry) := flat_map (fun e => match e with EBool n i => [(n, i)] | _ => [] end) es.
Definition values_of (es : list entry) := flat_map (fun e => match e with EString n i => [(n, i)] | _ => [] end) es.
Definition lists_of (es : list entry) := flat_map (fun e => match e with EAppend n i => [(n, i)] | _ => [] end) es.

Definition exact_names (l : list (str * nat)) :=
  forall n i m j, In (n, i) l -> In (m, j) l -> (i = j <-> synonyms n m).

Ltac exact_names_tac :=
  intros n i m j I1 I2; vm_compute in I1, I2;
  repeat match goal with H : _ \/ _ |- _ => destruct H as [H|H] | H : False |- _ => destruct H
    | H : (_, _) = (_, _) |- _ => injection H as <- <- end;
  (split; [intros Q; first [discriminate Q | apply syn_same | match goal with
     | |- synonyms [_; ?c] (_ :: _ :: ?c :: ?w) => exact (syn_short c w)
     | |- synonyms (_ :: _ :: ?c :: ?w) [_; ?c] => exact (syn_long c w) end]
   | intros Q; first [reflexivity | exfalso; inversion Q]]).

(** Two options of a program set the same variable exactly if they are the short and the
    long form of one option. *)
Theorem options_do_not_share es :
  In es [compile_options; deps_options; disassemble_options; perf_options; stdio_options true; stdio_options false; app_options true; app_options false] ->
  exact_names (flags_of es) /\ exact_names (values_of es) /\ exact_names (lists_of es).
Proof.
  intros I. cbn [In] in I.
  repeat match goal with H : _ \/ _ |- _ => destruct H as [<-|H] end; [..|destruct I];
  (split; [|split]); exact_names_tac.
Qed.

(** A compiled program gets all its arguments if none is "--"; otherwise the options are read
    as by [start]. *)
Theorem compiled_program_args fp pp es (argv : list str) : Forall text_ok argv ->
  (~ In (text "--") argv -> run fp pp 0 es (start_compiled true argv) = Some (Some (start_compiled true argv)) /\
     s_argv (start_compiled true argv) = tl argv /\ s_error (start_compiled true argv) = false) /\
  (In (text "--") argv -> start_compiled true argv = start (tl argv)) /\ start_compiled false argv = start (tl argv).
Proof.
  intros Tx. destruct text_lit as [_ [_ [_ [_ [_ T6]]]]].
  assert (X : existsb (fun a => same a (text "--")) argv = true <-> In (text "--") argv).
  { rewrite existsb_exists. split.
    - intros [a [I S]]. rewrite Forall_forall in Tx. apply same_eq in S; auto. subst. auto.
    - intros I. exists (text "--"). split; auto. }
  split; [|split; [|reflexivity]].
  - intros N. assert (E : existsb (fun a => same a (text "--")) argv = false) by (destruct (existsb (fun a => same a (text "--")) argv); tauto).
    unfold start_compiled. rewrite E. cbn. auto.
  - intros I. unfold start_compiled, start. rewrite (proj2 X I). reflexivity.
Qed.

(** fble-perf-profile has no line for what is not an option: given such an argument it never
    ends, whatever the number of iterations. *)
Theorem perf_profile_args_terminate_refuted fp pp w rest : text_ok w -> ~ In w (map text ["-h"; "--help"; "-s"; "--squash"; "-v"; "--version"]%string) ->
  forall n, run fp pp n perf_options (start (w :: rest)) = None.
Proof.
  intros Tw N. assert (B : body fp pp perf_options (start (w :: rest)) = Some (start (w :: rest))).
  { assert (P : forall l, (forall e, In e l -> entry_text e /\ ~ hits e w) -> body fp pp l (start (w :: rest)) = Some (start (w :: rest))).
    { induction l as [|e l IH]; intros H; auto. cbn [body]. destruct (H e (or_introl eq_refl)) as [H1 H2].
      rewrite (pass fp pp e (start (w :: rest)) w rest) by auto. apply IH. intros x Hx. apply H. right. auto. }
    apply P. cbn in N. intros e I. cbn in I. decompose [or] I; subst; try contradiction; (split; [repeat constructor; vm_compute; auto|cbn; intros <-; tauto]). }
  induction n as [|n IH]; cbn [run]; [reflexivity|]. change (stop_flag (start (w :: rest))) with false. cbn [orb s_error s_end s_argv start].
  change (mk_state (w :: rest) [] [] (mk_ma [] None) false false) with (start (w :: rest)). rewrite B. exact IH.
Qed.

(** A flag given twice is accepted, though FbleParseBoolArg's documentation says it may be
    given at most once: for example fble-compile with -c -c. *)
Theorem flag_twice_refuted fp pp : exists n s, run fp pp n compile_options (start [text "-c"; text "-c"]) = Some (Some s) /\ s_error s = false.
Proof. exists 3. eexists. split; [vm_compute; reflexivity|reflexivity]. Qed.

(** ** An example *)
Definition ex_pkg (p : str) : option str := if same p (text "core") then Some (text "/usr/core") else None.
Definition ex_path (m : str) : option path := if same m (text "/Foo%") then Some [mk_name (text "Foo") Normal] else None.
Definition ex_items : list item := [Dir (text "a"); Dir_joined (text "b"); Package (text "-p") (text "core"); Flag (text "-c"); Module (text "--module") (text "/Foo%"); Value (text "-t") (text "c")].

Example ex_words : flat_map words ex_items = map text ["-I"; "a"; "-Ib"; "-p"; "core"; "-c"; "--module"; "/Foo%"; "-t"; "c"]%string.
Proof. reflexivity. Qed.
Example ex_run : exists s, run ex_pkg ex_path 7 compile_options (start (flat_map words ex_items)) = Some (Some s) /\
  s_error s = false /\ s_argv s = [] /\ ma_search (s_module s) = map text ["a"; "b"; "/usr/core"]%string /\
  ma_module (s_module s) = Some [mk_name (text "Foo") Normal] /\ s_strings s = [(0, text "c")].
Proof. eexists. split; [vm_compute; reflexivity|]. repeat split; reflexivity. Qed.
Lemma ex_stops : forall i, In i ex_items -> ~ stops compile_options i.
Proof.
  intros i I [id [L S]]. cbn [ex_items In] in I.
  destruct I as [<-|[<-|[<-|[<-|[<-|[<-|[]]]]]]]; try exact S.
  assert (Q : id = 2) by (apply (flag_id compile_options compile_table (text "-c")); auto; vm_compute; tauto). lia.
Qed.
Example ex_legal : legal ex_pkg ex_path compile_options ex_items /\ running compile_options ex_items.
Proof.
  split; [|exact ex_stops].
  intros a i b Q. split; [|split].
  - assert (I : In i ex_items) by (rewrite Q; apply in_or_app; right; left; auto).
    cbn [ex_items In] in I. destruct I as [<-|[<-|[<-|[<-|[<-|[<-|[]]]]]]]; cbn [offered].
    + vm_compute; tauto.
    + split; [vm_compute; tauto|discriminate].
    + split; [vm_compute; tauto|right; reflexivity].
    + exists 2. vm_compute; tauto.
    + split; [vm_compute; tauto|left; reflexivity].
    + exists 0. vm_compute; tauto.
  - destruct a as [|a1 a]; [injection Q as <- <-; exact I|]. injection Q as <- Q.
    destruct a as [|a2 a]; [injection Q as <- <-; exact I|]. injection Q as <- Q.
    destruct a as [|a3 a]; [injection Q as <- <-; discriminate|]. injection Q as <- Q.
    destruct a as [|a4 a]; [injection Q as <- <-; exact I|]. injection Q as <- Q.
    destruct a as [|a5 a]; [injection Q as <- <-; split; [|discriminate]|].
    { intros j [<-|[<-|[<-|[<-|[]]]]]; reflexivity. }
    injection Q as <- Q.
    destruct a as [|a6 a]; [injection Q as <- <-|].
    { intros id _ j v [<-|[<-|[<-|[<-|[<-|[]]]]]] S; exact S. }
    injection Q as <- Q. destruct a; discriminate.
  - intros S. exfalso. apply (ex_stops i); auto. rewrite Q. apply in_or_app. right. left. auto.
Qed.
