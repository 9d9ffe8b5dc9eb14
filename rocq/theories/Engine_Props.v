(** Properties C105 and C106: the Matlab engine of sm_matlab. *)
From Coq Require Import Lia.
From Verif Require Import Engine_Model.
Open Scope nat_scope.

(** * Specification *)
(** what a program sends *)
Inductive value := VDouble (d : f64) | VBool (b : bool) | VString (s : bytes) | VMatrix (r c : nat) (l : list f64).
(** values that can be stored and read back: a string has characters, none of them NUL; a matrix has entries *)
Definition storable (v : value) : Prop :=
  match v with
  | VDouble _ | VBool _ => True
  | VString s => s <> [] /\ ~ In 0%N s
  | VMatrix r c l => r * c <> 0 /\ length l = r * c
  end.
(** letters, digits and underscores, and no digit at the front *)
Definition legal_name (n : bytes) : Prop :=
  Forall (fun c => is_alpha c = true \/ is_digit c = true \/ c = 95%N) n /\ (forall c r, n = c :: r -> is_digit c = false).
(** Matlab is up *)
Definition up (w : world) : Prop := hnd w = HOpen /\ running w = true.

  Lemma valid_name n : assertValidVariableName n = Ret tt <-> legal_name n.
  Proof.
    unfold assertValidVariableName, legal_name.
    destruct (forallb name_char n) eqn:F; cbn.
    - rewrite forallb_forall in F.
      assert (F' : Forall (fun c => is_alpha c = true \/ is_digit c = true \/ c = 95%N) n).
      { apply Forall_forall. intros c Hc. specialize (F c Hc). unfold name_char in F.
        apply Bool.orb_prop in F as [F|F]. { apply Bool.orb_prop in F. tauto. } apply N.eqb_eq in F. tauto. }
      destruct n as [|c r]; cbn.
      + split; auto. intros _. split; auto. discriminate.
      + destruct (is_digit c) eqn:D; split; try discriminate; try tauto.
        * intros [_ H]. specialize (H c r eq_refl). congruence.
        * intros _. split; auto. intros ? ? [= <- <-]. auto.
    - split; [discriminate|]. intros [H _]. exfalso. rewrite Forall_forall in H.
      assert (E : forallb name_char n = true); [|congruence]. apply forallb_forall. intros c Hc. unfold name_char.
      destruct (H c Hc) as [-> | [-> | ->]]; cbn; auto using Bool.orb_true_r. now rewrite Bool.orb_true_r.
  Qed.
  Lemma invalid_name n : ~ legal_name n -> assertValidVariableName n = Throw InvalidName.
  Proof.
    intros H. destruct (assertValidVariableName n) as [[]|e| |] eqn:E; try (unfold assertValidVariableName in E;
      destruct (negb _); [|destruct (is_digit _)]; congruence).
    apply valid_name in E. contradiction.
  Qed.

  Lemma c_str_id s : ~ In 0%N s -> c_str s = s.
  Proof.
    induction s as [|c s IH]; cbn; auto. intros H. destruct (N.eqb c 0) eqn:E.
    - apply N.eqb_eq in E. tauto.
    - f_equal. tauto.
  Qed.
  Lemma c_str_idem s : c_str (c_str s) = c_str s.
  Proof. induction s as [|c s IH]; cbn; auto. destruct (N.eqb c 0) eqn:E; cbn; auto. rewrite E. congruence. Qed.


Section Props.
  Variable matlab_name : bytes -> bool.
  Variable startable : bool.
  Variable eval : bytes -> workspace -> workspace * bytes.
  Notation put_array := (put_array matlab_name).

  (** sending and reading by the type of the value *)
  Definition put (w : world) (n : bytes) (v : value) : world * result unit :=
    match v with
    | VDouble d => put_double matlab_name w n d
    | VBool b => put_bool matlab_name w n b
    | VString s => put_string matlab_name w n s
    | VMatrix r c l => putEigen matlab_name w n r c l
    end.
  Definition opt {A} (f : A -> value) (r : result (option A)) : result (option value) :=
    match r with Ret (Some a) => Ret (Some (f a)) | Ret None => Ret None | Throw e => Throw e | Undef => Undef | NullCall => NullCall end.
  (** get with a variable of the type of v *)
  Definition get_like (v : value) (w : world) (n : bytes) : result (option value) :=
    match v with
    | VDouble _ => opt VDouble (snd (get_double w n))
    | VBool _ => opt VBool (snd (get_bool w n))
    | VString _ => opt VString (snd (get_string w n))
    | VMatrix _ _ _ => opt (fun '(r, c, l) => VMatrix r c l) (snd (getEigen w n))
    end.
  Definition stored (v : value) : mx :=
    match v with
    | VDouble d => Mx [1; 1] (PDouble [d]) | VBool b => Mx [1; 1] (PLogical [b]) | VString s => mxCreateString s
    | VMatrix r c l => Mx [r; c] (PDouble l)
    end.
  Lemma put_stored w n v : put w n v = put_array w n (stored v).
  Proof. destruct v; reflexivity. Qed.

  Lemma put_array_ok w n a : up w -> legal_name n -> matlab_name n = true ->
    put_array w n a = (World HOpen true (set_var (ws w) n a) (live w) (obuf w), Ret tt).
  Proof. clear startable eval.
    intros [H1 H2] L M. unfold Engine_Model.put_array, assertIsInitialized. rewrite H1. cbn [then_].
    rewrite (proj2 (valid_name n) L). cbn [then_]. unfold engPutVariable. cbn [running add_live]. rewrite H2, M. cbn. rewrite H1.
    unfold sub_live, add_live. cbn. replace (live w + 1 - 1) with (live w) by lia. reflexivity.
  Qed.
  (** reading a variable holding an array that was stored for a value of the same type *)
  Lemma get_stored w n v : up w -> legal_name n -> ws w n = Some (stored v) -> storable v -> get_like v w n = Ret (Some v).
  Proof. clear matlab_name startable eval.
    intros [H1 H2] L E S. unfold get_like, get_double, get_bool, get_string, getEigen, get_array, assertIsInitialized. rewrite H1. cbn [then_].
    rewrite (proj2 (valid_name n) L). cbn [then_]. unfold engGetVariable. rewrite H2, E.
    destruct v as [d|b|s|r c l]; cbn [stored]; cbn [storable] in S.
    - reflexivity.
    - reflexivity.
    - destruct S as [S1 S2]. unfold mxCreateString. rewrite (c_str_id s S2). destruct s as [|c s]; [tauto|].
      unfold mxIsEmpty, numel. cbn [dims pay fold_right]. replace (Nat.eqb (1 * (length (c :: s) * 1)) 0) with false by (cbn; reflexivity).
      cbn [snd opt]. now rewrite (c_str_id (c :: s) S2).
    - destruct S as [S1 S2]. unfold mxIsEmpty, numel, mxIsNumeric, elementSize8, as_doubles, mxGetM, mxGetN. cbn [dims pay fold_right tl nth negb length].
      replace (Nat.eqb (r * (c * 1)) 0) with false by (symmetry; apply Nat.eqb_neq; nia). cbn [negb Nat.eqb snd opt]. now rewrite Nat.mul_1_r.
  Qed.

  (** * C105: what is put is what is got *)
  (** Any sequence of assignments to legal names: each name then holds the value of the last assignment to it, and names not assigned are as before. *)
  Fixpoint puts (w : world) (h : list (bytes * value)) : world * result unit :=
    match h with [] => (w, Ret tt) | (n, v) :: r => match put w n v with (w', Ret _) => puts w' r | x => x end end.
  (** v is the last value assigned to n in h *)
  Definition last_assigned (h : list (bytes * value)) (n : bytes) (v : value) : Prop :=
    exists h1 h2, h = h1 ++ (n, v) :: h2 /\ ~ In n (map fst h2).
  Definition good_names (h : list (bytes * value)) : Prop := Forall (fun p => legal_name (fst p) /\ matlab_name (fst p) = true) h.

  Lemma puts_ws h : forall w, up w -> good_names h ->
    exists ws', puts w h = (World HOpen true ws' (live w) (obuf w), Ret tt) /\
    (forall n, ~ In n (map fst h) -> ws' n = ws w n) /\ (forall n v, last_assigned h n v -> ws' n = Some (stored v)).
  Proof. clear startable eval.
    induction h as [|[n v] h IH]; intros w U G; cbn.
    - exists (ws w). destruct U as [U1 U2], w; cbn in *; subst. split; auto. split; auto.
      intros n v (h1 & h2 & E & _). destruct h1; discriminate.
    - inversion G as [|? ? [G1 G2] G3]; subst. cbn in G1, G2. rewrite put_stored, (put_array_ok w n (stored v) U G1 G2).
      destruct (IH (World HOpen true (set_var (ws w) n (stored v)) (live w) (obuf w))) as (ws' & E & F1 & F2); [split; reflexivity|auto|].
      exists ws'. cbn in E, F1. split; [exact E|]. split.
      + intros m Hm. rewrite F1 by tauto. unfold set_var. destruct (bytes_eqb n m) eqn:X; auto. apply bytes_eqb_eq in X. tauto.
      + intros m u (h1 & h2 & E1 & E2). destruct h1 as [|[a b] h1]; cbn in E1.
        * injection E1 as -> -> ->. rewrite F1 by auto. unfold set_var. now rewrite bytes_eqb_refl.
        * injection E1 as -> -> ->. apply F2. exists h1, h2. auto.
  Qed.

  Theorem put_get_last w h : up w -> good_names h ->
    exists w', puts w h = (w', Ret tt) /\ up w' /\ live w' = live w /\
    (forall n, ~ In n (map fst h) -> ws w' n = ws w n) /\
    (forall n v, last_assigned h n v -> storable v -> get_like v w' n = Ret (Some v)).
  Proof. clear startable eval.
    intros U G. destruct (puts_ws h w U G) as (ws' & E & F1 & F2).
    exists (World HOpen true ws' (live w) (obuf w)). split; [exact E|]. split; [split; reflexivity|]. split; [reflexivity|]. split; [exact F1|].
    intros n v L S. apply get_stored; auto; [split; reflexivity|].
    destruct L as (h1 & h2 & -> & _). unfold good_names in G. rewrite Forall_app in G. destruct G as [_ G]. inversion G as [|? ? [G1 _] _]; subst. exact G1.
  Qed.
  (** integers: exact up to 2^53 *)
  Theorem put_int_get w n z : up w -> legal_name n -> matlab_name n = true -> (Z.abs z <= 2 ^ 53)%Z ->
    exists w' d, put_int matlab_name w n z = (w', Ret tt) /\ snd (get_double w' n) = Ret (Some d) /\ BinarySingleNaN.B2R d = IZR z /\ BinarySingleNaN.is_finite d = true.
  Proof. clear startable eval.
    intros U L M Z. unfold put_int, put_double. rewrite put_array_ok by auto. eexists _, (fofZ z). split; [reflexivity|].
    destruct (fofZ_correct z Z) as [F1 F2]. split; [|auto].
    assert (G := get_stored (World HOpen true (set_var (ws w) n (Mx [1; 1] (PDouble [fofZ z]))) (live w) (obuf w)) n (VDouble (fofZ z))).
    unfold get_like in G. cbn [ws stored] in G.
    assert (G' := G (conj eq_refl eq_refl) L). unfold set_var in G' at 1. rewrite bytes_eqb_refl in G'. specialize (G' eq_refl I).
    destruct (snd (get_double _ n)) as [[d|]| | |]; cbn in G'; try discriminate. injection G' as ->. reflexivity.
  Qed.
  (** a get never changes the workspace, answers false exactly when there is no such variable, and a type that does not fit is reported *)
  Theorem get_reads w n : up w -> legal_name n ->
    ws (fst (get_double w n)) = ws w /\ ws (fst (get_bool w n)) = ws w /\ ws (fst (get_string w n)) = ws w /\ ws (fst (getEigen w n)) = ws w /\
    (snd (get_double w n) = Ret None <-> ws w n = None) /\ (snd (get_bool w n) = Ret None <-> ws w n = None) /\
    (snd (get_string w n) = Ret None <-> ws w n = None) /\ (snd (getEigen w n) = Ret None <-> ws w n = None) /\
    (forall a, ws w n = Some a ->
       (forall d, snd (get_double w n) = Ret (Some d) -> mxIsNumeric a = true /\ numel a = 1) /\
       (forall b, snd (get_bool w n) = Ret (Some b) -> (exists l, pay a = PLogical l) /\ numel a = 1) /\
       (forall s, snd (get_string w n) = Ret (Some s) -> mxIsChar a = true /\ numel a <> 0) /\
       (forall r c l, snd (getEigen w n) = Ret (Some (r, c, l)) -> mxIsNumeric a = true /\ dims a = [r; c] /\ numel a <> 0)).
  Proof. clear matlab_name startable eval.
    intros [H1 H2] L. unfold get_double, get_bool, get_string, getEigen, get_array, assertIsInitialized. rewrite H1. cbn [then_].
    rewrite (proj2 (valid_name n) L). cbn [then_]. unfold engGetVariable. rewrite H2.
    destruct (ws w n) as [[dm p]|] eqn:E.
    2: { cbn. repeat (split; [reflexivity|]). repeat (split; [tauto|]). intros a [=]. }
    unfold mxIsEmpty. cbn [dims pay].
    assert (NE : forall k, negb (Nat.eqb k 1) = false -> k = 1) by (intros k Hk; apply Bool.negb_false_iff, Nat.eqb_eq in Hk; auto).
    assert (NZ : forall k, Nat.eqb k 0 = false -> k <> 0) by (intros k; apply Nat.eqb_neq).
    assert (D2 : forall A B, negb (Nat.eqb (length dm) 2) = false -> mxGetM (Mx dm p) = A -> mxGetN (Mx dm p) = B -> dm = [A; B]).
    { intros A B Hd. apply Bool.negb_false_iff, Nat.eqb_eq in Hd. destruct dm as [|x [|y [|? ?]]]; cbn in Hd; try discriminate.
      unfold mxGetM, mxGetN. cbn. rewrite Nat.mul_1_r. now intros -> ->. }
    assert (Q : forall k, numel (Mx dm p) = k -> numel (Mx dm p) = k) by auto.
    remember (numel (Mx dm p)) as N eqn:EN.
    repeat match goal with |- _ /\ _ => split end.
    all: try (destruct p; cbn; repeat match goal with |- context [if ?b then _ else _] => destruct b end; reflexivity).
    all: try (split; [|intros [=]]; destruct p; cbn; repeat match goal with |- context [if ?b then _ else _] => destruct b end; discriminate).
    intros a [= <-]. rewrite <- EN. clear EN. split; [|split; [|split]].
    - intros d. unfold mxIsNumeric. cbn [pay]. destruct p; cbn; try discriminate; destruct (Nat.eqb N 0) eqn:?; try discriminate;
        destruct (negb (Nat.eqb N 1)) eqn:?; try discriminate; auto.
    - intros b. cbn [pay]. destruct p; cbn; try discriminate; destruct (Nat.eqb N 0) eqn:?; try discriminate;
        destruct (negb (Nat.eqb N 1)) eqn:?; try discriminate; eauto.
    - intros s. unfold mxIsChar. cbn [pay]. destruct (Nat.eqb N 0) eqn:?; try discriminate; destruct p; cbn; try discriminate; auto.
    - intros r c l. unfold mxIsNumeric, elementSize8, as_doubles. cbn [pay dims]. destruct p; cbn [negb]; try discriminate; destruct (Nat.eqb N 0) eqn:?; try discriminate;
        destruct (negb (Nat.eqb (length dm) 2)) eqn:?; try discriminate; cbn [snd]; try discriminate; intros [= HM HN _]; auto 10.
  Qed.

  (** The questions about a variable: after any sequence of assignments, isScalar, isEmpty, isCharOrString, getDimensions and exists answer for the value
      last assigned (an empty string has 0 rows), and none of them changes the workspace. *)
  Definition rows (v : value) : nat := match v with VMatrix r _ _ => r | VString [] => 0 | _ => 1 end.
  Definition cols (v : value) : nat := match v with VMatrix _ c _ => c | VString s => length s | _ => 1 end.
  Theorem questions_answered w h n v : up w -> good_names h -> last_assigned h n v -> match v with VString s => ~ In 0%N s | _ => True end ->
    let w' := fst (puts w h) in
    snd (isScalar w' n) = Ret (Nat.eqb (rows v * cols v) 1) /\ snd (isEmpty w' n) = Ret (Nat.eqb (rows v * cols v) 0) /\
    snd (isCharOrString w' n) = Ret (match v with VString _ => true | _ => false end) /\ snd (getDimensions w' n) = Ret (Some (rows v, cols v)) /\
    snd (exists_ w' n) = Ret true /\
    ws (fst (isScalar w' n)) = ws w' /\ ws (fst (isEmpty w' n)) = ws w' /\ ws (fst (isCharOrString w' n)) = ws w' /\ ws (fst (getDimensions w' n)) = ws w' /\ ws (fst (exists_ w' n)) = ws w'.
  Proof. clear startable eval.
    intros U G LA S. destruct (puts_ws h w U G) as (ws' & E & _ & F2). rewrite E. cbn [fst]. cbv zeta.
    assert (L : legal_name n). { destruct LA as (h1 & h2 & -> & _). unfold good_names in G. rewrite Forall_app in G. destruct G as [_ G]. inversion G as [|? ? [G1 _] _]; subst. exact G1. }
    specialize (F2 n v LA).
    unfold isScalar, isEmpty, isCharOrString, getDimensions, exists_, test_array, or_throw, assertIsInitialized. cbn [hnd then_]. rewrite (proj2 (valid_name n) L). cbn [then_].
    unfold engGetVariable. cbn [running ws]. rewrite F2.
    assert (N : numel (stored v) = rows v * cols v).
    { unfold numel. destruct v as [d|b|s|r c l]; cbn [stored rows cols dims fold_right]; auto; [|lia]. unfold mxCreateString. rewrite (c_str_id s S). destruct s; cbn [dims fold_right length]; lia. }
    assert (D : mxGetM (stored v) = rows v /\ mxGetN (stored v) = cols v).
    { unfold mxGetM, mxGetN. destruct v as [d|b|s|r c l]; cbn [stored rows cols dims nth tl fold_right]; auto; [|split; auto; lia]. unfold mxCreateString. rewrite (c_str_id s S). destruct s; cbn [dims nth tl fold_right length]; split; auto; lia. }
    destruct D as [D1 D2]. unfold mxIsEmpty. rewrite N, D1, D2. cbn [fst snd ws add_live].
    split; [reflexivity|]. split; [reflexivity|]. split. { unfold mxIsChar. destruct v as [d|b|s|r c l]; cbn [stored pay]; auto. unfold mxCreateString. destruct (c_str s); auto. }
    repeat (split; [reflexivity|]). reflexivity.
  Qed.
  (** and for a name without a variable: false, no dimensions, and an exception from the others *)
  Theorem questions_missing w n : up w -> legal_name n -> ws w n = None ->
    snd (exists_ w n) = Ret false /\ snd (getDimensions w n) = Ret None /\
    snd (isScalar w n) = Throw NoSuchVariable /\ snd (isEmpty w n) = Throw NoSuchVariable /\ snd (isCharOrString w n) = Throw NoSuchVariable.
  Proof. clear matlab_name startable eval.
    intros [H1 H2] L E. unfold isScalar, isEmpty, isCharOrString, getDimensions, exists_, test_array, or_throw, assertIsInitialized. rewrite H1. cbn [then_]. rewrite (proj2 (valid_name n) L). cbn [then_].
    unfold engGetVariable. rewrite H2, E. repeat split.
  Qed.

  (** * C106: calls on an engine that is not there, and on names that are none *)
  (** every operation of the engine; the answers are forgotten except for the kind of outcome *)
  Inductive op :=
  | OPut (n : bytes) (v : value) | OPutInt (n : bytes) (z : Z) | OGetDouble (n : bytes) | OGetString (n : bytes) | OGetBool (n : bytes) | OGetEigen (n : bytes)
  | OIsScalar (n : bytes) | OIsEmpty (n : bytes) | OIsChar (n : bytes) | OGetDimensions (n : bytes) | OExists (n : bytes)
  | OExecute (cmd : bytes) | OChangeDir (d : bytes).
  Definition done {A} (r : world * result A) : world * result unit :=
    (fst r, match snd r with Ret _ => Ret tt | Throw e => Throw e | Undef => Undef | NullCall => NullCall end).
  Definition run (o : op) (w : world) : world * result unit :=
    match o with
    | OPut n v => done (put w n v) | OPutInt n z => done (put_int matlab_name w n z)
    | OGetDouble n => done (get_double w n) | OGetString n => done (get_string w n) | OGetBool n => done (get_bool w n) | OGetEigen n => done (getEigen w n)
    | OIsScalar n => done (isScalar w n) | OIsEmpty n => done (isEmpty w n) | OIsChar n => done (isCharOrString w n)
    | OGetDimensions n => done (getDimensions w n) | OExists n => done (exists_ w n)
    | OExecute c => done (executeCommand eval w c) | OChangeDir d => done (changeWorkingDirectory eval w d)
    end.
  Definition name_of (o : op) : option bytes :=
    match o with
    | OPut n _ | OPutInt n _ | OGetDouble n | OGetString n | OGetBool n | OGetEigen n | OIsScalar n | OIsEmpty n | OIsChar n | OGetDimensions n | OExists n => Some n
    | OExecute _ | OChangeDir _ => None
    end.
  (** reachable: built by Engine() or Engine(true) and used through the members below; Matlab may die at any time *)
  Inductive step : world -> world -> Prop :=
  | StInit w : step w (fst (initialize startable w))
  | StStop w : step w (fst (stop w))
  | StGood w : step w (fst (good eval w))
  | StOp w o : step w (fst (run o w))
  | StDie w : step w (World (hnd w) false (ws w) (live w) (obuf w)).
  Inductive steps : world -> world -> Prop := StepsRefl w : steps w w | StepsStep w1 w2 w3 : step w1 w2 -> steps w2 w3 -> steps w1 w3.

  Lemma run_hnd o w : hnd (fst (run o w)) = hnd w.
  Proof.
    destruct o as [n v|n z|n|n|n|n|n|n|n|n|n|c|c]; cbn [run done fst];
      try (rewrite put_stored); unfold put_int, put_double, isScalar, isEmpty, isCharOrString, getDimensions, exists_, changeWorkingDirectory,
        Engine_Model.put_array, get_double, get_string, get_bool, getEigen, get_array, test_array, executeCommand, or_throw, assertIsInitialized;
      destruct (hnd w) eqn:H; cbn [then_ fst]; auto;
      repeat match goal with |- context [then_ ?r _ _] => let E := fresh in destruct r eqn:E; cbn [then_ fst]; auto end;
      try (unfold engPutVariable, engGetVariable; cbn [running add_live]);
      repeat match goal with
      | |- context [match (if ?b then _ else _) with _ => _ end] => destruct b; cbn
      | |- context [match ws ?w ?n with _ => _ end] => destruct (ws w n); cbn
      | |- context [eval ?x ?y] => destruct (eval x y); cbn
      | |- context [if ?b then _ else _] => destruct b; cbn
      | |- context [match pay ?a with _ => _ end] => destruct (pay a); cbn
      | |- context [match as_doubles ?a with _ => _ end] => destruct (as_doubles a); cbn
      | a : unit |- _ => destruct a
      end; auto.
  Qed.
  Lemma good_hnd w : hnd (fst (good eval w)) = hnd w.
  Proof.
    unfold good. destruct (hnd w) eqn:H; auto. pose proof (run_hnd (OExecute (str "disp('sm::Matlab Engine-Test')")) w) as R. cbn [run done fst] in R.
    destruct (executeCommand eval w _) as [w' [s|e| |]]; cbn in *; try congruence. destruct e; cbn; congruence.
  Qed.
  (** the handle is always either null or that of an opened session *)
  Theorem handle_defined w0 w : hnd w0 = HNull \/ hnd w0 = HOpen -> steps w0 w -> hnd w = HNull \/ hnd w = HOpen.
  Proof.
    intros H St. induction St as [w|w1 w2 w3 S1 S2 IH]; auto. apply IH. inversion S1; subst.
    - unfold initialize, engOpen. destruct H as [E|E]; rewrite E; cbn; auto. destruct startable; cbn; auto.
    - unfold stop. destruct H as [E|E]; rewrite E; cbn; auto.
    - now rewrite good_hnd.
    - now rewrite run_hnd.
    - exact H.
  Qed.
  (** so no operation ever reads an indeterminate handle, and only exists may pass on a null one *)
  Theorem no_undef_partial w o : hnd w = HNull \/ hnd w = HOpen -> (forall n, o <> OExists n) ->
    match snd (run o w) with Ret _ | Throw _ => True | Undef | NullCall => False end.
  Proof.
    intros H NE.
    destruct o as [n v|n z|n|n|n|n|n|n|n|n|n|c|c]; try (exfalso; now apply (NE n)); cbn [run done snd];
      try (rewrite put_stored); unfold put_int, put_double, isScalar, isEmpty, isCharOrString, getDimensions, changeWorkingDirectory,
        Engine_Model.put_array, get_double, get_string, get_bool, getEigen, get_array, test_array, executeCommand, or_throw, assertIsInitialized;
      destruct H as [-> | ->]; cbn [then_ snd fst]; auto.
    all: try (destruct (assertValidVariableName n) as [[]|e| |] eqn:E; cbn [then_ snd fst]; auto;
              try (unfold assertValidVariableName in E; destruct (negb _); [|destruct (is_digit _)]; discriminate)).
    all: unfold engPutVariable, engGetVariable; cbn [running add_live].
    all: repeat match goal with
      | |- context [match (if ?b then _ else _) with _ => _ end] => destruct b; cbn
      | |- context [match ws ?w ?n with _ => _ end] => destruct (ws w n) as [[dm p]|]; cbn; try destruct p; cbn
      | |- context [eval ?x ?y] => destruct (eval x y); cbn
      | |- context [if ?b then _ else _] => destruct b; cbn
      end; auto.
  Qed.
  (** an engine that is not initialised: every operation but exists says so and does nothing *)
  Theorem uninitialised_throws_partial w o : hnd w = HNull -> (forall n, o <> OExists n) -> run o w = (w, Throw NotInitialized).
  Proof.
    intros H NE. destruct o as [n v|n z|n|n|n|n|n|n|n|n|n|c|c]; try (exfalso; now apply (NE n)); cbn [run];
      try (rewrite put_stored); unfold put_int, put_double, isScalar, isEmpty, isCharOrString, getDimensions, changeWorkingDirectory,
        Engine_Model.put_array, get_double, get_string, get_bool, getEigen, get_array, test_array, executeCommand, or_throw, assertIsInitialized;
      rewrite H; reflexivity.
  Qed.
  (** exists calls Matlab with a null engine *)
  Theorem uninitialised_exists_refuted : exists w, hnd w = HNull /\ snd (run (OExists (str "x")) w) = NullCall.
  Proof. exists (World HNull false (fun _ => None) 0 []). split; reflexivity. Qed.
  (** Engine(false) does not set the handle: the first use, even the destructor, reads it *)
  Theorem engine_false_refuted w : let w' := engine_start startable false w in
    isInitialized w' = Undef /\ snd (initialize startable w') = Undef /\ snd (stop w') = Undef /\ snd (destroy w') = Undef /\
    (forall n v, snd (run (OPut n v) w') = Undef).
  Proof. cbn. repeat split. intros n v. rewrite put_stored. reflexivity. Qed.
  (** Engine() and then initialize: like Engine(true); initialising twice changes nothing; stop undoes it *)
  Theorem initialize_stop w : startable = true ->
    let w1 := engine_default w in
    isInitialized w1 = Ret false /\
    (exists w2, initialize startable w1 = (w2, Ret true) /\ isInitialized w2 = Ret true /\ up w2 /\ (forall n, ws w2 n = None) /\ initialize startable w2 = (w2, Ret true) /\
       hnd w2 = hnd (engine_start startable true w) /\ running w2 = running (engine_start startable true w) /\ ws w2 = ws (engine_start startable true w) /\
       exists w3, stop w2 = (w3, Ret true) /\ isInitialized w3 = Ret false /\ running w3 = false /\ stop w3 = (w3, Ret true)).
  Proof. clear matlab_name eval.
    intros St. cbn. split; [reflexivity|]. unfold initialize, engOpen, engine_default. cbn. rewrite St. eexists. split; [reflexivity|]. cbn. split; [reflexivity|].
    split; [split; reflexivity|]. repeat (split; [reflexivity|]). eexists. split; [reflexivity|]. repeat (split; [reflexivity|]). reflexivity.
  Qed.
  (** the destructor ends the session, and does nothing without one *)
  Theorem destroy_closes w : (hnd w = HOpen -> exists w', destroy w = (w', Ret tt) /\ running w' = false /\ isInitialized w' = Ret false /\ live w' = live w) /\
    (hnd w = HNull -> destroy w = (w, Ret tt)).
  Proof. clear matlab_name eval startable. unfold destroy. split; intros H; rewrite H; auto. eexists. split; [reflexivity|]. repeat split. Qed.
  (** if Matlab cannot be started *)
  Theorem initialize_fails w : startable = false -> hnd w = HNull -> snd (initialize startable w) = Ret false /\ isInitialized (fst (initialize startable w)) = Ret false.
  Proof. clear matlab_name eval. intros St H. unfold initialize, engOpen. rewrite H, St. split; reflexivity. Qed.
  (** ... and nothing is running or stored then; a failed start can be tried again *)
  Theorem initialize_fails_clean w : startable = false -> hnd w = HNull -> running w = false -> fst (initialize startable w) = w.
  Proof. clear matlab_name eval. intros St H R. unfold initialize, engOpen. rewrite H, St. cbn. destruct w; cbn in *; congruence. Qed.
  (** names with other characters, or beginning with a digit, are rejected before Matlab is asked, by every operation *)
  Theorem illegal_names_rejected w o n : hnd w = HOpen -> name_of o = Some n -> ~ legal_name n -> run o w = (w, Throw InvalidName).
  Proof.
    intros H E L. destruct o as [m v|m z|m|m|m|m|m|m|m|m|m|c|c]; cbn in E; try discriminate; injection E as ->; cbn [run];
      try (rewrite put_stored); unfold put_int, put_double, isScalar, isEmpty, isCharOrString, getDimensions, exists_,
        Engine_Model.put_array, get_double, get_string, get_bool, getEigen, get_array, test_array, or_throw, assertIsInitialized;
      rewrite ?H; cbn [then_]; rewrite (invalid_name n L); reflexivity.
  Qed.
  (** legal names are never rejected *)
  Theorem legal_names_accepted w o n : name_of o = Some n -> legal_name n -> snd (run o w) <> Throw InvalidName.
  Proof.
    intros E L. apply valid_name in L.
    destruct o as [m v|m z|m|m|m|m|m|m|m|m|m|c|c]; cbn in E; try discriminate; injection E as ->; cbn [run done snd];
      try (rewrite put_stored); unfold put_int, put_double, isScalar, isEmpty, isCharOrString, getDimensions, exists_,
        Engine_Model.put_array, get_double, get_string, get_bool, getEigen, get_array, test_array, or_throw, assertIsInitialized;
      destruct (hnd w); cbn [then_ snd fst]; rewrite ?L; cbn [then_ snd fst]; try discriminate;
      unfold engPutVariable, engGetVariable; cbn [running add_live];
      repeat match goal with
      | |- context [match (if ?b then _ else _) with _ => _ end] => destruct b; cbn
      | |- context [match ws ?w ?n with _ => _ end] => destruct (ws w n) as [[dm p]|]; cbn; try destruct p; cbn
      | |- context [if ?b then _ else _] => destruct b; cbn
      end; discriminate.
  Qed.

  (** * C107: memory and output *)
  (** operations that give back what they allocate: assignments and reads of numbers, booleans and matrices that succeed *)
  Theorem no_leak_partial w o w' : up w -> run o w = (w', Ret tt) ->
    match o with
    | OPut _ _ | OPutInt _ _ | OGetDouble _ | OGetBool _ | OGetEigen _ | OExecute _ | OChangeDir _ => live w' = live w
    | OGetString n | OExists n | OGetDimensions n => live w' = live w + match ws w n with Some _ => 1 | None => 0 end
    | OIsScalar _ | OIsEmpty _ | OIsChar _ => live w' = live w + 1
    end.
  Proof.
    intros [H1 H2] R. destruct o as [n v|n z|n|n|n|n|n|n|n|n|n|c|c]; cbn [run] in R;
      try (rewrite put_stored in R); unfold put_int, put_double, isScalar, isEmpty, isCharOrString, getDimensions, exists_, changeWorkingDirectory,
        Engine_Model.put_array, get_double, get_string, get_bool, getEigen, get_array, test_array, executeCommand, or_throw, assertIsInitialized in R;
      rewrite ?H1 in R; cbn [then_] in R;
      try (destruct (assertValidVariableName n) as [[]|e| |] eqn:E; cbn [then_] in R; try (cbn in R; discriminate));
      unfold engPutVariable, engGetVariable in R; cbn [running add_live] in R; rewrite ?H2 in R; cbn [andb] in R;
      unfold done in R;
      try (destruct (ws w n) as [[dm p]|] eqn:?);
      try destruct p;
      cbn in R;
      repeat match type of R with
      | context [match (if ?b then _ else _) with _ => _ end] => destruct b; cbn in R
      | context [eval ?x ?y] => destruct (eval x y); cbn in R
      | context [if ?b then _ else _] => destruct b; cbn in R
      end; try discriminate; injection R as <-; cbn; lia.
  Qed.
  (** the full property is false: asking k times whether a variable exists leaves k arrays behind, reading a string k times leaves k buffers, and so does
      every failed read *)
  Fixpoint repeat_op (k : nat) (o : op) (w : world) : world := match k with 0 => w | S k => repeat_op k o (fst (run o w)) end.
  Definition leaky (w : world) (o : op) : Prop :=
    exists n a, legal_name n /\ ws w n = Some a /\
      (o = OExists n \/ o = OIsScalar n \/ o = OIsEmpty n \/ o = OIsChar n \/ o = OGetDimensions n \/ o = OGetString n \/
       (o = OGetDouble n /\ mxIsNumeric a = false) \/ (o = OGetBool n /\ forall l, pay a <> PLogical l) \/ (o = OGetEigen n /\ mxIsNumeric a = false)).
  Lemma leaky_step w o : up w -> leaky w o -> fst (run o w) = World HOpen true (ws w) (live w + 1) (obuf w).
  Proof.
    intros [H1 H2] (n & [dm p] & L & E & C). apply valid_name in L. destruct w as [h r ww lv ob]; cbn in H1, H2, E; subst h r.
    destruct C as [-> | [-> | [-> | [-> | [-> | [-> | [[-> P] | [[-> P] | [-> P]]]]]]]]]; cbn [run];
      unfold isScalar, isEmpty, isCharOrString, getDimensions, exists_, get_double, get_string, get_bool, getEigen, get_array, test_array, or_throw, assertIsInitialized;
      cbn [hnd then_]; rewrite L; cbn [then_]; unfold engGetVariable; cbn [running ws]; rewrite E; try reflexivity.
    - destruct (mxIsEmpty _); [reflexivity|]. cbn. destruct p; cbn; try reflexivity. unfold add_live, sub_live; cbn. f_equal. lia.
    - destruct p; cbn in P |- *; try discriminate; reflexivity.
    - destruct p; cbn in P |- *; try reflexivity. now destruct (P l).
    - destruct p; cbn in P |- *; try discriminate; reflexivity.
  Qed.
  Theorem leaks_refuted w o : up w -> leaky w o -> forall k, live (repeat_op k o w) = live w + k.
  Proof.
    intros U Lk k. revert w U Lk. induction k as [|k IH]; intros w U Lk; cbn [repeat_op]; [lia|].
    rewrite (leaky_step w o U Lk), IH; [cbn; lia|split; reflexivity|]. exact Lk.
  Qed.
  (** what executeCommand answers: the output, its final line break removed, when the buffer holds it *)
  Theorem execute_output_partial w cmd ws' out : up w -> ~ In 0%N cmd -> eval cmd (ws w) = (ws', out ++ [10%N]) -> ~ In 0%N out -> length out < 256 ->
    snd (executeCommand eval w cmd) = Ret out /\ ws (fst (executeCommand eval w cmd)) = ws' /\ live (fst (executeCommand eval w cmd)) = live w.
  Proof. clear matlab_name startable.
    intros [H1 H2] Cm Ev Nz Len. unfold executeCommand, assertIsInitialized. rewrite H1. cbn [then_]. rewrite H2, (c_str_id cmd Cm), Ev.
    assert (F : firstn OUTPUT_BUFFER_SIZE (out ++ [10%N]) = out ++ [10%N]).
    { apply firstn_all2. rewrite app_length. unfold OUTPUT_BUFFER_SIZE. cbn [length]. lia. }
    assert (NZ : ~ In 0%N (out ++ [10%N])) by (rewrite in_app_iff; cbn; intros [X|[X|[]]]; [tauto|discriminate]).
    rewrite F, (c_str_id _ NZ). cbn [fst snd ws live]. split; [|auto]. f_equal. rewrite app_length. cbn [length].
    replace (length out + 1 - 1) with (length out) by lia. rewrite firstn_app, Nat.sub_diag, firstn_all. cbn. apply app_nil_r.
  Qed.
  (** longer output is cut without notice: 255 characters remain; and what does not end in a line break loses its last character *)
  Theorem execute_output_refuted w cmd ws' out : up w -> ~ In 0%N cmd -> eval cmd (ws w) = (ws', out) -> ~ In 0%N out ->
    snd (executeCommand eval w cmd) = Ret (firstn (Nat.min 256 (length out) - 1) out).
  Proof. clear matlab_name startable.
    intros [H1 H2] Cm Ev Nz. unfold executeCommand, assertIsInitialized. rewrite H1. cbn [then_]. rewrite H2, (c_str_id cmd Cm), Ev.
    assert (NZ : ~ In 0%N (firstn OUTPUT_BUFFER_SIZE out)) by (intros X; apply Nz; rewrite <- (firstn_skipn OUTPUT_BUFFER_SIZE out); apply in_or_app; auto).
    rewrite (c_str_id _ NZ). cbn [snd]. f_equal. rewrite firstn_length, firstn_firstn. f_equal. unfold OUTPUT_BUFFER_SIZE. apply Nat.min_l. lia.
  Qed.
  (** good: false without asking Matlab if there is no session; false if the session has ended; otherwise whether Matlab echoes the test text *)
  Theorem good_answers w :
    (hnd w = HNull -> good eval w = (w, Ret false)) /\
    (hnd w = HOpen -> running w = false -> snd (good eval w) = Ret false) /\
    (up w -> forall ws' out, eval (str "disp('sm::Matlab Engine-Test')") (ws w) = (ws', out ++ [10%N]) -> ~ In 0%N out -> length out < 256 ->
       exists w', good eval w = (w', Ret (bytes_eqb out (str ">> sm::Matlab Engine-Test"))) /\ ws w' = ws' /\ live w' = live w).
  Proof. clear matlab_name startable.
    split; [intros H; unfold good; now rewrite H|]. split; [intros H R; unfold good, executeCommand, assertIsInitialized; rewrite H; cbn [then_]; now rewrite R|].
    intros U ws' out Ev Nz Len. destruct (execute_output_partial w (str "disp('sm::Matlab Engine-Test')") ws' out U) as (E1 & E2 & E3); auto.
    { intros X. cbn in X. repeat destruct X as [X|X]; try discriminate X. exact X. }
    destruct U as [H1 H2]. unfold good. rewrite H1. destruct (executeCommand eval w _) as [w' r]. cbn [fst snd] in *. subst r. eauto.
  Qed.
  Theorem changeWorkingDirectory_command w d : changeWorkingDirectory eval w d = executeCommand eval w (str "cd ('" ++ d ++ str "');").
  Proof. reflexivity. Qed.
  (** good: true exactly if Matlab echoes the test line with its prompt *)
  Theorem good_answer w ws' out : up w -> eval (str "disp('sm::Matlab Engine-Test')") (ws w) = (ws', out) -> ~ In 0%N out ->
    snd (good eval w) = Ret (bytes_eqb (firstn (Nat.min 256 (length out) - 1) out) (str ">> sm::Matlab Engine-Test")).
  Proof. clear matlab_name startable.
    intros U Ev Nz. assert (E := execute_output_refuted w (str "disp('sm::Matlab Engine-Test')") ws' out U).
    assert (C0 : ~ In 0%N (str "disp('sm::Matlab Engine-Test')")) by (cbn; intuition discriminate).
    specialize (E C0 Ev Nz). clear C0.
    destruct U as [U1 U2]. unfold good. rewrite U1. destruct (executeCommand eval w _) as [w' r]. cbn [snd] in E. rewrite E. reflexivity.
  Qed.
  Theorem good_dead w : hnd w = HOpen -> running w = false -> snd (good eval w) = Ret false.
  Proof. clear matlab_name startable. intros H1 H2. unfold good, executeCommand, assertIsInitialized. rewrite H1. cbn [then_]. now rewrite H2. Qed.
End Props.

(** * Counterexamples, and cases meeting the hypotheses *)
Definition ex_name (n : bytes) : bool := negb (bytes_eqb n []) && is_alpha (hd 0%N n) && forallb (fun c => is_alnum c || N.eqb c 95) n.
Definition ex_eval (cmd : bytes) (w : workspace) : workspace * bytes := (w, str ">> hello" ++ [10%N]).
Definition ex_world : world := World HOpen true (fun _ => None) 0 [].
(** names that are none for Matlab pass the check: the empty one and those with a leading underscore *)
Theorem names_refuted : legal_name [] /\ legal_name (str "_x") /\ ex_name [] = false /\ ex_name (str "_x") = false /\
  put_bool ex_name ex_world (str "_x") true = (World HOpen true (fun _ => None) 1 [], Throw PutFailed).
Proof.
  split; [apply (proj1 (valid_name _)); reflexivity|]. split; [apply (proj1 (valid_name _)); reflexivity|]. repeat split.
Qed.
(** an integer of 64 bits comes back as another one *)
Theorem put_int_refuted : exists z1 z2, z1 <> z2 /\ (0 < z1 < 2 ^ 63)%Z /\ (0 < z2 < 2 ^ 63)%Z /\
  snd (get_double (fst (put_int ex_name ex_world (str "x") z1)) (str "x")) = snd (get_double (fst (put_int ex_name ex_world (str "x") z2)) (str "x")).
Proof. exists (2 ^ 53 + 1)%Z, (2 ^ 53)%Z. split; [discriminate|]. split; [lia|]. split; [lia|].
  change (@Ret (option f64) (Some (fofZ (2 ^ 53 + 1))) = Ret (Some (fofZ (2 ^ 53)))). do 2 f_equal.
  apply BinarySingleNaN.B2SF_inj. vm_compute. reflexivity. Qed.
(** a matrix of 64-bit integers 1 is read as a matrix of the number with that bit pattern, which is not 1 *)
Theorem getEigen_int64_refuted : exists w d, ws w (str "x") = Some (Mx [1; 1] (PInt64 [1%Z])) /\ snd (getEigen w (str "x")) = Ret (Some (1, 1, [d])) /\ feqb d (fofZ 1) = false /\
  snd (get_double w (str "x")) = Ret (Some (fofZ 1)).
Proof.
  exists (World HOpen true (set_var (fun _ => None) (str "x") (Mx [1; 1] (PInt64 [1%Z]))) 0 []), (bits_of_Z 1).
  split; [reflexivity|]. split; [reflexivity|]. split; [vm_compute; reflexivity|]. reflexivity.
Qed.
(** strings with a NUL, and empty strings and matrices, do not come back *)
Theorem empty_refuted :
  snd (get_string (fst (put_string ex_name ex_world (str "x") [])) (str "x")) = Throw EmptyVariable /\
  snd (getEigen (fst (putEigen ex_name ex_world (str "x") 0 3 [])) (str "x")) = Throw EmptyVariable /\
  snd (get_string (fst (put_string ex_name ex_world (str "x") [97%N; 0%N; 98%N])) (str "x")) = Ret (Some [97%N]).
Proof. repeat split. Qed.
Example put_get_example :
  let h := [(str "x", VDouble fhalf); (str "y", VString (str "abc")); (str "x", VMatrix 1 2 [fzero; fhalf])] in
  up ex_world /\ good_names ex_name h /\ last_assigned h (str "x") (VMatrix 1 2 [fzero; fhalf]) /\ storable (VMatrix 1 2 [fzero; fhalf]) /\
  last_assigned h (str "y") (VString (str "abc")) /\ storable (VString (str "abc")).
Proof.
  cbn zeta. split; [split; reflexivity|].
  split. { repeat constructor; try reflexivity; try (apply (proj1 (valid_name _)); reflexivity). all: intros c r [= <- <-]; reflexivity. }
  split. { exists [(str "x", VDouble fhalf); (str "y", VString (str "abc"))], []. split; [reflexivity|]. intros []. }
  split. { cbn. lia. }
  split. { exists [(str "x", VDouble fhalf)], [(str "x", VMatrix 1 2 [fzero; fhalf])]. split; [reflexivity|]. cbn. intros [X|[]]. discriminate. }
  cbn. split; [discriminate|]. intuition discriminate.
Qed.
Example leak_example : let w := fst (put_bool ex_name ex_world (str "x") true) in up w /\ leaky w (OExists (str "x")) /\ leaky w (OGetDouble (str "x")).
Proof.
  cbn zeta. split; [split; reflexivity|].
  assert (L : legal_name (str "x")) by (apply (proj1 (valid_name _)); reflexivity).
  split; exists (str "x"), (Mx [1; 1] (PLogical [true])); (split; [exact L|]); (split; [reflexivity|]); tauto.
Qed.
Example execute_example : snd (executeCommand ex_eval ex_world (str "x")) = Ret (str ">> hello").
Proof. refine (proj1 (execute_output_partial ex_eval ex_world (str "x") _ (str ">> hello") _ _ eq_refl _ _)); [split; reflexivity| | |cbn; lia]; cbn; intuition discriminate. Qed.
