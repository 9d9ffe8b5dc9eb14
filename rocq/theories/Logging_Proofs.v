From Verif Require Import Logging_Model.
Open Scope nat_scope.

(** ** threads *)
Definition pcof (c : config) (t : nat) : pc := match nth_error (cthreads c) t with Some (p, _) => p | None => PIdle end.
Lemma nth_replace {A} n (x : A) l m : nth_error (replace n x l) m = if Nat.eqb m n then (match nth_error l n with Some _ => Some x | None => None end) else nth_error l m.
Proof.
  revert n m. induction l as [|y l IH]; intros [|n] [|m]; cbn [replace nth_error Nat.eqb]; auto.
  - destruct (Nat.eqb m n); auto.
Qed.
Lemma replace_length {A} n (x : A) l : length (replace n x l) = length l.
Proof. revert n. induction l; intros [|n]; cbn; auto. Qed.
(** a step as seen through the program counters *)
Lemma cstep_cases c t c' : cstep c t = Some c' ->
  (forall t', t' <> t -> pcof c' t' = pcof c t') /\
  ((exists o, pcof c t = PIdle /\ pcof c' t = begin o /\ cw c' = cw c /\ cout c' = cout c /\
      exists r, nth_error (cthreads c) t = Some (PIdle, o :: r) /\ nth_error (cthreads c') t = Some (begin o, r)) \/
   (exists e, tstep (cw c) t (pcof c t) = Some (cw c', pcof c' t, e) /\
      exists r, nth_error (cthreads c) t = Some (pcof c t, r) /\ nth_error (cthreads c') t = Some (pcof c' t, r))).
Proof.
  unfold cstep. destruct (nth_error (cthreads c) t) as [[p r]|] eqn:E; [|discriminate]. intros H.
  assert (G : forall w p' r' out, c' = mkC w (replace t (p', r') (cthreads c)) out ->
    (forall t', t' <> t -> pcof c' t' = pcof c t') /\ pcof c' t = p' /\ nth_error (cthreads c') t = Some (p', r') /\ cw c' = w /\ cout c' = out).
  { intros w p' r' out ->. unfold pcof. cbn [cthreads cw cout]. split; [|split; [|split; auto]].
    - intros t' N. rewrite nth_replace. apply Nat.eqb_neq in N. rewrite N. auto.
    - rewrite nth_replace, Nat.eqb_refl, E. auto.
    - rewrite nth_replace, Nat.eqb_refl, E. auto. }
  assert (P : pcof c t = p) by (unfold pcof; rewrite E; auto).
  match goal with |- ?Goal => assert (T : forall w' p' e, tstep (cw c) t p = Some (w', p', e) ->
     c' = mkC w' (replace t (p', r) (cthreads c)) (match e with Some x => (t, x) :: cout c | None => cout c end) -> Goal) end.
  { intros w' p' e TS EQ. destruct (G _ _ _ _ EQ) as (G1 & G2 & G3 & G4 & G5). split; [exact G1|right]. exists e. rewrite P, G2, G4. split; [exact TS|exists r; auto]. }
  destruct p; try (match type of H with context [tstep ?a ?b ?d] => destruct (tstep a b d) as [[[w' p'] e]|] eqn:TS end; [|discriminate]; injection H as <-; eapply T; [reflexivity|reflexivity]).
  destruct r as [|o r]; [discriminate|]. injection H as <-. destruct (G (cw c) (begin o) r (cout c) eq_refl) as (G1 & G2 & G3 & G4 & G5). split; [exact G1|left].
  exists o. split; [exact P|]. split; [exact G2|]. split; [exact G4|]. split; [exact G5|]. exists r. split; [reflexivity|exact G3].
Qed.

Definition holdsL (p : pc) : bool :=
  match p with PLoop _ _ | PCheck _ _ | PStream _ _ | PWrite _ _ _ | PInitDone _ _ _ | PUnlockL _ _ => true | _ => false end.
Definition kS (k : kont) : bool := match k with KUnlockS => true | KReturn => false end.
Definition cS (c : ckont) : bool := match c with CNotify _ k => kS k | _ => false end.
Definition holdsS (p : pc) : bool :=
  match p with PNotify k | PLoop _ k => kS k | PCheck _ c | PStream _ c | PWrite _ _ c => cS c | PUnlockS => true | _ => false end.
Definition restof (c : ckont) : list nat := match c with CNotify r _ => r | _ => [] end.
(** the thread will check the location again from the start *)
Definition waits (p : pc) (id : nat) : Prop :=
  match p with
  | PNotify _ => True
  | PLoop rest _ => In id rest
  | PCheck i c => i = id \/ In id (restof c)
  | PStream _ c | PWrite _ _ c => In id (restof c)
  | PRecheck i _ => i = id
  | _ => False
  end.
Definition writing (p : pc) (id : nat) : Prop := match p with PStream i _ | PWrite i _ _ => i = id | _ => False end.
(** what the thread is about to write is right *)
Definition fine (g : shared) (p : pc) (id : nat) : Prop :=
  match p with
  | PStream i _ => i = id -> (glevel g <=? llevel (gtable g id)) = true /\ lname (gtable g id) <> []
  | PWrite i b _ => i = id -> b = enabled_value g (gtable g id)
  | _ => True
  end.
Definition coh (g : shared) (id : nat) : Prop := lenabled (gtable g id) = enabled_value g (gtable g id).
Definition initing (p : pc) (id : nat) : Prop :=
  match p with PCheck i (CInit _ _) | PStream i (CInit _ _) | PWrite i _ (CInit _ _) => i = id | PInitDone i _ _ => i = id | _ => False end.
Record inv (c : config) : Prop := {
  invL : forall t, holdsL (pcof c t) = true <-> wL (cw c) = Some t;
  invS : forall t, holdsS (pcof c t) = true <-> wS (cw c) = Some t;
  invI : forall id, linit (gtable (wg (cw c)) id) = true \/ (exists t, initing (pcof c t) id) -> In id (greg (wg (cw c)));
  invC : forall id, In id (greg (wg (cw c))) -> (exists t, waits (pcof c t) id) \/
    ((forall t, fine (wg (cw c)) (pcof c t) id) /\ (coh (wg (cw c)) id \/ exists t, writing (pcof c t) id)) }.

Lemma start_pc progs t : pcof (start progs) t = PIdle.
Proof. unfold pcof, start. cbn [cthreads]. rewrite nth_error_map. destruct (nth_error progs t); auto. Qed.
Lemma inv_start progs : inv (start progs).
Proof.
  split; intros x; try rewrite start_pc; cbn; try (split; discriminate).
  - intros [H|(t & H)]; [discriminate|]. rewrite start_pc in H. destruct H.
  - intros [].
Qed.
Lemma begin_quiet o : holdsL (begin o) = false /\ holdsS (begin o) = false /\ forall g id, ~ waits (begin o) id /\ ~ writing (begin o) id /\ fine g (begin o) id /\ ~ initing (begin o) id.
Proof. destruct o; cbn; repeat split; auto. Qed.

Lemma only_change {P : nat -> Prop} (Q : Prop) t : (forall t', t' <> t -> P t') -> P t -> forall t', P t'.
Proof. intros H1 H2 t'. destruct (Nat.eq_dec t' t) as [->|N]; auto. Qed.
(** invariant lock part for a step of t that changes the holder in a standard way *)
Lemma lock_inv (own : pc -> bool) (f f' : nat -> pc) t (o o' : option nat) :
  (forall x, own (f x) = true <-> o = Some x) -> (forall x, x <> t -> f' x = f x) ->
  ((own (f' t) = own (f t) /\ o' = o) \/ (o = None /\ own (f' t) = true /\ o' = Some t) \/ (own (f t) = true /\ own (f' t) = false /\ o' = None)) ->
  forall x, own (f' x) = true <-> o' = Some x.
Proof.
  intros H F C x. destruct (Nat.eq_dec x t) as [->|N].
  - destruct C as [[E ->]|[[-> [E ->]]|[E1 [E2 ->]]]].
    + rewrite E. apply H.
    + rewrite E. tauto.
    + rewrite E2. split; discriminate.
  - rewrite F by auto. destruct C as [[E ->]|[[-> [E ->]]|[E1 [E2 ->]]]].
    + apply H.
    + rewrite H. split; congruence.
    + rewrite H. apply H in E1. split; congruence.
Qed.
Lemma upd_same t id l : upd t id l id = l. Proof. unfold upd. rewrite Nat.eqb_refl. auto. Qed.
Lemma upd_other t id l j : j <> id -> upd t id l j = t j. Proof. intros N. unfold upd. apply Nat.eqb_neq in N. rewrite N. auto. Qed.

(** the three kinds of effect a step has on the coherence invariant *)
Lemma invC_keep c c' t id (I : inv c) :
  (forall t', t' <> t -> pcof c' t' = pcof c t') ->
  glevel (wg (cw c')) = glevel (wg (cw c)) -> gstreams (wg (cw c')) = gstreams (wg (cw c)) ->
  llevel (gtable (wg (cw c')) id) = llevel (gtable (wg (cw c)) id) -> lname (gtable (wg (cw c')) id) = lname (gtable (wg (cw c)) id) ->
  lenabled (gtable (wg (cw c')) id) = lenabled (gtable (wg (cw c)) id) ->
  In id (greg (wg (cw c))) ->
  (waits (pcof c t) id -> waits (pcof c' t) id) ->
  (fine (wg (cw c)) (pcof c t) id -> fine (wg (cw c')) (pcof c' t) id) ->
  (writing (pcof c t) id -> writing (pcof c' t) id) ->
  (exists t, waits (pcof c' t) id) \/
    ((forall t, fine (wg (cw c')) (pcof c' t) id) /\ (coh (wg (cw c')) id \/ exists t, writing (pcof c' t) id)).
Proof.
  intros F E1 E2 E3 E4 E5 IN W FI WR.
  assert (EV : enabled_value (wg (cw c')) (gtable (wg (cw c')) id) = enabled_value (wg (cw c)) (gtable (wg (cw c)) id)).
  { unfold enabled_value. rewrite E1, E2, E3, E4. auto. }
  destruct (invC c I id IN) as [(x & H)|[H1 H2]].
  - left. destruct (Nat.eq_dec x t) as [->|N]; [exists t; auto|]. exists x. rewrite F; auto.
  - right. split.
    + intros x. destruct (Nat.eq_dec x t) as [->|N]; auto. rewrite F by auto. specialize (H1 x). unfold fine in *.
      destruct (pcof c x); auto; intros X; specialize (H1 X); rewrite ?E1, ?E3, ?E4, ?EV; auto.
    + destruct H2 as [H2|(x & H2)].
      * left. unfold coh in *. rewrite E5, EV. auto.
      * right. destruct (Nat.eq_dec x t) as [->|N]; [exists t; auto|]. exists x. rewrite F; auto.
Qed.
(** others cannot be writing while t holds the mutex *)
Lemma alone c t x id (I : inv c) : wL (cw c) = Some t \/ wL (cw c) = None -> x <> t -> ~ writing (pcof c x) id.
Proof.
  intros H N W. assert (HL : holdsL (pcof c x) = true) by (destruct (pcof c x); cbn in *; tauto). apply (invL c I) in HL. destruct H; congruence.
Qed.
Lemma fine_alone g p id : ~ writing p id -> fine g p id.
Proof. destruct p; cbn; auto; tauto. Qed.

Theorem inv_step c t c' : inv c -> cstep c t = Some c' -> inv c'.
Proof.
  intros I S. apply cstep_cases in S as (F & [(o & P & P' & W & _ & _)|(e & TS & _)]).
  - destruct (begin_quiet o) as (BL & BS & BQ). split.
    + intros x. rewrite W. apply (lock_inv holdsL (pcof c) (pcof c') t (wL (cw c))); auto; [apply (invL c I)|]. left. rewrite P, P', BL. auto.
    + intros x. rewrite W. apply (lock_inv holdsS (pcof c) (pcof c') t (wS (cw c))); auto; [apply (invS c I)|]. left. rewrite P, P', BS. auto.
    + intros id H. rewrite W in *. apply (invI c I). destruct H as [H|(x & H)]; auto. right. exists x. destruct (Nat.eq_dec x t) as [->|N]; [|rewrite <- F; auto].
      rewrite P' in H. destruct (BQ (wg (cw c)) id) as (_ & _ & _ & X). tauto.
    + intros id H. rewrite W in H. apply (invC_keep c c' t id I); try rewrite W; auto; rewrite P, ?P'; cbn; try tauto.
      intros _. apply BQ.
  - destruct (cw c) as [g L Sm] eqn:EW. pose proof (invL c I) as IL. pose proof (invS c I) as IS. rewrite EW in IL, IS. cbn [wL wS] in IL, IS.
    assert (HLt := IL t). assert (HSt := IS t).
    unfold tstep in TS. cbn [wg wL wS] in TS.
    assert (LK : forall L', ((holdsL (pcof c' t) = holdsL (pcof c t) /\ L' = L) \/ (L = None /\ holdsL (pcof c' t) = true /\ L' = Some t) \/
        (holdsL (pcof c t) = true /\ holdsL (pcof c' t) = false /\ L' = None)) -> forall x, holdsL (pcof c' x) = true <-> L' = Some x).
    { intros L'. apply (lock_inv holdsL (pcof c) (pcof c') t L L'); auto. }
    assert (SK : forall L', ((holdsS (pcof c' t) = holdsS (pcof c t) /\ L' = Sm) \/ (Sm = None /\ holdsS (pcof c' t) = true /\ L' = Some t) \/
        (holdsS (pcof c t) = true /\ holdsS (pcof c' t) = false /\ L' = None)) -> forall x, holdsS (pcof c' x) = true <-> L' = Some x).
    { intros L'. apply (lock_inv holdsS (pcof c) (pcof c') t Sm L'); auto. }
    assert (II : forall g', cw c' = mkW g' (wL (cw c')) (wS (cw c')) -> greg g' = greg g -> (forall id, linit (gtable g' id) = true -> linit (gtable g id) = true \/ initing (pcof c t) id) ->
       (forall id, initing (pcof c' t) id -> initing (pcof c t) id \/ False) ->
       forall id, linit (gtable (wg (cw c')) id) = true \/ (exists x, initing (pcof c' x) id) -> In id (greg (wg (cw c')))).
    { intros g' E R LI INI id H. rewrite E in *. cbn [wg] in *. rewrite R. pose proof (invI c I id) as X. rewrite EW in X. cbn [wg] in X. apply X.
      destruct H as [H|(x & H)].
      - apply LI in H as [H|H]; auto. right. exists t. auto.
      - right. destruct (Nat.eq_dec x t) as [->|N]; [apply INI in H as [H|[]]; eauto|]. exists x. rewrite <- F; auto. }
    assert (CK : forall id, In id (greg g) -> wg (cw c') = g ->
      (waits (pcof c t) id -> waits (pcof c' t) id) -> (fine g (pcof c t) id -> fine g (pcof c' t) id) -> (writing (pcof c t) id -> writing (pcof c' t) id) ->
      (exists x, waits (pcof c' x) id) \/ ((forall x, fine (wg (cw c')) (pcof c' x) id) /\ (coh (wg (cw c')) id \/ exists x, writing (pcof c' x) id))).
    { intros id IN E W1 W2 W3. apply (invC_keep c c' t id I); auto; rewrite ?E, ?EW; auto. }
    remember (pcof c t) as p eqn:EP. symmetry in EP.
    (* steps that leave the shared data alone *)
    Ltac idle_step LK SK II CK W' P' := 
      split; [rewrite W'; cbn [wL]; apply LK; rewrite P'; cbn; try tauto; auto
             |rewrite W'; cbn [wS]; apply SK; rewrite P'; cbn; try tauto; auto
             |eapply II; [rewrite W'; reflexivity|reflexivity|tauto|rewrite P'; cbn; try tauto]
             |intros ? IN; rewrite W' in IN; cbn [wg] in IN; apply CK; auto; [rewrite W'; reflexivity|..]; rewrite P'; cbn; try tauto].
    destruct p; cbn [holdsL holdsS] in *.
    + discriminate.
    + destruct (Nat.eqb l (glevel g)) eqn:EL; injection TS as W' P' _; symmetry in W', P'.
      * idle_step LK SK II CK W' P'.
      * split; [rewrite W'; cbn [wL]; apply LK; rewrite P'; auto|rewrite W'; cbn [wS]; apply SK; rewrite P'; auto
               |eapply II; [rewrite W'; reflexivity|reflexivity|auto|rewrite P'; cbn; tauto]|].
        intros id _. left. exists t. rewrite P'. cbn. auto.
    + destruct Sm as [s|] eqn:ES; [discriminate|]. injection TS as W' P' _. symmetry in W', P'.
      split; [rewrite W'; cbn [wL]; apply LK; rewrite P'; auto|rewrite W'; cbn [wS]; apply SK; rewrite P'; cbn; auto
             |eapply II; [rewrite W'; reflexivity|reflexivity|auto|rewrite P'; cbn; tauto]|].
      intros id _. left. exists t. rewrite P'. cbn. auto.
    + destruct Sm as [s|] eqn:ES; [discriminate|]. destruct (mem n (gstreams g)); injection TS as W' P' _; symmetry in W', P'.
      * split; [rewrite W'; cbn [wL]; apply LK; rewrite P'; auto|rewrite W'; cbn [wS]; apply SK; rewrite P'; cbn; auto
             |eapply II; [rewrite W'; reflexivity|reflexivity|auto|rewrite P'; cbn; tauto]|].
        intros id _. left. exists t. rewrite P'. cbn. auto.
      * idle_step LK SK II CK W' P'.
    + destruct L as [s|] eqn:ES; [discriminate|]. injection TS as W' P' _. symmetry in W', P'. idle_step LK SK II CK W' P'.
    + destruct rest as [|i rest].
      * destruct k; injection TS as W' P' _; symmetry in W', P'; idle_step LK SK II CK W' P'.
      * injection TS as W' P' _; symmetry in W', P'; idle_step LK SK II CK W' P'.
    + (* PCheck *)
      assert (HL : L = Some t) by (apply HLt; auto).
      assert (G : wg (cw c') = g /\ wL (cw c') = L /\ wS (cw c') = Sm /\ holdsL (pcof c' t) = true /\ holdsS (pcof c' t) = cS c0 /\
        (forall j, initing (pcof c' t) j -> initing (PCheck id c0) j) /\ fine g (pcof c' t) id /\ writing (pcof c' t) id /\
        (forall j, j <> id -> ~ writing (pcof c' t) j) /\ (forall j, In j (restof c0) -> waits (pcof c' t) j)).
      { destruct (glevel g <=? llevel (gtable g id)) eqn:EL; [destruct (lname (gtable g id)) eqn:EN|]; injection TS as W' P' _; symmetry in W', P'; rewrite W', P'; cbn;
          repeat split; auto; try congruence; try (destruct c0; cbn; tauto); intros _; unfold enabled_value; rewrite EL, ?EN; auto. }
      destruct G as (G1 & G2 & G3 & G4 & G5 & G6 & G7 & G8 & G9 & G10).
      split; [rewrite G2; apply LK; rewrite G4; auto|rewrite G3; apply SK; rewrite G5; auto
             |eapply (II g); [destruct (cw c'); cbn in *; subst; auto|reflexivity|auto|intros j H; left; auto]|].
      intros j IN. rewrite G1 in IN. destruct (Nat.eq_dec j id) as [->|N].
      * right. rewrite G1. split; [|right; exists t; auto]. intros x. destruct (Nat.eq_dec x t) as [->|N]; auto. rewrite F by auto.
        apply fine_alone. apply (alone c t); auto. rewrite EW. cbn. auto.
      * apply CK; auto; cbn [waits fine writing].
        -- intros [X|X]; [congruence|auto].
        -- intros _. apply fine_alone. apply G9; auto.
        -- tauto.
    + (* PStream *)
      assert (HL : L = Some t) by (apply HLt; auto).
      destruct (free_for Sm t); [|discriminate]. injection TS as W' P' _. symmetry in W', P'.
      split; [rewrite W'; cbn [wL]; apply LK; rewrite P'; auto|rewrite W'; cbn [wS]; apply SK; rewrite P'; cbn; auto
             |eapply (II g); [rewrite W'; reflexivity|reflexivity|auto|rewrite P'; cbn; destruct c0; tauto]|].
      intros j IN. rewrite W' in IN. cbn [wg] in IN. apply CK; auto; [rewrite W'; auto|..]; rewrite P'; cbn [waits fine writing]; auto.
      intros X ->. destruct (X eq_refl) as [X1 X2]. unfold enabled_value. rewrite X1. destruct (lname (gtable g j)); [congruence|auto].
    + (* PWrite *)
      assert (HL : L = Some t) by (apply HLt; auto).
      injection TS as W' P' _. symmetry in W', P'.
      assert (PP : holdsL (pcof c' t) = true /\ holdsS (pcof c' t) = cS c0 /\ (forall j, initing (pcof c' t) j -> initing (PWrite id b c0) j) /\
        (forall j, waits (pcof c' t) j <-> In j (restof c0)) /\ forall j, ~ writing (pcof c' t) j).
      { rewrite P'. destruct c0; cbn; repeat split; auto; tauto. }
      destruct PP as (P1 & P2 & P3 & P4 & P5).
      split; [rewrite W'; cbn [wL]; apply LK; rewrite P1; auto|rewrite W'; cbn [wS]; apply SK; rewrite P2; auto|..].
      * eapply II; [rewrite W'; reflexivity|reflexivity| |intros j H; left; auto].
        cbn [set_loc gtable]. intros j H. destruct (Nat.eq_dec j id) as [->|N]; [rewrite upd_same in H; auto|rewrite upd_other in H; auto].
      * intros j IN. rewrite W' in IN. cbn [wg set_loc greg] in IN. destruct (Nat.eq_dec j id) as [->|N].
        -- pose proof (invC c I id) as X. rewrite EW in X. cbn [wg] in X. destruct (X IN) as [(x & H)|[H1 H2]].
           ++ left. destruct (Nat.eq_dec x t) as [->|N]; [exists t; rewrite P4; rewrite EP in H; exact H|]. exists x. rewrite F; auto.
           ++ right. specialize (H1 t) as FT. rewrite EP in FT. specialize (FT eq_refl). rewrite W'. cbn [wg]. split.
              ** intros x. destruct (Nat.eq_dec x t) as [->|N]; [apply fine_alone; auto|]. rewrite F by auto. apply fine_alone. apply (alone c t); auto. rewrite EW. cbn. auto.
              ** left. unfold coh. cbn [set_loc gtable]. rewrite upd_same. cbn [with_flag lenabled]. rewrite FT. reflexivity.
        -- apply (invC_keep c c' t j I); auto; rewrite ?W', ?EW; cbn [wg set_loc gtable glevel gstreams]; rewrite ?upd_other by auto; auto; rewrite ?EP; cbn [waits fine writing].
           ++ rewrite P4. auto.
           ++ intros _. apply fine_alone. auto.
           ++ congruence.
    + injection TS as W' P' _; symmetry in W', P'. idle_step LK SK II CK W' P'.
    + destruct (linit (gtable g id)); injection TS as W' P' _; symmetry in W', P'; idle_step LK SK II CK W' P'.
    + (* PInit *)
      destruct L as [s|] eqn:ES; [discriminate|]. destruct (linit (gtable g id)) eqn:EI; injection TS as W' P' _; symmetry in W', P'.
      * idle_step LK SK II CK W' P'.
      * split; [rewrite W'; cbn [wL]; apply LK; rewrite P'; auto|rewrite W'; cbn [wS]; apply SK; rewrite P'; auto|..].
        -- intros j H. rewrite W' in *. cbn [wg gtable greg] in *. apply in_or_app. destruct (Nat.eq_dec j id) as [->|N]; [right; left; auto|left].
           pose proof (invI c I j) as X. rewrite EW in X. cbn [wg] in X. apply X. destruct H as [H|(x & H)].
           ++ rewrite upd_other in H by auto. auto.
           ++ destruct (Nat.eq_dec x t) as [->|N']; [rewrite P' in H; cbn in H; congruence|]. right. exists x. rewrite <- F; auto.
        -- intros j IN. destruct (Nat.eq_dec j id) as [->|N]; [left; exists t; rewrite P'; cbn; auto|].
           rewrite W' in IN. cbn [wg greg] in IN. apply in_app_or in IN as [IN|[IN|[]]]; [|congruence].
           apply (invC_keep c c' t j I); auto; rewrite ?W', ?EW; cbn [wg gtable glevel gstreams]; rewrite ?upd_other by auto; auto; rewrite ?EP, ?P'; cbn [waits fine writing]; tauto.
    + (* PInitDone *)
      assert (HL : L = Some t) by (apply HLt; auto).
      injection TS as W' P' _. symmetry in W', P'.
      split; [rewrite W'; cbn [wL]; apply LK; rewrite P'; auto|rewrite W'; cbn [wS]; apply SK; rewrite P'; auto|..].
      * eapply II; [rewrite W'; reflexivity|reflexivity| |rewrite P'; cbn; tauto].
        cbn [set_loc gtable initing]. intros j H. destruct (Nat.eq_dec j id) as [->|N]; [right; auto|rewrite upd_other in H; auto].
      * intros j IN. rewrite W' in IN. cbn [wg set_loc greg] in IN.
        apply (invC_keep c c' t j I); auto; rewrite ?W', ?EW; cbn [wg set_loc gtable glevel gstreams]; auto; rewrite ?EP, ?P'; cbn [waits fine writing]; try tauto;
          (destruct (Nat.eq_dec j id) as [->|N]; [rewrite upd_same; auto|rewrite upd_other; auto]).
    + destruct (Nat.eqb (llevel (gtable g id)) l); injection TS as W' P' _; symmetry in W', P'; idle_step LK SK II CK W' P'.
    + (* PSetLoc *)
      destruct L as [s|] eqn:ES; [discriminate|]. injection TS as W' P' _. symmetry in W', P'.
      split; [rewrite W'; cbn [wL]; apply LK; rewrite P'; auto|rewrite W'; cbn [wS]; apply SK; rewrite P'; auto|..].
      * eapply II; [rewrite W'; reflexivity|reflexivity| |rewrite P'; cbn; tauto].
        cbn [set_loc gtable]. intros j H. destruct (Nat.eq_dec j id) as [->|N]; [rewrite upd_same in H; auto|rewrite upd_other in H; auto].
      * intros j IN. rewrite W' in IN. cbn [wg set_loc greg] in IN. destruct (Nat.eq_dec j id) as [->|N]; [left; exists t; rewrite P'; cbn; auto|].
        apply (invC_keep c c' t j I); auto; rewrite ?W', ?EW; cbn [wg set_loc gtable glevel gstreams]; rewrite ?upd_other by auto; auto; rewrite ?EP, ?P'; cbn [waits fine writing]; tauto.
    + destruct L as [s|] eqn:ES; [discriminate|]. injection TS as W' P' _. symmetry in W', P'. idle_step LK SK II CK W' P'.
    + injection TS as W' P' _; symmetry in W', P'. idle_step LK SK II CK W' P'.
    + injection TS as W' P' _; symmetry in W', P'. idle_step LK SK II CK W' P'.
Qed.
Lemma inv_reachable progs c : reachable progs c -> inv c.
Proof. induction 1; [apply inv_start|eapply inv_step; eauto]. Qed.

(** ** one thread running alone executes the functions *)
Inductive lsteps (me : nat) : world -> pc -> world -> pc -> Prop :=
| ls_refl w p : lsteps me w p w p
| ls_step w p w1 p1 w2 p2 : tstep w me p = Some (w1, p1, None) -> lsteps me w1 p1 w2 p2 -> lsteps me w p w2 p2.
Lemma ls_trans me w p w1 p1 w2 p2 : lsteps me w p w1 p1 -> lsteps me w1 p1 w2 p2 -> lsteps me w p w2 p2.
Proof. induction 1; auto. intros. econstructor; eauto. Qed.
Lemma replace_replace {A} n (x y : A) l : replace n x (replace n y l) = replace n x l.
Proof. revert n. induction l as [|z l IH]; intros [|n]; cbn; auto. f_equal. auto. Qed.
Lemma tstep_nonidle w me p r : tstep w me p = Some r -> p <> PIdle. Proof. intros H ->. discriminate. Qed.
Lemma cstep_nonidle c t p r : nth_error (cthreads c) t = Some (p, r) -> p <> PIdle ->
  cstep c t = match tstep (cw c) t p with None => None | Some (w', p', e) => Some (mkC w' (replace t (p', r) (cthreads c)) (match e with Some x => (t, x) :: cout c | None => cout c end)) end.
Proof. intros E N. unfold cstep. rewrite E. destruct p; auto. congruence. Qed.
Lemma solo_lsteps t w p w' p' : lsteps t w p w' p' -> forall c r, cw c = w -> nth_error (cthreads c) t = Some (p, r) ->
  solo t c (mkC w' (replace t (p', r) (cthreads c)) (cout c)).
Proof.
  induction 1 as [w p|w p w1 p1 w2 p2 S _ IH]; intros c r E N.
  - replace (replace t (p, r) (cthreads c)) with (cthreads c). { subst. destruct c. constructor. }
    clear - N. revert t N. generalize (cthreads c). induction l as [|x l IH]; intros [|t] N; cbn in *; try discriminate; [congruence|]. f_equal. auto.
  - econstructor. { rewrite (cstep_nonidle c t p r N (tstep_nonidle _ _ _ _ S)), E, S. reflexivity. }
    specialize (IH (mkC w1 (replace t (p1, r) (cthreads c)) (cout c)) r eq_refl). cbn [cthreads cout] in IH. rewrite replace_replace in IH. apply IH.
    rewrite nth_replace, Nat.eqb_refl, N. auto.
Qed.
Lemma solo_trans t a b c : solo t a b -> solo t b c -> solo t a c.
Proof. induction 1; auto. intros. econstructor; eauto. Qed.
Definition after (c : ckont) (id : nat) : pc := match c with CNotify rest k => PLoop rest k | CInit l cnd => PInitDone id l cnd | CLevel cnd => PUnlockL id cnd end.
Lemma ls_check me g Sm id c : free_for Sm me = true -> lsteps me (mkW g (Some me) Sm) (PCheck id c) (mkW (check g id) (Some me) Sm) (after c id).
Proof.
  intros FR. assert (E : exists b, b = enabled_value g (gtable g id) /\ lsteps me (mkW g (Some me) Sm) (PCheck id c) (mkW g (Some me) Sm) (PWrite id b c)).
  { unfold enabled_value. destruct (glevel g <=? llevel (gtable g id)) eqn:EL.
    - destruct (lname (gtable g id)) as [|x y] eqn:EN.
      + exists true. split; auto. econstructor; [|constructor]. cbn. rewrite EL, EN. auto.
      + eexists. split; [reflexivity|]. econstructor. { cbn. rewrite EL, EN. reflexivity. } econstructor; [|constructor]. cbn. rewrite FR, EN. auto.
    - exists false. split; auto. econstructor; [|constructor]. cbn. rewrite EL. auto. }
  destruct E as (b & Eb & LS). eapply ls_trans; [exact LS|]. econstructor; [|constructor]. unfold tstep. cbn [wg wL wS]. rewrite Eb. destruct c; reflexivity.
Qed.
Lemma ls_loop me Sm k : free_for Sm me = true -> forall l g, lsteps me (mkW g (Some me) Sm) (PLoop l k) (mkW (fold_left check l g) (Some me) Sm) (PLoop [] k).
Proof.
  intros FR. induction l as [|id l IH]; intros g; [constructor|]. econstructor; [reflexivity|]. eapply ls_trans; [apply ls_check; auto|]. apply IH.
Qed.
Lemma ls_notify me Sm k g : free_for Sm me = true -> lsteps me (mkW g None Sm) (PNotify k) (mkW (notify g) (Some me) Sm) (PLoop [] k).
Proof. intros FR. econstructor; [reflexivity|]. apply ls_loop. auto. Qed.
Lemma me_free me : free_for (Some me) me = true. Proof. cbn. apply Nat.eqb_refl. Qed.

Lemma solo_exec c t o r : nth_error (cthreads c) t = Some (PIdle, o :: r) -> wL (cw c) = None -> wS (cw c) = None ->
  exists c', solo t c c' /\ cw c' = mkW (fst (exec (wg (cw c)) o)) None None /\ cthreads c' = replace t (PIdle, r) (cthreads c) /\
    cout c' = match o, snd (exec (wg (cw c)) o) with Log id _ _ _, Some b => (t, (id, b)) :: cout c | _, _ => cout c end.
Proof.
  intros N HL HS. set (g := wg (cw c)).
  assert (W : cw c = mkW g None None) by (unfold g; destruct (cw c); cbn in *; subst; auto).
  set (c1 := mkC (cw c) (replace t (begin o, r) (cthreads c)) (cout c)).
  assert (S1 : cstep c t = Some c1) by (unfold cstep; rewrite N; auto).
  assert (N1 : nth_error (cthreads c1) t = Some (begin o, r)) by (cbn [c1 cthreads]; rewrite nth_replace, Nat.eqb_refl, N; auto).
  assert (D : forall w', lsteps t (mkW g None None) (begin o) w' PIdle -> exists c', solo t c c' /\ cw c' = w' /\ cthreads c' = replace t (PIdle, r) (cthreads c) /\ cout c' = cout c).
  { intros w' L. eexists. split; [econstructor; [exact S1|]; eapply solo_lsteps; [exact L|cbn [c1 cw]; auto|exact N1]|]. cbn [cw cthreads cout c1]. rewrite replace_replace. auto. }
  destruct o as [l|n|n|id name l cnd]; cbn [begin exec] in *.
  - cbn [fst snd]. apply D. unfold setLevel. destruct (Nat.eqb l (glevel g)) eqn:E.
    + econstructor; [|constructor]. cbn. rewrite E. auto.
    + econstructor. { cbn. rewrite E. reflexivity. } eapply ls_trans; [apply ls_notify; auto|]. econstructor; [reflexivity|constructor].
  - cbn [fst snd]. apply D. unfold enableStream. econstructor; [reflexivity|]. eapply ls_trans; [apply ls_notify; apply me_free|].
    econstructor; [reflexivity|]. econstructor; [reflexivity|constructor].
  - cbn [fst snd]. apply D. unfold disableStream. destruct (mem _ (gstreams g)) eqn:E.
    + econstructor. { cbn. rewrite E. reflexivity. } eapply ls_trans; [apply ls_notify; apply me_free|]. econstructor; [reflexivity|]. econstructor; [reflexivity|constructor].
    + econstructor; [|constructor]. cbn. rewrite E. reflexivity.
  - clear D. unfold define_location. cbn zeta. set (g1 := if linit (gtable g id) then g else initialize g id name l).
    set (g2 := if Nat.eqb (llevel (gtable g1 id)) l then g1 else check (set_loc g1 id (with_level (gtable g1 id) l)) id). cbn [fst snd].
    assert (L1 : lsteps t (mkW g None None) (PLog id name l cnd) (mkW g1 None None) (PLevel id l cnd)).
    { unfold g1, initialize. destruct (linit (gtable g id)) eqn:E.
      - econstructor; [|constructor]. cbn. rewrite E. auto.
      - econstructor. { cbn. rewrite E. reflexivity. } econstructor. { cbn. rewrite E. reflexivity. }
        eapply ls_trans; [apply ls_check; auto|]. econstructor; [reflexivity|constructor]. }
    assert (L2 : lsteps t (mkW g1 None None) (PLevel id l cnd) (mkW g2 None None) (PTest id cnd)).
    { unfold g2. destruct (Nat.eqb (llevel (gtable g1 id)) l) eqn:E.
      - econstructor; [|constructor]. cbn. rewrite E. auto.
      - econstructor. { cbn. rewrite E. reflexivity. } econstructor; [reflexivity|]. econstructor; [reflexivity|]. eapply ls_trans; [apply ls_check; auto|].
        econstructor; [reflexivity|constructor]. }
    pose proof (solo_lsteps t _ _ _ _ (ls_trans _ _ _ _ _ _ _ L1 L2) c1 r W N1) as SL. cbn [c1 cthreads cout] in SL. rewrite replace_replace in SL.
    eexists. split; [econstructor; [exact S1|]; eapply solo_trans; [exact SL|]; econstructor; [|constructor]|].
    + rewrite (cstep_nonidle _ t (PTest id cnd) r); [cbn [tstep cw wg]; reflexivity| |discriminate]. cbn [cthreads]. rewrite nth_replace, Nat.eqb_refl, N. auto.
    + cbn [cw cthreads cout]. rewrite replace_replace. auto.
Qed.

(** ** deadlocks *)
Lemma blocked c t p r : inv c -> nth_error (cthreads c) t = Some (p, r) -> cstep c t = None ->
  (p = PIdle /\ r = []) \/ (wL (cw c) <> None /\ holdsL p = false) \/ ((exists i k, p = PStream i k) /\ cS (match p with PStream _ k => k | _ => CLevel true end) = false /\ wS (cw c) <> None) \/
  (holdsL p = false /\ holdsS p = false /\ wS (cw c) <> None).
Proof.
  intros I N S. unfold cstep in S. rewrite N in S.
  assert (HS := invS c I t). unfold pcof in HS. rewrite N in HS.
  destruct (cw c) as [g L Sm]. cbn [wL wS] in *.
  destruct p; try (unfold tstep in S; cbn [wg wL wS] in S).
  - destruct r; [auto|discriminate].
  - destruct (Nat.eqb l (glevel g)); discriminate.
  - destruct Sm; [|discriminate]. do 3 right. repeat split; auto; discriminate.
  - destruct Sm; [|destruct (mem n (gstreams g)); discriminate]. do 3 right. repeat split; auto; discriminate.
  - destruct L; [|discriminate]. right. left. split; auto; discriminate.
  - destruct rest; [destruct k; discriminate|discriminate].
  - destruct (glevel g <=? llevel (gtable g id)); [destruct (lname (gtable g id)); discriminate|discriminate].
  - destruct (free_for Sm t) eqn:E; [discriminate|]. right. right. left. split; [eauto|]. destruct Sm as [s|]; [|discriminate]. split; [|discriminate].
    cbn [holdsS] in HS. destruct (cS c0); auto. exfalso. assert (X : Some s = Some t) by (apply HS; auto). injection X as ->. cbn in E. rewrite Nat.eqb_refl in E. discriminate.
  - destruct c0; discriminate.
  - discriminate.
  - destruct (linit (gtable g id)); discriminate.
  - destruct L; [|destruct (linit (gtable g id)); discriminate]. right. left. split; auto; discriminate.
  - discriminate.
  - destruct (Nat.eqb (llevel (gtable g id)) l); discriminate.
  - destruct L; [|discriminate]. right. left. split; auto; discriminate.
  - destruct L; [|discriminate]. right. left. split; auto; discriminate.
  - discriminate.
  - discriminate.
Qed.
Lemma owner c t p : inv c -> wL (cw c) = Some t -> pcof c t = p -> holdsL p = true.
Proof. intros I H <-. apply (invL c I). auto. Qed.
Lemma stuck_cycle c : inv c -> stuck c -> exists t1 t2 i k, t1 <> t2 /\ pcof c t1 = PNotify KUnlockS /\ wS (cw c) = Some t1 /\
  pcof c t2 = PStream i k /\ wL (cw c) = Some t2.
Proof.
  intros I [NF ST].
  assert (TH : forall t, pcof c t <> PIdle -> exists r, nth_error (cthreads c) t = Some (pcof c t, r)).
  { intros t H. unfold pcof in *. destruct (nth_error (cthreads c) t) as [[p r]|]; [eauto|congruence]. }
  (* the owner of the locations mutex, if any, waits for the streams mutex *)
  assert (OL : forall t, wL (cw c) = Some t -> exists i k, pcof c t = PStream i k /\ cS k = false /\ wS (cw c) <> None).
  { intros t H. pose proof (owner c t _ I H eq_refl) as O. destruct (TH t) as (r & N); [intros X; rewrite X in O; discriminate|].
    destruct (blocked c t _ r I N (ST t)) as [[X _]|[[_ X]|[(( i & k & E) & X & Y)|[X _]]]].
    - rewrite X in O. discriminate.
    - congruence.
    - exists i, k. rewrite E in X. auto.
    - congruence. }
  (* the owner of the streams mutex, if any, waits for the locations mutex *)
  assert (OS : forall t, wS (cw c) = Some t -> pcof c t = PNotify KUnlockS /\ wL (cw c) <> None).
  { intros t H. assert (O : holdsS (pcof c t) = true) by (apply (invS c I); auto).
    destruct (TH t) as (r & N); [intros X; rewrite X in O; discriminate|].
    destruct (blocked c t _ r I N (ST t)) as [[X _]|[[Y X]|[((i & k & E) & X & Y)|[X [Z Y]]]]].
    - rewrite X in O. discriminate.
    - split; auto. destruct (pcof c t); try discriminate; cbn in O, X; [destruct k; [discriminate|auto]| ].
      (* PUnlockS is never blocked *)
      exfalso. specialize (ST t). unfold cstep in ST. rewrite N in ST. cbn in ST. discriminate.
    - rewrite E in X, O. cbn in O. congruence.
    - congruence. }
  assert (LOCKED : exists t, wL (cw c) = Some t).
  { (* some thread is not finished *)
    assert (EX : exists t p r, nth_error (cthreads c) t = Some (p, r) /\ (p, r) <> (PIdle, [])).
    { unfold finished in NF. clear - NF. induction (cthreads c) as [|[p r] l IH]; [exfalso; apply NF; constructor|].
      assert (DEC : (p, r) = (PIdle, []) \/ (p, r) <> (PIdle, [])) by (destruct p, r; auto; right; discriminate). destruct DEC as [E|E].
      - destruct IH as (t & q & s & A & B). { intros F. apply NF. constructor; auto. } exists (S t), q, s. auto.
      - exists 0, p, r. auto. }
    destruct EX as (t & p & r & N & NI). destruct (blocked c t p r I N (ST t)) as [[X1 X2]|[[Y X]|[(E & X & Y)|[X [Z Y]]]]].
    - subst. congruence.
    - destruct (wL (cw c)); [eauto|congruence].
    - destruct (wS (cw c)) as [s|] eqn:ES; [|congruence]. destruct (OS s eq_refl) as [_ HH]. destruct (wL (cw c)); [eauto|congruence].
    - destruct (wS (cw c)) as [s|] eqn:ES; [|congruence]. destruct (OS s eq_refl) as [_ HH]. destruct (wL (cw c)); [eauto|congruence]. }
  destruct LOCKED as (t2 & HL). destruct (OL t2 HL) as (i & k & E & CS & HS). destruct (wS (cw c)) as [t1|] eqn:ES; [|congruence].
  destruct (OS t1 eq_refl) as [E1 _]. exists t1, t2, i, k. repeat split; auto. intros ->. congruence.
Qed.
(** threads that only do one kind of call *)
Definition streamop (o : op) : bool := match o with Enable _ | Disable _ => true | _ => false end.
Definition streampc (p : pc) : bool := holdsS p || match p with PEnable _ | PDisable _ => true | _ => false end.
Lemma no_streams_inv progs c : Forall (Forall (fun o => streamop o = false)) progs -> reachable progs c ->
  forall t p r, nth_error (cthreads c) t = Some (p, r) -> streampc p = false /\ Forall (fun o => streamop o = false) r.
Proof.
  intros F R. induction R as [|c t c' R IH S]; intros x p r N.
  - cbn [start cthreads] in N. rewrite nth_error_map in N. destruct (nth_error progs x) eqn:E; [|discriminate]. injection N as <- <-. split; auto.
    apply nth_error_In in E. rewrite Forall_forall in F. auto.
  - unfold cstep in S. destruct (nth_error (cthreads c) t) as [[q s]|] eqn:E; [|discriminate]. destruct (IH t q s E) as [IH1 IH2].
    assert (G : forall w q' s' out, c' = mkC w (replace t (q', s') (cthreads c)) out -> streampc q' = false -> Forall (fun o => streamop o = false) s' ->
        streampc p = false /\ Forall (fun o => streamop o = false) r).
    { intros w q' s' out -> A B. cbn [cthreads] in N. rewrite nth_replace, E in N. destruct (Nat.eqb x t); [injection N as <- <-; auto|eapply IH; eauto]. }
    assert (T : forall w' q' e, tstep (cw c) t q = Some (w', q', e) -> streampc q' = false).
    { intros w' q' e T. destruct (cw c) as [g L Sm]. unfold tstep in T. cbn [wg wL wS] in T. unfold streampc in *. destruct q; cbn in IH1; try discriminate.
      - destruct (Nat.eqb l (glevel g)); injection T as <- <- <-; auto.
      - destruct L; [discriminate|]. injection T as <- <- <-. cbn. destruct k; [auto|discriminate].
      - destruct k; [|discriminate]. destruct rest; injection T as <- <- <-; auto.
      - rewrite orb_false_r in IH1. destruct (glevel g <=? llevel (gtable g id)); [destruct (lname (gtable g id))|]; injection T as <- <- <-; cbn; rewrite IH1; auto.
      - rewrite orb_false_r in IH1. destruct (free_for Sm t); [|discriminate]. injection T as <- <- <-; cbn; rewrite IH1; auto.
      - rewrite orb_false_r in IH1. injection T as <- <- <-. destruct c0; cbn in *; auto. rewrite IH1. auto.
      - destruct (linit (gtable g id)); injection T as <- <- <-; auto.
      - destruct L; [discriminate|]. destruct (linit (gtable g id)); injection T as <- <- <-; auto.
      - injection T as <- <- <-; auto.
      - destruct (Nat.eqb (llevel (gtable g id)) l); injection T as <- <- <-; auto.
      - destruct L; [discriminate|]. injection T as <- <- <-; auto.
      - destruct L; [discriminate|]. injection T as <- <- <-; auto.
      - injection T as <- <- <-; auto.
      - injection T as <- <- <-; auto. }
    destruct q; try (match type of S with context [tstep ?a ?b ?d] => destruct (tstep a b d) as [[[w' p'] e]|] eqn:TS end; [|discriminate]; injection S as <-; eapply G; [reflexivity|eapply T; reflexivity|auto]).
    destruct s as [|o s]; [discriminate|]. injection S as <-. inversion IH2; subst. eapply G; [reflexivity| |auto]. destruct o; cbn in *; auto; discriminate.
Qed.
Lemma only_streams_inv progs c : Forall (Forall (fun o => streamop o = true)) progs -> reachable progs c ->
  forall t p r, nth_error (cthreads c) t = Some (p, r) -> (p = PIdle \/ streampc p = true) /\ Forall (fun o => streamop o = true) r.
Proof.
  intros F R. induction R as [|c t c' R IH S]; intros x p r N.
  - cbn [start cthreads] in N. rewrite nth_error_map in N. destruct (nth_error progs x) eqn:E; [|discriminate]. injection N as <- <-. split; auto.
    apply nth_error_In in E. rewrite Forall_forall in F. auto.
  - unfold cstep in S. destruct (nth_error (cthreads c) t) as [[q s]|] eqn:E; [|discriminate]. destruct (IH t q s E) as [IH1 IH2].
    assert (G : forall w q' s' out, c' = mkC w (replace t (q', s') (cthreads c)) out -> q' = PIdle \/ streampc q' = true -> Forall (fun o => streamop o = true) s' ->
        (p = PIdle \/ streampc p = true) /\ Forall (fun o => streamop o = true) r).
    { intros w q' s' out -> A B. cbn [cthreads] in N. rewrite nth_replace, E in N. destruct (Nat.eqb x t); [injection N as <- <-; auto|eapply IH; eauto]. }
    assert (T : forall w' q' e, tstep (cw c) t q = Some (w', q', e) -> q' = PIdle \/ streampc q' = true).
    { intros w' q' e T. destruct IH1 as [->|IH1]; [discriminate|]. destruct (cw c) as [g L Sm]. unfold tstep in T. cbn [wg wL wS] in T. unfold streampc in *. destruct q; cbn in IH1; try discriminate.
      - destruct Sm; [discriminate|]. injection T as <- <- <-; auto.
      - destruct Sm; [discriminate|]. destruct (mem n (gstreams g)); injection T as <- <- <-; auto.
      - destruct L; [discriminate|]. injection T as <- <- <-. right. cbn. destruct k; [discriminate|auto].
      - destruct k; [discriminate|]. destruct rest; injection T as <- <- <-; auto.
      - rewrite orb_false_r in IH1. destruct (glevel g <=? llevel (gtable g id)); [destruct (lname (gtable g id))|]; injection T as <- <- <-; cbn; rewrite IH1; auto.
      - rewrite orb_false_r in IH1. destruct (free_for Sm t); [|discriminate]. injection T as <- <- <-; cbn; rewrite IH1; auto.
      - rewrite orb_false_r in IH1. injection T as <- <- <-. destruct c0; cbn in *; auto; try discriminate. rewrite IH1. auto.
      - injection T as <- <- <-; auto. }
    destruct q; try (match type of S with context [tstep ?a ?b ?d] => destruct (tstep a b d) as [[[w' p'] e]|] eqn:TS end; [|discriminate]; injection S as <-; eapply G; [reflexivity|eapply T; reflexivity|auto]).
    destruct s as [|o s]; [discriminate|]. injection S as <-. inversion IH2; subst. eapply G; [reflexivity| |auto]. right. destruct o; cbn in *; auto; discriminate.
Qed.
