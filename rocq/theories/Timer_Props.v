(** C27, C28: timer registry and timer state machine. *)
From Verif Require Import Timer_Model Timer_Spec Timer_Proofs.
From Coq Require Import Lia Lqa.
Import ListNotations.
Open Scope nat_scope.

(** C28: for every sequence of operations over any number of tags, handles and Timer objects, every result equals
    that of the specification machine (Timer_Spec): violations throw, the statistics are those of the list of the
    intervals completed since the last reset. *)
Theorem timer_refines_spec : forall ops,
  Forall2 res_ok (snd (run initSt ops)) (snd (srun spec0 ops)).
Proof. intros. apply (sim_run ops initSt spec0 Sim0). Qed.

(** Violations of the start/stop protocol throw and change nothing at all (whole state unchanged). *)
Theorem timer_violations_change_nothing : forall s i now,
  (snd (step s (OStart i now)) = RThrow -> fst (step s (OStart i now)) = s) /\
  (snd (step s (OStop i now)) = RThrow -> fst (step s (OStop i now)) = s) /\
  (snd (step s (OIsTiming i)) = RBool true -> snd (step s (OStart i now)) = RThrow /\ snd (step s (OStop i now)) = RUnit) /\
  (snd (step s (OIsTiming i)) = RBool false -> snd (step s (OStop i now)) = RThrow /\ snd (step s (OStart i now)) = RUnit).
Proof.
  intros s i now. cbn [step]. unfold timer_start, timer_stop. destruct (lookup_obj (objs s) i) as [t|]; cbn [fst snd].
  2:{ repeat split; congruence. }
  destruct (m_timing t); cbn; repeat split; congruence.
Qed.

(** After any history, stop on a timing object appends exactly one sample (now - start time) to the statistics of the
    timer's own handle, destroying it instead does the same, and no other handle's statistics change. *)
Definition stats (s : state) (h : nat) (l : list Q) : Prop :=
  match snd (step s (OStats h)) with RStats a => stats_of a l | _ => False end.
Theorem completed_interval_adds_one_sample : forall ops i t h t0 t1,
  let s := fst (run initSt ops) in
  lookup_obj (objs s) i = Some t -> m_timing t = false -> m_handle t = h ->
  let s1 := fst (step s (OStart i t0)) in
  (forall k, step s1 (OStats k) = (s1, snd (step s (OStats k)))) /\
  (forall o, o = OStop i t1 \/ o = ODestroy i t1 ->
    (exists l, stats s h l /\ stats (fst (step s1 o)) h (l ++ [((t1 - t0) # 1000000000)%Q])) /\
    (forall k, k <> h -> snd (step (fst (step s1 o)) (OStats k)) = snd (step s (OStats k)))).
Proof.
  intros ops i tm h t0 t1 s EO Ht Hh s1.
  unfold s1. cbn [step]. unfold timer_start. rewrite EO, Ht. cbn [fst].
  split. { intros k. reflexivity. }
  assert (SIM := proj1 (sim_run ops initSt spec0 Sim0)). fold s in SIM. set (p := fst (srun spec0 ops)) in *.
  assert (HL : h < length (reg p)).
  { pose proof (sim_obj _ _ SIM i) as J. rewrite EO in J. destruct (live p i) as [[h' r]|]; [|destruct J].
    destruct J as (E & K & _). subst. exact K. }
  assert (G : forall o, o = OStop i t1 \/ o = ODestroy i t1 ->
    timers (fst (step (mkSt (tagMap s) (timers s) (set_obj (objs s) i (mkTimer true (m_handle tm) t0))) o)) =
    update (timers s) h (fun a => accAdd a (seconds_between t0 t1))).
  { intros o [-> | ->]; cbn [step]; unfold timer_stop; cbn [objs]; rewrite lookup_set, Nat.eqb_refl;
      cbn [m_timing negb fst timers addTime m_handle m_time]; now subst h. }
  intros o Ho. unfold stats. cbn [step snd]. unfold get_stats. rewrite (G o Ho). split.
  - exists (samples p h). rewrite update_nth, Nat.eqb_refl, (sim_acc _ _ SIM h HL). cbn [option_map].
    split; [apply stats_accOf|]. change (seconds_between t0 t1) with ((t1 - t0) # 1000000000)%Q.
    rewrite <- accOf_snoc. apply stats_accOf.
  - intros k Hk. rewrite update_nth. destruct (Nat.eqb_spec k h); [congruence|auto].
Qed.

(** C27.  The tags registered by a history, in order of first use. *)
Definition answer (ops : list op) (o : op) : result := snd (step (fst (run initSt ops)) o).

Lemma answer_ok : forall ops o, res_ok (answer ops o) (snd (sstep (fst (srun spec0 ops)) o)).
Proof. intros. apply sim_step. apply (sim_run ops initSt spec0 Sim0). Qed.
Lemma answer_handle : forall ops t, exists h, answer ops (OGetHandle t) = RHandle h /\
  h = handle_of (register (fst (srun spec0 ops)) t) t.
Proof.
  intros. pose proof (answer_ok ops (OGetHandle t)) as A. cbn [sstep snd] in A.
  destruct (answer ops (OGetHandle t)); cbn in A; try destruct A. eauto.
Qed.

Lemma fst_run_app : forall a b s, fst (run s (a ++ b)) = fst (run (fst (run s a)) b).
Proof. intros. rewrite run_app. destruct (run s a); cbn. now destruct (run s0 b). Qed.
Lemma fst_srun_app : forall a b s, fst (srun s (a ++ b)) = fst (srun (fst (srun s a)) b).
Proof. intros. rewrite srun_app. destruct (srun s a); cbn. now destruct (srun s0 b). Qed.

(** getHandle(t) asked at one point of any history and getHandle(t') asked at any later point return the same handle
    exactly when the tags are equal. *)
Theorem handles_stable_and_injective : forall ops more t t' h h',
  answer ops (OGetHandle t) = RHandle h ->
  answer (ops ++ OGetHandle t :: more) (OGetHandle t') = RHandle h' ->
  (h = h' <-> t = t').
Proof.
  intros ops more t t' h h' H H'.
  destruct (answer_handle ops t) as (k & E & Hk). rewrite H in E. injection E as <-.
  destruct (answer_handle (ops ++ OGetHandle t :: more) t') as (k & E & Hk'). rewrite H' in E. injection E as <-.
  set (p := fst (srun spec0 ops)) in *.
  set (p' := fst (srun spec0 (ops ++ OGetHandle t :: more))) in *.
  assert (X : exists l, reg (register p' t') = reg (register p t) ++ l).
  { unfold p'. change (OGetHandle t :: more) with ([OGetHandle t] ++ more). rewrite app_assoc, fst_srun_app, fst_srun_app.
    fold p. cbn [srun sstep fst]. destruct (srun_reg more (register p t)) as [l El].
    set (q := fst (srun (register p t) more)) in *.
    destruct (sstep_reg (OGetHandle t') q) as [l' El']. cbn [sstep fst] in El'. rewrite El', El, <- app_assoc. eauto. }
  destruct X as [l X]. unfold handle_of in *.
  assert (Hh : h = pos t (reg (register p' t'))) by (rewrite X, pos_app_l; auto using register_In).
  split; [|intros ->; congruence].
  intros <-. rewrite Hh in Hk'.
  assert (I : In t (reg (register p' t'))) by (rewrite X; apply in_or_app; left; apply register_In).
  apply pos_nth in I. pose proof (pos_nth _ _ (register_In p' t')) as I'. rewrite Hk' in I. congruence.
Qed.

(** Handles are dense: the valid handles are exactly 0 .. n-1 for some n (valid: getTag and the statistics do not
    throw), every valid handle is getHandle of its tag, and a tag not seen before gets the handle n. *)
Theorem handles_dense : forall ops, exists n,
  (forall h, (h < n <-> exists t, answer ops (OGetTag h) = RTag t) /\
             (n <= h <-> answer ops (OGetTag h) = RThrow) /\
             (n <= h <-> answer ops (OStats h) = RThrow)) /\
  (forall h t, answer ops (OGetTag h) = RTag t <-> h < n /\ answer ops (OGetHandle t) = RHandle h) /\
  (forall t, answer ops (OGetHandle t) = RHandle n <-> forall h, answer ops (OGetTag h) <> RTag t) /\
  (forall t h, answer ops (OGetHandle t) = RHandle h -> answer (ops ++ [OGetHandle t]) (OGetTag h) = RTag t).
Proof.
  intros ops. set (p := fst (srun spec0 ops)). exists (length (reg p)).
  assert (SIM := proj1 (sim_run ops initSt spec0 Sim0)). fold p in SIM.
  assert (GT : forall h, answer ops (OGetTag h) = match nth_error (reg p) h with Some t => RTag t | None => RThrow end).
  { intros h. pose proof (answer_ok ops (OGetTag h)) as A. fold p in A. cbn [sstep snd] in A.
    destruct (nth_error (reg p) h); destruct (answer ops (OGetTag h)); cbn in A; try destruct A; congruence. }
  assert (GH : forall t, answer ops (OGetHandle t) = RHandle (handle_of (register p t) t)).
  { intros t. destruct (answer_handle ops t) as (h & E & K). now subst. }
  assert (PN : forall h t, nth_error (reg p) h = Some t -> pos t (reg p) = h).
  { intros h t E. pose proof (pos_nth t (reg p) (nth_error_In _ _ E)) as E'.
    apply (proj1 (NoDup_nth_error (reg p)) (sim_nd _ _ SIM)); [apply pos_lt; now apply nth_error_In in E|congruence]. }
  assert (RI : forall t, In t (reg p) -> register p t = p).
  { intros t I. unfold register. destruct (in_dec tag_eq_dec t (reg p)); tauto. }
  assert (RO : forall t, ~ In t (reg p) -> reg (register p t) = reg p ++ [t]).
  { intros t I. unfold register. destruct (in_dec tag_eq_dec t (reg p)); tauto. }
  split; [|split; [|split]].
  - intros h. rewrite !GT. split; [|split].
    + destruct (nth_error (reg p) h) eqn:E.
      * assert (h < length (reg p)) by (apply nth_error_Some; congruence). split; eauto.
      * apply nth_error_None in E. split; [lia|intros [? K]; discriminate].
    + destruct (nth_error (reg p) h) eqn:E.
      * assert (h < length (reg p)) by (apply nth_error_Some; congruence). split; [lia|discriminate].
      * apply nth_error_None in E. tauto.
    + pose proof (answer_ok ops (OStats h)) as A. fold p in A. cbn [sstep snd] in A.
      destruct (Nat.ltb_spec h (length (reg p))); destruct (answer ops (OStats h)); cbn in A; try (now destruct A);
        (split; [try lia; reflexivity|first [discriminate|lia]]).
  - intros h t. rewrite GT, GH. split.
    + destruct (nth_error (reg p) h) eqn:E; [|discriminate]. intros K; injection K as <-.
      split; [apply nth_error_Some; congruence|]. unfold handle_of. rewrite RI by now apply nth_error_In in E.
      now rewrite (PN h).
    + intros [L K]. injection K as K. destruct (in_dec tag_eq_dec t (reg p)) as [I|I].
      * unfold handle_of in K. rewrite RI in K by auto. rewrite <- K, (pos_nth t _ I). reflexivity.
      * unfold handle_of in K. rewrite RO, pos_app_r in K by auto. lia.
  - intros t. rewrite GH. split.
    + intros K h. rewrite GT. destruct (nth_error (reg p) h) eqn:E; [|discriminate]. intros X; injection X as ->.
      apply nth_error_In in E. unfold handle_of in K. rewrite RI in K by auto. apply pos_lt in E. injection K. lia.
    + intros K. destruct (in_dec tag_eq_dec t (reg p)) as [I|I].
      * apply pos_nth in I. specialize (K (pos t (reg p))). rewrite GT, I in K. congruence.
      * unfold handle_of. rewrite RO, pos_app_r by auto. reflexivity.
  - intros t h. rewrite GH. intros K; injection K as <-.
    pose proof (answer_ok (ops ++ [OGetHandle t]) (OGetTag (handle_of (register p t) t))) as A.
    rewrite fst_srun_app in A. fold p in A. cbn [srun sstep fst snd] in A. unfold handle_of in A at 2.
    rewrite (pos_nth _ _ (register_In p t)) in A.
    destruct (answer (ops ++ [OGetHandle t]) (OGetTag (handle_of (register p t) t))); cbn in A; try destruct A; congruence.
Qed.

(** Registering tags and creating Timer objects never changes any existing statistics. *)
Theorem creation_disturbs_nothing : forall ops o h a,
  (exists t, o = OGetHandle t) \/ (exists i t st now, o = ONewTag i t st now) \/
  (exists i k st now, o = ONewHandle i k st now) ->
  answer ops (OStats h) = RStats a -> answer (ops ++ [o]) (OStats h) = RStats a.
Proof.
  intros ops o h a Ho H. unfold answer in *. rewrite fst_run_app. set (s := fst (run initSt ops)) in *.
  assert (K : forall x y : acc * nat, True) by auto. clear K.
  assert (G : exists l, timers (fst (step s o)) = timers s ++ l).
  { assert (GH : forall t, exists l, timers (fst (getHandle s t)) = timers s ++ l).
    { intros t. unfold getHandle. destruct (lookup_tag (tagMap s) t); cbn; [exists []; now rewrite app_nil_r|eauto]. }
    assert (NO : forall s' i k st now, timers (fst (new_obj s' i k st now)) = timers s').
    { intros. unfold new_obj. destruct st; auto. unfold timer_start. destruct (lookup_obj _ _) as [x|]; auto.
      destruct (m_timing x); auto. }
    destruct Ho as [[t ->]|[(i & t & st & now & ->)|(i & k & st & now & ->)]]; cbn [step].
    - specialize (GH t). destruct (getHandle s t). exact GH.
    - destruct (lookup_obj (objs s) i); [exists []; cbn; now rewrite app_nil_r|].
      specialize (GH t). destruct (getHandle s t); cbn in GH. now rewrite NO.
    - destruct (lookup_obj (objs s) i); [exists []; cbn; now rewrite app_nil_r|].
      destruct (k <? length (timers s)); [rewrite NO|]; exists []; cbn; now rewrite app_nil_r. }
  destruct G as [l G].
  cbn [run fst]. destruct (step s o) as [s1 r] eqn:E. cbn [fst] in *. cbn [step snd] in *. unfold get_stats in *. rewrite G.
  destruct (nth_error (timers s) h) eqn:N; [|discriminate].
  rewrite nth_error_app1 by (apply nth_error_Some; congruence). now rewrite N.
Qed.

(** Concrete run: two tags, a completed interval, a protocol violation, a destroyed running timer, a reset. *)
Definition ex_ops : list op :=
  [ ONewTag 0 (str "a") false 1000; ONewTag 1 (str "b") true 0; OStop 0 3000; OStop 0 4000; OStart 1 5000;
    ODestroy 1 8000; OStatsTag (str "a"); OStats 1; OReset 0; OStats 0; OGetTag 1; OGetHandle (str "b"); OGetTag 2 ].
Example ex_spec : snd (srun spec0 ex_ops) =
  [SUnit; SUnit; SUnit; SThrow; SUnit; SUnit; SStats [(2000 # 1000000000)%Q]; SStats [(3000 # 1000000000)%Q];
   SUnit; SStats []; STag (str "b"); SHandle 1; SThrow].
Proof. vm_compute. reflexivity. Qed.
Example ex_c28_hyp : exists t,
  lookup_obj (objs (fst (run initSt [ONewTag 7 (str "x") true 0]))) 7 = Some t /\ m_timing t = false /\ m_handle t = 0.
Proof. eexists. vm_compute. repeat split. Qed.
Example ex_c27_hyp : answer [OGetHandle (str "x")] (OGetHandle (str "y")) = RHandle 1 /\
  answer ([OGetHandle (str "x")] ++ OGetHandle (str "y") :: [OGetHandle (str "z")]) (OGetHandle (str "x")) = RHandle 0.
Proof. vm_compute. auto. Qed.

Print Assumptions timer_refines_spec.
Print Assumptions timer_violations_change_nothing.
Print Assumptions completed_interval_adds_one_sample.
Print Assumptions handles_stable_and_injective.
Print Assumptions handles_dense.
Print Assumptions creation_disturbs_nothing.
