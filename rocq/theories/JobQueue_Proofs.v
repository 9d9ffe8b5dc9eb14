(** The inductive invariant of the JobQueue transition system. *)
From Verif Require Import JobQueue_Model.
Import ListNotations.

(** ** lists *)
Lemma upd_length : forall A (l : list A) i x, length (upd l i x) = length l.
Proof. induction l; intros [|i] x; simpl; auto. Qed.
Lemma upd_nth : forall A (l : list A) i x j,
  nth_error (upd l i x) j = if Nat.eqb j i then option_map (fun _ => x) (nth_error l j) else nth_error l j.
Proof. induction l; intros [|i] x [|j]; simpl; auto. destruct (j =? i); reflexivity. Qed.
Lemma upd_same : forall A (l : list A) i x a, nth_error l i = Some a -> nth_error (upd l i x) i = Some x.
Proof. intros. rewrite upd_nth, Nat.eqb_refl, H. reflexivity. Qed.
Lemma upd_other : forall A (l : list A) i x j, j <> i -> nth_error (upd l i x) j = nth_error l j.
Proof. intros. rewrite upd_nth. destruct (Nat.eqb_spec j i); congruence. Qed.
Lemma upd_In : forall A (l : list A) i x y, In y (upd l i x) -> y = x \/ In y l.
Proof.
  induction l; intros [|i] x y H; simpl in *; auto.
  - destruct H; auto.
  - destruct H as [H|H]; auto. destruct (IHl _ _ _ H); auto.
Qed.
Lemma upd_split : forall A (l : list A) i a x, nth_error l i = Some a ->
  exists l1 l2, l = l1 ++ a :: l2 /\ upd l i x = l1 ++ x :: l2 /\ length l1 = i.
Proof.
  induction l; intros [|i] b x H; simpl in H; try discriminate.
  - injection H as ->. exists [], l. auto.
  - destruct (IHl i b x H) as (l1 & l2 & E1 & E2 & E3). exists (a :: l1), l2. simpl. subst. rewrite E2. auto.
Qed.
Fixpoint count {A} (p : A -> bool) (l : list A) : nat :=
  match l with [] => 0 | x :: l' => (if p x then 1 else 0) + count p l' end.
Lemma count_app : forall A (p : A -> bool) a b, count p (a ++ b) = count p a + count p b.
Proof. induction a; intros; simpl; auto. rewrite IHa. lia. Qed.
Lemma count_upd : forall A (p : A -> bool) l i a x, nth_error l i = Some a ->
  count p (upd l i x) + (if p a then 1 else 0) = count p l + (if p x then 1 else 0).
Proof.
  intros A p l i a x H. destruct (upd_split _ l i a x H) as (l1 & l2 & E1 & E2 & _). rewrite E2, E1, !count_app. simpl. lia.
Qed.
Lemma count_map : forall A (p : A -> bool) f l, (forall x, p (f x) = p x) -> count p (map f l) = count p l.
Proof. induction l; intros H; simpl; auto. rewrite H, IHl; auto. Qed.
Lemma count_0 : forall A (p : A -> bool) l, count p l = 0 -> forall x, In x l -> p x = false.
Proof.
  induction l; simpl; intros H x I; [destruct I|]. destruct (p a) eqn:E; [lia|]. destruct I as [->|I]; auto.
Qed.
Lemma flat_upd : forall A B (f : A -> list B) l i a x, nth_error l i = Some a ->
  Permutation (flat_map f (upd l i x) ++ f a) (flat_map f l ++ f x).
Proof.
  intros A B f l i a x H. destruct (upd_split _ l i a x H) as (l1 & l2 & E1 & E2 & _). rewrite E2, E1, !flat_map_app. simpl.
  rewrite <- !app_assoc. apply Permutation_app_head.
  eapply perm_trans; [apply Permutation_app_comm|]. rewrite <- app_assoc, (app_assoc (f a)), (app_assoc (flat_map f l2)).
  apply Permutation_app_tail. apply Permutation_app_comm.
Qed.
Lemma flat_map_map : forall A B (f : A -> list B) g l, (forall x, f (g x) = f x) -> flat_map f (map g l) = flat_map f l.
Proof. induction l; intros H; simpl; auto. rewrite H, IHl; auto. Qed.

(** ** classification of program counters *)
Definition holding (w : wpc) : bool := match w with WTest | WBlock | WCheck | WExit => true | _ => false end.
Definition counted (w : wpc) : bool := match w with WInit | WExit | WDone => false | _ => true end.
Definition working (w : wpc) : bool := match w with WRun _ | WRelock => true | _ => false end.
Definition sleepy (w : wpc) : bool := match w with WBlock | WWait => true | _ => false end.
Definition running1 (w : wpc) : list job := match w with WRun j => [j] | _ => [] end.
(** the jobs being executed *)
Definition running (s : state) : list job := flat_map running1 (workers s).
Definition inflight1 (c : cpc) : list job := match c with CSched j => [j] | _ => [] end.
Definition inflight (s : state) : list job := flat_map inflight1 (calls s).

Record Inv (s : state) : Prop := mkInv {
  i_fifo : sched s = started s ++ q s;
  i_run : Permutation (started s) (finished s ++ running s);
  i_active : active s = count working (workers s);
  i_pool : pool s = count counted (workers s);
  i_lock : forall i, lock s = Some i <-> exists w, nth_error (workers s) i = Some w /\ holding w = true;
  i_check : In WCheck (workers s) -> q s <> [] \/ kill s = true;
  i_sleep : forall w, In w (workers s) -> sleepy w = true -> q s = [];
  i_waiter : In CWaitSleep (calls s) -> q s <> [] \/ active s <> 0;
  i_created : workers s <> [] -> created s = true;
  i_ub : ub s <> Some UBPopEmpty;
  i_ids : NoDup (map jid (sched s ++ inflight s));
  i_next : forall j, In j (sched s ++ inflight s) -> jid j < nextid s;
  i_dead : destroyed s = true -> lock s = None /\ pool s = 0 /\ kill s = true;
  i_fut1 : forall j, In j (finished s) -> jfut j = true -> lookup (futs s) (jid j) = Some (FReady (jres j));
  i_fut2 : forall k r, lookup (futs s) k = Some r ->
     (exists j, In j (finished s) /\ jid j = k /\ jfut j = true /\ r = FReady (jres j)) \/
     (destroyed s = true /\ exists j, In j (q s) /\ jid j = k /\ jfut j = true /\ r = FBroken)
}.

Lemma Inv_init : Inv init.
Proof.
  constructor; cbn; try tauto; try congruence; auto.
  - intros i. split; [discriminate|]. intros (w & H & _). destruct i; discriminate.
  - constructor.
Qed.

Lemma run1_wake w : running1 (wake_worker w) = running1 w. Proof. now destruct w. Qed.
Lemma holding_wake w : holding (wake_worker w) = holding w. Proof. now destruct w. Qed.
Lemma counted_wake w : counted (wake_worker w) = counted w. Proof. now destruct w. Qed.
Lemma working_wake w : working (wake_worker w) = working w. Proof. now destruct w. Qed.
Lemma infl_dtor c : inflight1 (wake_dtor c) = inflight1 c. Proof. now destruct c. Qed.
Lemma infl_waiter c : inflight1 (wake_waiter c) = inflight1 c. Proof. now destruct c. Qed.
Lemma nth_map_wake : forall l i w, nth_error (map wake_worker l) i = Some w -> exists w', nth_error l i = Some w' /\ w = wake_worker w'.
Proof. intros l i w. rewrite nth_error_map. destruct (nth_error l i); simpl; intros H; [|discriminate]. injection H as <-. eauto. Qed.

Lemma Inv_notify_cond s : Inv s -> Inv (notify_cond s).
Proof.
  intros []. constructor; cbn; auto.
  - unfold running in *; cbn. rewrite flat_map_map; auto. apply run1_wake.
  - rewrite count_map; auto. apply working_wake.
  - rewrite count_map; auto. apply counted_wake.
  - intros i. rewrite i_lock0. split.
    + intros (w & H & K). exists (wake_worker w). rewrite nth_error_map, H. split; auto. now rewrite holding_wake.
    + intros (w & H & K). apply nth_map_wake in H as (w' & H & ->). rewrite holding_wake in K. eauto.
  - intros H. apply in_map_iff in H as (w & E & I). destruct w; try discriminate. auto.
  - intros w H K. apply in_map_iff in H as (w' & E & I). subst. apply i_sleep0 with w'; auto. destruct w'; auto.
  - intros H. apply in_map_iff in H as (c & E & I). destruct c; try discriminate. auto.
  - intros H. apply i_created0. now destruct (workers s).
  - unfold inflight in *; cbn. rewrite flat_map_map; auto. apply infl_dtor.
  - unfold inflight in *; cbn. rewrite flat_map_map; auto. apply infl_dtor.
Qed.

(** ** the mutex *)
Definition lock_ok (l : option nat) (ws : list wpc) : Prop :=
  forall i, l = Some i <-> exists w, nth_error ws i = Some w /\ holding w = true.
Lemma lock_acq ws i w w' : lock_ok None ws -> nth_error ws i = Some w -> holding w' = true -> lock_ok (Some i) (upd ws i w').
Proof.
  intros L H K j. split.
  - intros E; injection E as <-. exists w'. split; auto. eapply upd_same; eauto.
  - intros (v & E & Hv). destruct (Nat.eq_dec j i) as [->|N]; auto. rewrite upd_other in E by auto.
    assert (None = Some j) by (apply L; eauto). discriminate.
Qed.
Lemma lock_keep l ws i w w' : lock_ok l ws -> nth_error ws i = Some w -> holding w' = holding w -> lock_ok l (upd ws i w').
Proof.
  intros L H K j. rewrite (L j). rewrite upd_nth. destruct (Nat.eqb_spec j i) as [->|N]; [|tauto].
  rewrite H. cbn. split; intros (v & E & Hv); injection E as <-; [exists w'|exists w]; split; auto; congruence.
Qed.
Lemma lock_held l ws i w : lock_ok l ws -> nth_error ws i = Some w -> holding w = true -> l = Some i.
Proof. intros L H K. apply L. eauto. Qed.
Lemma lock_rel l ws i w w' : lock_ok l ws -> nth_error ws i = Some w -> holding w = true -> holding w' = false ->
  lock_ok None (upd ws i w').
Proof.
  intros L H K K' j. split; [discriminate|]. intros (v & E & Hv). exfalso.
  pose proof (lock_held _ _ _ _ L H K) as E1. subst.
  destruct (Nat.eq_dec j i) as [->|N].
  - rewrite (upd_same _ _ _ _ _ H) in E. congruence.
  - rewrite upd_other in E by auto. assert (Some i = Some j) by (apply L; eauto). congruence.
Qed.
Lemma lock_snoc l ws w : lock_ok l ws -> holding w = false -> lock_ok l (ws ++ [w]).
Proof.
  intros L K i. rewrite (L i). split; intros (v & E & Hv).
  - exists v. split; auto. rewrite nth_error_app1; auto. apply nth_error_Some; congruence.
  - destruct (Nat.lt_ge_cases i (length ws)).
    + rewrite nth_error_app1 in E by auto. eauto.
    + rewrite nth_error_app2 in E by auto. destruct (i - length ws) as [|n]; cbn in E; [congruence|destruct n; discriminate].
Qed.

Lemma free_None s : free s = true -> lock s = None.
Proof. unfold free. destruct (lock s); congruence. Qed.

Ltac nthin := match goal with H : nth_error (workers ?s) ?i = Some ?w |- _ => pose proof (nth_error_In _ _ H) end.
Ltac updcases H := apply upd_In in H as [H|H].

Section WorkerSteps.
  Variable s : state.
  Hypothesis I : Inv s.
  Variables (i : nat) (w : wpc).
  Hypothesis W : nth_error (workers s) i = Some w.

  Lemma run_upd w' : running1 w = running1 w' -> Permutation (flat_map running1 (upd (workers s) i w')) (running s).
  Proof.
    intros E. pose proof (flat_upd _ _ running1 _ _ _ w' W) as P. rewrite E in P. apply Permutation_app_inv_r in P. exact P.
  Qed.
  Lemma created_upd w' : upd (workers s) i w' <> [] -> created s = true.
  Proof. intros _. apply (i_created _ I). intros E. rewrite E in W. destruct i; discriminate. Qed.

  (** a step that only moves the program counter *)
  Lemma Inv_move w' : running1 w = running1 w' -> working w = working w' -> counted w = counted w' ->
    holding w' = holding w -> (w' = WCheck -> q s <> [] \/ kill s = true) -> (sleepy w' = true -> q s = []) ->
    Inv (set_w s i w').
  Proof.
    intros E1 E2 E3 E4 E5 E6. destruct I. constructor; cbn; auto.
    - rewrite i_run0. apply Permutation_app_head. symmetry. now apply run_upd.
    - pose proof (count_upd _ working _ _ _ w' W). rewrite E2 in H. lia.
    - pose proof (count_upd _ counted _ _ _ w' W). rewrite E3 in H. lia.
    - eapply lock_keep; eauto.
    - intros H. updcases H; auto.
    - intros v H K. updcases H; subst; eauto.
    - apply created_upd.
  Qed.
End WorkerSteps.
  (** acquiring the mutex *)
  Lemma Inv_acquire s i : Inv s -> nth_error (workers s) i = Some WWake -> free s = true -> destroyed s = false -> Inv (set_w (set_lock s (Some i)) i WTest).
  Proof.
    intros I W F D. apply free_None in F. pose proof I as I0; destruct I. constructor; cbn; auto.
    - rewrite i_run0. apply Permutation_app_head. symmetry. eapply run_upd; eauto.
    - pose proof (count_upd _ working _ _ _ WTest W). cbn in H. lia.
    - pose proof (count_upd _ counted _ _ _ WTest W). cbn in H. lia.
    - eapply lock_acq; eauto. rewrite F in i_lock0. exact i_lock0.
    - intros H. updcases H; [discriminate|auto].
    - intros v H K. updcases H; subst; [discriminate|eauto].
    - eapply created_upd; eauto.
    - congruence.
  Qed.
  Lemma Inv_enter s i : Inv s -> nth_error (workers s) i = Some WInit -> free s = true -> destroyed s = false ->
    Inv (set_w (set_lock (set_pool s (S (pool s))) (Some i)) i WTest).
  Proof.
    intros I W F D. apply free_None in F. pose proof I as I0; destruct I. constructor; cbn; auto.
    - rewrite i_run0. apply Permutation_app_head. symmetry. eapply run_upd; eauto.
    - pose proof (count_upd _ working _ _ _ WTest W). cbn in H. lia.
    - pose proof (count_upd _ counted _ _ _ WTest W). cbn in H. lia.
    - eapply lock_acq; eauto. rewrite F in i_lock0. exact i_lock0.
    - intros H. updcases H; [discriminate|auto].
    - intros v H K. updcases H; subst; [discriminate|eauto].
    - eapply created_upd; eauto.
    - congruence.
  Qed.
  Lemma dead_no_hold s i w : Inv s -> nth_error (workers s) i = Some w -> holding w = true -> destroyed s = false.
  Proof.
    intros I W H. destruct (destroyed s) eqn:D; auto. destruct (i_dead _ I D) as (L & _ & _).
    rewrite (lock_held _ _ _ _ (i_lock _ I) W H) in L. discriminate.
  Qed.
  Lemma dead_not_counted s i w : Inv s -> nth_error (workers s) i = Some w -> counted w = true -> destroyed s = false.
  Proof.
    intros I W H. destruct (destroyed s) eqn:D; auto. destruct (i_dead _ I D) as (_ & L & _). rewrite (i_pool _ I) in L.
    rewrite (count_0 _ _ _ L w) in H; [discriminate|]. eapply nth_error_In; eauto.
  Qed.
  Lemma Inv_release s i w w' : Inv s -> nth_error (workers s) i = Some w -> running1 w = running1 w' -> working w = working w' -> counted w = counted w' ->
    holding w = true -> holding w' = false -> (sleepy w' = true -> q s = []) ->
    Inv (set_w (set_lock s None) i w').
  Proof.
    intros I W E1 E2 E3 E4 E4' E6. pose proof (dead_no_hold _ _ _ I W E4) as DN. pose proof I as I0; destruct I. constructor; cbn; auto.
    - rewrite i_run0. apply Permutation_app_head. symmetry. eapply run_upd; eauto.
    - pose proof (count_upd _ working _ _ _ w' W). rewrite E2 in H. lia.
    - pose proof (count_upd _ counted _ _ _ w' W). rewrite E3 in H. lia.
    - eapply lock_rel; eauto.
    - intros H. updcases H; [subst; discriminate|auto].
    - intros v H K. updcases H; subst; eauto.
    - eapply created_upd; eauto.
    - congruence.
  Qed.
  (** popping a job *)
  Lemma Inv_pop s i j q' : Inv s -> nth_error (workers s) i = Some WCheck -> kill s = false -> q s = j :: q' -> Inv (set_w (set_lock (pop s j q') None) i (WRun j)).
  Proof.
    intros I W K Q. pose proof (dead_no_hold _ _ _ I W eq_refl) as DN.
    assert (NS : forall v, In v (workers s) -> sleepy v = false).
    { intros v Hv. destruct (sleepy v) eqn:E; auto. pose proof (i_sleep _ I v Hv E). congruence. }
    pose proof I as I0; destruct I. constructor; cbn; auto.
    - rewrite i_fifo0, Q, <- app_assoc. reflexivity.
    - pose proof (flat_upd _ _ running1 _ _ _ (WRun j) W) as P. cbn in P. rewrite app_nil_r in P.
      rewrite P, app_assoc. apply Permutation_app_tail. exact i_run0.
    - pose proof (count_upd _ working _ _ _ (WRun j) W). cbn in H. lia.
    - pose proof (count_upd _ counted _ _ _ (WRun j) W). cbn in H. lia.
    - eapply lock_rel; eauto.
    - (* at most one worker holds the mutex *)
      intros H. exfalso. apply In_nth_error in H as [k H].
      destruct (Nat.eq_dec k i) as [->|N]; [rewrite (upd_same _ _ _ _ _ W) in H; discriminate|]. rewrite upd_other in H by auto.
      pose proof (lock_held _ _ _ _ i_lock0 W eq_refl). pose proof (lock_held _ _ _ _ i_lock0 H eq_refl). congruence.
    - intros v H E. updcases H; subst; [discriminate|]. rewrite NS in E by auto. discriminate.
    - eapply created_upd; eauto.
    - congruence.
    - intros k r H. destruct (i_fut4 k r H) as [?|[D _]]; [auto|congruence].
  Qed.
  Lemma Inv_finish s i j : Inv s -> nth_error (workers s) i = Some (WRun j) -> Inv (set_w (finish s j) i WRelock).
  Proof.
    intros I W. pose proof (dead_not_counted _ _ _ I W eq_refl) as DN.
    assert (NDs : NoDup (map jid (started s))).
    { pose proof (i_ids _ I) as N. rewrite (i_fifo _ I), <- app_assoc, map_app in N.
      clear - N. induction (map jid (started s)); [constructor|]. inversion N; subst. constructor; auto.
      intros X. apply H1. apply in_or_app; auto. }
    assert (JR : In j (running s)). { unfold running. apply in_flat_map. exists (WRun j). split; [eapply nth_error_In; eauto|now left]. }
    assert (FR : forall j', In j' (finished s) -> jid j' <> jid j).
    { intros j' H E. pose proof (Permutation_map jid (i_run _ I)) as P. pose proof (Permutation_NoDup P NDs) as N.
      rewrite map_app in N. apply (in_map jid) in H, JR. rewrite E in H. clear - H JR N.
      induction (map jid (finished s)); [destruct H|]. inversion N; subst. destruct H as [->|H]; auto.
      apply H2. apply in_or_app; auto. }
    pose proof I as I0; destruct I. constructor; cbn; auto.
    - pose proof (flat_upd _ _ running1 _ _ _ WRelock W) as P. cbn in P. rewrite app_nil_r in P.
      rewrite i_run0, <- app_assoc. apply Permutation_app_head. fold (running s) in P. rewrite <- P.
      apply Permutation_app_comm.
    - pose proof (count_upd _ working _ _ _ WRelock W). cbn in H. lia.
    - pose proof (count_upd _ counted _ _ _ WRelock W). cbn in H. lia.
    - eapply lock_keep; eauto.
    - intros H. updcases H; [discriminate|auto].
    - intros v H E. updcases H; subst; [discriminate|eauto].
    - eapply created_upd; eauto.
    - intros j' H F. apply in_app_or in H as [H|[->|[]]].
      + specialize (FR j' H). destruct (jfut j); cbn; [|auto]. destruct (Nat.eqb_spec (jid j) (jid j')); [congruence|auto].
      + rewrite F. cbn. now rewrite Nat.eqb_refl.
    - intros k r H. destruct (jfut j) eqn:F.
      + cbn in H. destruct (Nat.eqb_spec (jid j) k).
        * injection H as <-. left. exists j. repeat split; auto. apply in_or_app; right; now left.
        * destruct (i_fut4 k r H) as [(j' & A & B)|[D _]]; [left; exists j'; split; [apply in_or_app; now left|auto]|congruence].
      + destruct (i_fut4 k r H) as [(j' & A & B)|[D _]]; [left; exists j'; split; [apply in_or_app; now left|auto]|congruence].
  Qed.
  Lemma Inv_relock s i : Inv s -> nth_error (workers s) i = Some WRelock -> free s = true -> destroyed s = false ->
    Inv (set_w (notify_work (dec_active (set_lock s (Some i)))) i WTest).
  Proof.
    intros I W F D. apply free_None in F. pose proof I as I0; destruct I. constructor; cbn; auto.
    - rewrite i_run0. apply Permutation_app_head. symmetry. eapply run_upd; eauto.
    - pose proof (count_upd _ working _ _ _ WTest W). cbn in H. lia.
    - pose proof (count_upd _ counted _ _ _ WTest W). cbn in H. lia.
    - eapply lock_acq; eauto. rewrite F in i_lock0. exact i_lock0.
    - intros H. updcases H; [discriminate|auto].
    - intros v H K. updcases H; subst; [discriminate|eauto].
    - intros H. apply in_map_iff in H as (c & E & H). now destruct c.
    - eapply created_upd; eauto.
    - unfold inflight in *; cbn. rewrite flat_map_map; auto. apply infl_waiter.
    - unfold inflight in *; cbn. rewrite flat_map_map; auto. apply infl_waiter.
    - congruence.
  Qed.
  Lemma Inv_leave s i : Inv s -> nth_error (workers s) i = Some WCheck -> kill s = true -> Inv (set_w (set_pool s (pred (pool s))) i WExit).
  Proof.
    intros I W K. pose proof (dead_no_hold _ _ _ I W eq_refl) as DN. pose proof I as I0; destruct I. constructor; cbn; auto.
    - rewrite i_run0. apply Permutation_app_head. symmetry. eapply run_upd; eauto.
    - pose proof (count_upd _ working _ _ _ WExit W). cbn in H. lia.
    - pose proof (count_upd _ counted _ _ _ WExit W). cbn in H. lia.
    - eapply lock_keep; eauto.
    - intros v H E. updcases H; subst; [discriminate|eauto].
    - eapply created_upd; eauto.
    - congruence.
  Qed.

Lemma map_upd : forall A B (f : A -> B) l i x, map f (upd l i x) = upd (map f l) i (f x).
Proof. induction l; intros [|i] x; simpl; auto. now rewrite IHl. Qed.

Lemma Inv_ub s u : Inv s -> u <> UBPopEmpty -> Inv (set_ub s u).
Proof. intros [] H. constructor; cbn; auto. congruence. Qed.

Lemma Inv_step_worker s i s' : Inv s -> step_worker s i = Some s' -> Inv s'.
Proof.
  intros I. unfold step_worker. destruct (nth_error (workers s) i) as [w|] eqn:W; [|discriminate].
  destruct w.
  - destruct (destroyed s) eqn:D; [intros E; injection E as <-; apply Inv_ub; [auto|discriminate]|].
    destruct (free s) eqn:F; [|discriminate]. intros E; injection E as <-. eapply Inv_enter; eauto.
  - destruct ((match q s with [] => true | _ => false end) && negb (kill s)) eqn:T; intros E; injection E as <-.
    + eapply Inv_move; eauto; try discriminate; try reflexivity. intros _. now destruct (q s).
    + eapply Inv_move; eauto; try discriminate; try reflexivity. intros _.
      destruct (q s); [right|left; congruence]. cbn in T. now destruct (kill s).
  - intros E; injection E as <-. eapply Inv_release; eauto. intros _. eapply (i_sleep _ I WBlock); [eapply nth_error_In; eauto|auto].
  - discriminate.
  - destruct (destroyed s) eqn:D; [intros E; injection E as <-; apply Inv_ub; [auto|discriminate]|].
    destruct (free s) eqn:F; [|discriminate]. intros E; injection E as <-. eapply Inv_acquire; eauto.
  - destruct (kill s) eqn:K.
    + intros E; injection E as <-.
      assert (E : set_w (notify_cond (set_pool s (pred (pool s)))) i WExit = notify_cond (set_w (set_pool s (pred (pool s))) i WExit)).
      { unfold notify_cond, set_w; cbn. now rewrite map_upd. }
      rewrite E. apply Inv_notify_cond. eapply Inv_leave; eauto.
    + destruct (q s) as [|j q'] eqn:Q.
      * exfalso. destruct (i_check _ I); [eapply nth_error_In; eauto|congruence|congruence].
      * intros E; injection E as <-. eapply Inv_pop; eauto.
  - intros E; injection E as <-. eapply Inv_release; eauto. discriminate.
  - intros E; injection E as <-. eapply Inv_finish; eauto.
  - destruct (destroyed s) eqn:D; [intros E; injection E as <-; apply Inv_ub; [auto|discriminate]|].
    destruct (free s) eqn:F; [|discriminate]. intros E; injection E as <-. eapply Inv_relock; eauto.
  - discriminate.
Qed.

(** ** calls *)
(** a call that only moves its own program counter *)
Lemma Inv_call s k c c' : Inv s -> nth_error (calls s) k = Some c -> inflight1 c = inflight1 c' ->
  (c' = CWaitSleep -> q s <> [] \/ active s <> 0) -> Inv (set_c s k c').
Proof.
  intros I H E1 E2. assert (P : Permutation (flat_map inflight1 (upd (calls s) k c')) (inflight s)).
  { pose proof (flat_upd _ _ inflight1 _ _ _ c' H) as P. rewrite E1 in P. now apply Permutation_app_inv_r in P. }
  destruct I. constructor; cbn; auto.
  - intros K. updcases K; auto.
  - eapply Permutation_NoDup; [|exact i_ids0]. apply Permutation_map, Permutation_app_head. now symmetry.
  - intros j K. apply i_next0. eapply Permutation_in; [|exact K]. apply Permutation_app_head. exact P.
Qed.
Lemma Inv_kill s : Inv s -> Inv (set_kill s).
Proof.
  intros []. constructor; cbn; auto. intros H. destruct (i_dead0 H) as (A & B & _). auto.
Qed.

Lemma perm_NoDup_jid (a b : list job) : Permutation a b -> NoDup (map jid a) -> NoDup (map jid b).
Proof. intros P N. eapply Permutation_NoDup; [apply Permutation_map; exact P|exact N]. Qed.

(** scheduleWork: push, notify, return *)
Lemma Inv_schedule s k j : Inv s -> nth_error (calls s) k = Some (CSched j) -> free s = true -> destroyed s = false ->
  Inv (set_c (notify_cond (push s j)) k (CRet false)).
Proof.
  intros I H F D. apply free_None in F.
  assert (P : Permutation (sched s ++ inflight s) ((sched s ++ [j]) ++ flat_map inflight1 (upd (map wake_dtor (calls s)) k (CRet false)))).
  { assert (H' : nth_error (map wake_dtor (calls s)) k = Some (CSched j)) by (rewrite nth_error_map, H; reflexivity).
    pose proof (flat_upd _ _ inflight1 _ _ _ (CRet false) H') as P. cbn in P. rewrite app_nil_r in P.
    rewrite (flat_map_map _ _ inflight1 wake_dtor) in P by apply infl_dtor. unfold inflight. rewrite <- P, <- app_assoc.
    apply Permutation_app_head. apply Permutation_app_comm. }
  assert (NH : forall v, In v (workers s) -> holding v = false).
  { intros v Hv. destruct (holding v) eqn:E; auto. apply In_nth_error in Hv as [n Hn].
    pose proof (lock_held _ _ _ _ (i_lock _ I) Hn E). congruence. }
  destruct I. constructor; cbn.
  - rewrite i_fifo0, app_assoc. reflexivity.
  - unfold running; cbn. rewrite flat_map_map; auto. apply run1_wake.
  - rewrite count_map; auto. apply working_wake.
  - rewrite count_map; auto. apply counted_wake.
  - intros i. rewrite i_lock0. split.
    + intros (w & Hw & K). exists (wake_worker w). rewrite nth_error_map, Hw. split; auto. now rewrite holding_wake.
    + intros (w & Hw & K). apply nth_map_wake in Hw as (w' & Hw & ->). rewrite holding_wake in K. eauto.
  - intros _. left. now destruct (q s).
  - intros w Hw K. apply in_map_iff in Hw as (w' & E & Hw). specialize (NH w' Hw). subst. destruct w'; try discriminate.
  - intros _. left. now destruct (q s).
  - intros K. apply i_created0. now destruct (workers s).
  - auto.
  - eapply perm_NoDup_jid; [exact P|exact i_ids0].
  - intros j' K. apply i_next0. eapply Permutation_in; [symmetry; exact P|exact K].
  - congruence.
  - auto.
  - intros k' r K. destruct (i_fut4 k' r K) as [?|[D' _]]; [auto|congruence].
Qed.
Lemma Inv_set_created s : Inv s -> Inv (set_created s).
Proof. intros []. constructor; cbn; auto. Qed.
Lemma Inv_new_thread s : Inv s -> created s = true -> Inv (new_thread s).
Proof.
  intros I C. destruct I. constructor; cbn; auto.
  - unfold running in *; cbn. now rewrite flat_map_app, app_nil_r.
  - rewrite count_app; cbn; lia.
  - rewrite count_app; cbn; lia.
  - apply lock_snoc; auto.
  - intros H. apply in_app_or in H as [H|[H|[]]]; [auto|discriminate].
  - intros w H K. apply in_app_or in H as [H|[H|[]]]; [eauto|subst; discriminate].
Qed.
Lemma Inv_destroy s : Inv s -> free s = true -> pool s = 0 -> kill s = true -> destroyed s = false -> Inv (destroy s).
Proof.
  intros I F P K D. apply free_None in F.
  assert (NDq : forall a b, In a (started s) -> In b (q s) -> jid a <> jid b).
  { intros a b A B E. pose proof (i_ids _ I) as N. rewrite (i_fifo _ I), <- app_assoc, !map_app in N.
    apply (in_map jid) in A, B. rewrite E in A. clear - N A B. induction (map jid (started s)); [destruct A|].
    inversion N; subst. destruct A as [->|A]; auto. apply H1. apply in_or_app; right. apply in_or_app; now left. }
  destruct I. constructor; cbn; auto.
  - intros j H1 H2. assert (Hs : In j (started s)).
    { eapply Permutation_in; [symmetry; exact i_run0|]. apply in_or_app; now left. }
    assert (L : lookup (map (fun j0 => (jid j0, FBroken)) (filter jfut (q s)) ++ futs s) (jid j) = lookup (futs s) (jid j)).
    { assert (G : forall l, (forall b, In b l -> jid j <> jid b) ->
        lookup (map (fun j0 => (jid j0, FBroken)) l ++ futs s) (jid j) = lookup (futs s) (jid j)).
      { induction l as [|b l IH]; intros G; auto. cbn. destruct (Nat.eqb_spec (jid b) (jid j)) as [E|E].
        - exfalso. apply (G b); [now left|auto].
        - apply IH. intros b' Hb'. apply G. now right. }
      apply G. intros b Hb. apply filter_In in Hb as [Hb _]. now apply NDq. }
    rewrite L. auto.
  - intros k r H.
    assert (G : forall l, lookup (map (fun j0 => (jid j0, FBroken)) l ++ futs s) k = Some r ->
      (exists b, In b l /\ jid b = k /\ r = FBroken) \/ lookup (futs s) k = Some r).
    { induction l as [|b l IH]; cbn; auto. destruct (Nat.eqb_spec (jid b) k).
      - intros E; injection E as <-. left. exists b. auto.
      - intros E. destruct (IH E) as [(b' & A & B)|?]; auto. left. exists b'. auto. }
    destruct (G _ H) as [(b & A & B & ->)|E].
    + right. split; auto. apply filter_In in A as [A1 A2]. exists b. auto.
    + destruct (i_fut4 k r E) as [?|[D' _]]; [auto|congruence].
Qed.

Lemma set_c_notify s k c : wake_dtor c = c -> set_c (notify_cond s) k c = notify_cond (set_c s k c).
Proof. intros E. unfold set_c, notify_cond; cbn. now rewrite map_upd, E. Qed.

(** two more facts about calls in progress *)
Definition Inv2 (s : state) : Prop :=
  (forall n, In (CStarting n) (calls s) -> created s = true) /\
  (In CDtorSleep (calls s) \/ In CDtor1 (calls s) -> kill s = true).

Lemma Inv_step_call s k s' : Inv s -> Inv2 s -> step_call s k = Some s' -> Inv s'.
Proof.
  intros I [I2a I2b]. unfold step_call. destruct (nth_error (calls s) k) as [c|] eqn:C; [|discriminate].
  destruct (match c with CRet _ => true | _ => false end) eqn:R; [destruct c; discriminate|].
  assert (GG : (if destroyed s then Some (set_ub s UBCallAfterDtor) else
    match c with
    | CSched j => if free s then Some (set_c (notify_cond (push s j)) k (CRet false)) else None
    | CStart n => if created s then Some (set_c s k (CRet false)) else Some (set_c (set_created s) k (CStarting n))
    | CStarting 0 => Some (set_c s k (CRet false))
    | CStarting (S n) => Some (set_c (new_thread s) k (CStarting n))
    | CStop => Some (set_c (set_kill s) k (CRet false))
    | CJoin0 => Some (set_c (set_kill s) k CJoin1)
    | CJoin1 => Some (set_c (notify_cond s) k CJoin2)
    | CJoin2 => if created s then (if forallb is_done (workers s) then Some (set_c s k (CRet false)) else None)
                else Some (set_ub s UBNullJoin)
    | CEmpty => if free s then Some (set_c s k (CRet (match q s with [] => true | _ => false end))) else None
    | CWait0 => if free s then
                  (if negb (active s =? 0) || negb (match q s with [] => true | _ => false end)
                   then Some (set_c s k CWaitSleep) else Some (set_c s k (CRet false)))
                else None
    | CDtor0 => if free s then
                  (let s' := notify_cond (set_kill s) in
                   if pool s =? 0 then Some (destroy (set_c s' k (CRet false))) else Some (set_c s' k CDtorSleep))
                else None
    | CDtor1 => if free s then
                  (if pool s =? 0 then Some (destroy (set_c s k (CRet false))) else Some (set_c s k CDtorSleep))
                else None
    | CWaitSleep | CDtorSleep | CRet _ => None
    end) = Some s' -> Inv s').
  2:{ intros E. apply GG. destruct c; try discriminate; exact E. }
  clear R. destruct (destroyed s) eqn:D; [intros E; injection E as <-; apply Inv_ub; [auto|discriminate]|].
  assert (NK : nth_error (calls (notify_cond (set_kill s))) k = Some (wake_dtor c)) by (cbn; rewrite nth_error_map, C; reflexivity).
  destruct c; try discriminate.
  - destruct (free s) eqn:F; [|discriminate]. intros E; injection E as <-. now apply Inv_schedule.
  - destruct (created s) eqn:CR; intros E; injection E as <-.
    + eapply Inv_call; eauto. discriminate.
    + eapply Inv_call; [apply Inv_set_created; eauto|exact C|reflexivity|discriminate].
  - destruct n; intros E; injection E as <-.
    + eapply Inv_call; eauto. discriminate.
    + eapply Inv_call; [|exact C|reflexivity|discriminate]. apply Inv_new_thread; auto.
      eapply I2a, nth_error_In; eauto.
  - intros E; injection E as <-. eapply Inv_call; [apply Inv_kill; eauto|exact C|reflexivity|discriminate].
  - intros E; injection E as <-. eapply Inv_call; [apply Inv_kill; eauto|exact C|reflexivity|discriminate].
  - intros E; injection E as <-. rewrite set_c_notify by auto. apply Inv_notify_cond.
    eapply Inv_call; [eauto|exact C|reflexivity|discriminate].
  - destruct (created s); [|intros E; injection E as <-; apply Inv_ub; [auto|discriminate]].
    destruct (forallb is_done (workers s)); [|discriminate]. intros E; injection E as <-. eapply Inv_call; eauto; discriminate.
  - destruct (free s); [|discriminate]. intros E; injection E as <-. eapply Inv_call; eauto. discriminate.
  - destruct (free s) eqn:F; [|discriminate].
    destruct (negb (active s =? 0) || negb (match q s with [] => true | _ => false end)) eqn:T; intros E; injection E as <-.
    + eapply Inv_call; eauto. intros _. apply orb_prop in T as [T|T].
      * right. destruct (Nat.eqb_spec (active s) 0); [discriminate|auto].
      * left. now destruct (q s).
    + eapply Inv_call; eauto. discriminate.
  - destruct (free s) eqn:F; [|discriminate]. cbn zeta. destruct (Nat.eqb_spec (pool s) 0) as [P|P]; intros E; injection E as <-.
    + apply Inv_destroy; auto.
      eapply Inv_call; [apply Inv_notify_cond, Inv_kill; auto|exact NK|reflexivity|discriminate].
    + eapply Inv_call; [apply Inv_notify_cond, Inv_kill; auto|exact NK|reflexivity|discriminate].
  - destruct (free s) eqn:F; [|discriminate]. destruct (Nat.eqb_spec (pool s) 0) as [P|P]; intros E; injection E as <-.
    + apply Inv_destroy; auto; [eapply Inv_call; eauto; discriminate|].
      cbn. apply I2b. right. eapply nth_error_In; eauto.
    + eapply Inv_call; eauto; discriminate.
Qed.

Lemma map_dtor_In l c : In c (map wake_dtor l) -> In c l \/ (c = CDtor1 /\ In CDtorSleep l).
Proof. intros H. apply in_map_iff in H as (x & E & I). destruct x; cbn in E; subst; auto. Qed.
Lemma map_waiter_In l c : In c (map wake_waiter l) -> In c l \/ c = CWait0.
Proof. intros H. apply in_map_iff in H as (x & E & I). destruct x; cbn in E; subst; auto. Qed.

Lemma Inv2_mono s s' : Inv2 s -> (created s = true -> created s' = true) -> (kill s = true -> kill s' = true) ->
  (forall c, In c (calls s') -> In c (calls s) \/
     match c with CStarting _ => created s' = true | CDtorSleep => kill s' = true
                | CDtor1 => kill s' = true \/ In CDtorSleep (calls s) | _ => True end) -> Inv2 s'.
Proof.
  intros [A B] C K H. split.
  - intros n Hn. destruct (H _ Hn) as [X|X]; eauto.
  - intros [Hc|Hc]; destruct (H _ Hc) as [X|X]; auto. destruct X; auto.
Qed.

Lemma set_ub_Inv2 s u : Inv2 s -> Inv2 (set_ub s u). Proof. exact (fun H => H). Qed.
Lemma Inv2_worker s i s' : Inv2 s -> step_worker s i = Some s' -> Inv2 s'.
Proof.
  intros I. unfold step_worker. destruct (nth_error (workers s) i) as [w|]; [|discriminate].
  assert (M : forall s', created s' = created s -> kill s' = kill s ->
    (calls s' = calls s \/ calls s' = map wake_dtor (calls s) \/ calls s' = map wake_waiter (calls s)) -> Inv2 s').
  { intros t A B C. apply (Inv2_mono s); auto; try congruence. intros c Hc. destruct C as [C|[C|C]]; rewrite C in Hc; auto.
    - destruct (map_dtor_In _ _ Hc) as [?|[E0 ?]]; [|subst]; auto.
    - destruct (map_waiter_In _ _ Hc) as [?|E]; [|subst c]; auto. }
  destruct w; repeat match goal with |- context [if ?b then _ else _] => destruct b eqn:? end;
    try (destruct (q s)); intros E; try discriminate; injection E as <-; apply M; cbn; auto.
Qed.
Lemma Inv2_call s k s' : Inv2 s -> step_call s k = Some s' -> Inv2 s'.
Proof.
  intros I. unfold step_call. destruct (nth_error (calls s) k) as [c|] eqn:C; [|discriminate].
  assert (M : forall s' c', (created s = true -> created s' = true) -> (kill s = true -> kill s' = true) ->
    (calls s' = upd (calls s) k c' \/ calls s' = upd (map wake_dtor (calls s)) k c') ->
    match c' with CStarting _ => created s' = true | CDtorSleep => kill s' = true | CDtor1 => kill s' = true | _ => True end -> Inv2 s').
  { intros t c' A B D H. apply (Inv2_mono s); auto. intros x Hx.
    assert (Hx' : x = c' \/ In x (calls s) \/ (x = CDtor1 /\ In CDtorSleep (calls s))).
    { destruct D as [D|D]; rewrite D in Hx; apply upd_In in Hx as [Hx|Hx]; auto. right. now apply map_dtor_In. }
    destruct Hx' as [Hx'|[Hx'|[Hx' Hx'']]]; [subst x|auto|subst x; auto]. right. destruct c'; auto. }
  pose proof I as [I2a I2b]. pose proof (nth_error_In _ _ C) as CI.
  destruct c; try discriminate; repeat match goal with |- context [if ?b then _ else _] => destruct b eqn:? end;
    try (intros E; discriminate E); cbn zeta; try (intros E; injection E as <-; exact I);
    try (intros E; injection E as <-; eapply M; [| |cbn; auto|]; cbn; auto; fail).
  - destruct n; intros E; injection E as <-; (eapply M; [| |cbn; auto|]; cbn; eauto).
Qed.
Lemma Inv2_step s l s' : Inv2 s -> step s l = Some s' -> Inv2 s'.
Proof.
  intros I. unfold step. destruct (stopped s); [discriminate|]. destruct l.
  - now apply Inv2_worker.
  - now apply Inv2_call.
  - unfold step_new. destruct (destroyed s); [discriminate|]. intros E; injection E as <-.
    assert (M : forall c n, match c with CStarting _ | CDtorSleep | CDtor1 => False | _ => True end -> Inv2 (new_call s c n)).
    { intros c n H. apply (Inv2_mono s); auto. cbn. intros x Hx. apply in_app_or in Hx as [Hx|[<-|[]]]; auto.
      right. destruct c; auto; destruct H. }
    destruct r; apply M; exact Logic.I.
  - destruct (nth_error (workers s) i) as [[]|]; try discriminate. intros E; injection E as <-. exact I.
  - pose proof I as [I2a I2b].
    destruct (nth_error (calls s) k) as [[]|] eqn:C; try discriminate; intros E; injection E as <-;
      apply (Inv2_mono s); auto; cbn; intros x Hx; apply upd_In in Hx as [Hx|Hx]; auto; subst x; auto.
    right. left. apply I2b. left. eapply nth_error_In; eauto.
Qed.

Lemma Inv_step s l s' : Inv s -> Inv2 s -> step s l = Some s' -> Inv s'.
Proof.
  intros I I2. unfold step. destruct (stopped s); [discriminate|]. destruct l.
  - now apply Inv_step_worker.
  - now apply Inv_step_call.
  - unfold step_new. destruct (destroyed s) eqn:D; [discriminate|]. intros E; injection E as <-.
    assert (M : forall c, inflight1 c = [] -> c <> CWaitSleep -> Inv (new_call s c (nextid s))).
    { intros c H N. destruct I. constructor; cbn; auto.
      - intros K. apply in_app_or in K as [K|[K|[]]]; [auto|congruence].
      - unfold inflight in *; cbn. rewrite flat_map_app. cbn. rewrite H, !app_nil_r. auto.
      - unfold inflight in *; cbn. rewrite flat_map_app. cbn. rewrite H, !app_nil_r. auto. }
    destruct r; try (apply M; [reflexivity|discriminate]).
    destruct I. constructor; cbn; auto.
    + intros K. apply in_app_or in K as [K|[K|[]]]; [auto|discriminate].
    + unfold inflight in *; cbn. rewrite flat_map_app, app_assoc. cbn. rewrite map_app. cbn.
      assert (G : forall (l : list nat) x, NoDup l -> ~ In x l -> NoDup (l ++ [x])).
      { intros l x N H. apply Permutation_NoDup with (x :: l); [apply Permutation_cons_append|now constructor]. }
      apply G; auto. intros X. apply in_map_iff in X as (j & E & Hj). specialize (i_next0 j Hj). lia.
    + unfold inflight in *; cbn. rewrite flat_map_app, app_assoc. cbn. intros j K.
      apply in_app_or in K as [K|[<-|[]]]; [specialize (i_next0 j K); lia|cbn; lia].
  - destruct (nth_error (workers s) i) as [[]|] eqn:W; try discriminate. intros E; injection E as <-.
    eapply Inv_move; eauto; discriminate.
  - destruct (nth_error (calls s) k) as [[]|] eqn:C; try discriminate; intros E; injection E as <-;
      (eapply Inv_call; eauto; discriminate).
Qed.

Lemma reach_Inv s : reachable s -> Inv s /\ Inv2 s.
Proof.
  intros [ls H]. revert s H.
  assert (G : forall ls s s', Inv s -> Inv2 s -> run s ls = Some s' -> Inv s' /\ Inv2 s').
  { induction ls0 as [|l ls0 IH]; cbn; intros s s' A B E; [injection E as <-; auto|].
    destruct (step s l) as [t|] eqn:S; [|discriminate]. eapply IH; [| |exact E]; eauto using Inv_step, Inv2_step. }
  intros s H. eapply G; [apply Inv_init| |exact H]. split; cbn; [tauto|tauto].
Qed.
Lemma run_app s a b : run s (a ++ b) = match run s a with Some t => run t b | None => None end.
Proof. revert s. induction a; cbn; intros; auto. destruct (step s a); auto. Qed.
Lemma reach_step s l s' : reachable s -> step s l = Some s' -> reachable s'.
Proof. intros [ls H] S. exists (ls ++ [l]). rewrite run_app, H. cbn. now rewrite S. Qed.
