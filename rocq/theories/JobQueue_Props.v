(** C30-C35, C92: JobQueue.  Everything is about [reachable] states: any number of workers, jobs and concurrent calls,
    any interleaving. *)
From Verif Require Import JobQueue_Model JobQueue_Proofs.
Import ListNotations.

(** ** The logs record what the workers do *)
(** [started] grows exactly when a worker begins to execute a job, [finished] exactly when it is through, [sched]
    exactly when a scheduleWork/scheduleFuture call returns. *)
Theorem logs_record_events : forall s l s', step s l = Some s' -> ub s' = None ->
  (started s' = started s /\ (forall i j, nth_error (workers s') i = Some (WRun j) -> nth_error (workers s) i = Some (WRun j)) \/
   exists i j, l = LWorker i /\ nth_error (workers s) i = Some WCheck /\ nth_error (workers s') i = Some (WRun j) /\
               started s' = started s ++ [j]) /\
  (finished s' = finished s /\ (forall i j, nth_error (workers s) i = Some (WRun j) -> nth_error (workers s') i = Some (WRun j)) \/
   exists i j, l = LWorker i /\ nth_error (workers s) i = Some (WRun j) /\ nth_error (workers s') i = Some WRelock /\
               finished s' = finished s ++ [j]) /\
  (sched s' = sched s /\ (forall k j, nth_error (calls s) k = Some (CSched j) -> nth_error (calls s') k = Some (CSched j)) \/
   exists k j, l = LCall k /\ nth_error (calls s) k = Some (CSched j) /\ nth_error (calls s') k = Some (CRet false) /\
               sched s' = sched s ++ [j]).
Proof.
  intros s l s' H U.
  assert (UPD : forall (w : wpc) ws i, nth_error ws i = Some w -> forall w',
     (forall j, w <> WRun j) -> (forall j, w' <> WRun j) ->
     forall k j, nth_error (upd ws i w') k = Some (WRun j) <-> nth_error ws k = Some (WRun j)).
  { intros w ws i Hw w' N N' k j. rewrite upd_nth. destruct (Nat.eqb_spec k i) as [->|E]; [|tauto].
    rewrite Hw. cbn. split; intros X; injection X as X; [destruct (N' j X)|destruct (N j X)]. }
  assert (UPC : forall (c : cpc) cs i, nth_error cs i = Some c -> forall c', (forall j, c <> CSched j) ->
     forall k j, nth_error cs k = Some (CSched j) -> nth_error (upd cs i c') k = Some (CSched j)).
  { intros c cs i Hc c' N k j Hk. rewrite upd_nth. destruct (Nat.eqb_spec k i) as [->|E]; [|auto].
    rewrite Hc in Hk. injection Hk as Hk. destruct (N j Hk). }
  assert (MW : forall ws k j, nth_error (map wake_worker ws) k = Some (WRun j) <-> nth_error ws k = Some (WRun j)).
  { intros. rewrite nth_error_map. destruct (nth_error ws k) as [[]|]; cbn; split; intros E; try discriminate; auto. }
  assert (MD : forall cs k j, nth_error (map wake_dtor cs) k = Some (CSched j) <-> nth_error cs k = Some (CSched j)).
  { intros. rewrite nth_error_map. destruct (nth_error cs k) as [[]|]; cbn; split; intros E; try discriminate; auto. }
  assert (MV : forall cs k j, nth_error (map wake_waiter cs) k = Some (CSched j) <-> nth_error cs k = Some (CSched j)).
  { intros. rewrite nth_error_map. destruct (nth_error cs k) as [[]|]; cbn; split; intros E; try discriminate; auto. }
  unfold step in H. destruct (stopped s); [discriminate|]. destruct l.
  - unfold step_worker in H. destruct (nth_error (workers s) i) as [w|] eqn:W; [|discriminate].
    assert (NR : forall w', (forall j, w <> WRun j) -> (forall j, w' <> WRun j) ->
       started s' = started s -> finished s' = finished s -> sched s' = sched s ->
       (workers s' = upd (workers s) i w' \/ workers s' = upd (map wake_worker (workers s)) i w') ->
       (calls s' = calls s \/ calls s' = map wake_dtor (calls s) \/ calls s' = map wake_waiter (calls s)) ->
       (started s' = started s /\ (forall i j, nth_error (workers s') i = Some (WRun j) -> nth_error (workers s) i = Some (WRun j))) /\
       (finished s' = finished s /\ (forall i j, nth_error (workers s) i = Some (WRun j) -> nth_error (workers s') i = Some (WRun j))) /\
       (sched s' = sched s /\ (forall k j, nth_error (calls s) k = Some (CSched j) -> nth_error (calls s') k = Some (CSched j)))).
    { intros w' N1 N2 E1 E2 E3 E4 E5.
      assert (X : forall k j, nth_error (workers s') k = Some (WRun j) <-> nth_error (workers s) k = Some (WRun j)).
      { intros k j. destruct E4 as [-> | ->]; [now apply UPD with w|].
        rewrite <- (MW (workers s)). apply UPD with (wake_worker w); auto.
        - rewrite nth_error_map, W. reflexivity.
        - intros j' K. destruct w; try discriminate. eapply N1; eauto. }
      assert (Y : forall k j, nth_error (calls s') k = Some (CSched j) <-> nth_error (calls s) k = Some (CSched j)).
      { intros k j. destruct E5 as [-> |[-> | ->]]; [tauto|apply MD|apply MV]. }
      repeat split; auto; intros; [apply X in H0|apply X|apply Y]; auto. }
    destruct w; repeat match type of H with context [if ?b then _ else _] => destruct b eqn:? end; try discriminate;
      try (injection H as <-; cbn in U; discriminate);
      try (injection H as <-;
           match goal with |- context [set_w _ _ ?w'] =>
             destruct (NR w' ltac:(intros; discriminate) ltac:(intros; discriminate) eq_refl eq_refl eq_refl ltac:(cbn; auto) ltac:(cbn; auto)) as (A1 & A2 & A3);
             split; [left; exact A1|split; [left; exact A2|left; exact A3]] end; fail).
    + destruct (q s) as [|j q'] eqn:Q; injection H as <-; [cbn in U; discriminate|].
      split; [|split].
      * right. exists i, j. repeat split; auto. cbn. eapply upd_same; eauto.
      * left. split; auto. cbn. intros k j' Hk. rewrite upd_nth. destruct (Nat.eqb_spec k i); [congruence|auto].
      * left. split; auto.
    + injection H as <-. split; [|split].
      * left. split; auto. cbn. intros k j' Hk. rewrite upd_nth in Hk. destruct (Nat.eqb_spec k i); [subst; rewrite W in Hk; discriminate|auto].
      * right. exists i, j. repeat split; auto. cbn. eapply upd_same; eauto.
      * left. split; auto.
  - unfold step_call in H. destruct (nth_error (calls s) k) as [c|] eqn:C; [|discriminate].
    assert (NR : forall c', (forall j, c <> CSched j) ->
       started s' = started s -> finished s' = finished s -> sched s' = sched s ->
       (workers s' = workers s \/ workers s' = map wake_worker (workers s) \/ workers s' = workers s ++ [WInit]) ->
       (calls s' = upd (calls s) k c' \/ calls s' = upd (map wake_dtor (calls s)) k c') ->
       (started s' = started s /\ (forall i j, nth_error (workers s') i = Some (WRun j) -> nth_error (workers s) i = Some (WRun j))) /\
       (finished s' = finished s /\ (forall i j, nth_error (workers s) i = Some (WRun j) -> nth_error (workers s') i = Some (WRun j))) /\
       (sched s' = sched s /\ (forall k j, nth_error (calls s) k = Some (CSched j) -> nth_error (calls s') k = Some (CSched j)))).
    { intros c' N1 E1 E2 E3 E4 E5.
      assert (X : forall k j, nth_error (workers s') k = Some (WRun j) <-> nth_error (workers s) k = Some (WRun j)).
      { intros m j. destruct E4 as [-> |[-> | ->]]; [tauto|apply MW|].
        destruct (Nat.lt_ge_cases m (length (workers s))); [rewrite nth_error_app1 by auto; tauto|].
        rewrite nth_error_app2 by auto. rewrite (proj2 (nth_error_None (workers s) m)) by auto.
        destruct (m - length (workers s)) as [|n]; [|destruct n]; split; discriminate. }
      repeat split; auto; intros; [apply X in H0|apply X|]; auto.
      destruct E5 as [-> | ->]; [eapply UPC; eauto|]. eapply UPC with (c := wake_dtor c).
      - rewrite nth_error_map, C. reflexivity.
      - intros j' K. destruct c; try discriminate. eapply N1; eauto.
      - now apply MD. }
    destruct c; try discriminate; repeat match type of H with context [if ?b then _ else _] => destruct b eqn:? end; try discriminate;
      try (injection H as <-; cbn in U; discriminate); cbn zeta in H.
    + injection H as <-. split; [|split].
      * left. split; auto. cbn. intros. now apply MW.
      * left. split; auto. cbn. intros. now apply MW.
      * right. exists k, j. repeat split; auto. cbn. eapply upd_same. rewrite nth_error_map, C. reflexivity.
    + injection H as <-; match goal with |- context [set_c _ _ ?c'] => destruct (NR c' ltac:(intros; discriminate) eq_refl eq_refl eq_refl ltac:(cbn; auto) ltac:(cbn; auto)) as (A1 & A2 & A3) end; split; [left; exact A1|split; [left; exact A2|left; exact A3]].
    + injection H as <-; match goal with |- context [set_c _ _ ?c'] => destruct (NR c' ltac:(intros; discriminate) eq_refl eq_refl eq_refl ltac:(cbn; auto) ltac:(cbn; auto)) as (A1 & A2 & A3) end; split; [left; exact A1|split; [left; exact A2|left; exact A3]].
    + destruct n; injection H as <-; [destruct (NR (CRet false) ltac:(intros; discriminate) eq_refl eq_refl eq_refl ltac:(cbn; auto) ltac:(cbn; auto)) as (A1 & A2 & A3)|destruct (NR (CStarting n) ltac:(intros; discriminate) eq_refl eq_refl eq_refl ltac:(cbn; auto) ltac:(cbn; auto)) as (A1 & A2 & A3)]; (split; [left; exact A1|split; [left; exact A2|left; exact A3]]).
    + injection H as <-; match goal with |- context [set_c _ _ ?c'] => destruct (NR c' ltac:(intros; discriminate) eq_refl eq_refl eq_refl ltac:(cbn; auto) ltac:(cbn; auto)) as (A1 & A2 & A3) end; split; [left; exact A1|split; [left; exact A2|left; exact A3]].
    + injection H as <-; match goal with |- context [set_c _ _ ?c'] => destruct (NR c' ltac:(intros; discriminate) eq_refl eq_refl eq_refl ltac:(cbn; auto) ltac:(cbn; auto)) as (A1 & A2 & A3) end; split; [left; exact A1|split; [left; exact A2|left; exact A3]].
    + injection H as <-; match goal with |- context [set_c _ _ ?c'] => destruct (NR c' ltac:(intros; discriminate) eq_refl eq_refl eq_refl ltac:(cbn; auto) ltac:(cbn; auto)) as (A1 & A2 & A3) end; split; [left; exact A1|split; [left; exact A2|left; exact A3]].
    + injection H as <-; match goal with |- context [set_c _ _ ?c'] => destruct (NR c' ltac:(intros; discriminate) eq_refl eq_refl eq_refl ltac:(cbn; auto) ltac:(cbn; auto)) as (A1 & A2 & A3) end; split; [left; exact A1|split; [left; exact A2|left; exact A3]].
    + injection H as <-; match goal with |- context [set_c _ _ ?c'] => destruct (NR c' ltac:(intros; discriminate) eq_refl eq_refl eq_refl ltac:(cbn; auto) ltac:(cbn; auto)) as (A1 & A2 & A3) end; split; [left; exact A1|split; [left; exact A2|left; exact A3]].
    + injection H as <-; match goal with |- context [set_c _ _ ?c'] => destruct (NR c' ltac:(intros; discriminate) eq_refl eq_refl eq_refl ltac:(cbn; auto) ltac:(cbn; auto)) as (A1 & A2 & A3) end; split; [left; exact A1|split; [left; exact A2|left; exact A3]].
    + injection H as <-; match goal with |- context [set_c _ _ ?c'] => destruct (NR c' ltac:(intros; discriminate) eq_refl eq_refl eq_refl ltac:(cbn; auto) ltac:(cbn; auto)) as (A1 & A2 & A3) end; split; [left; exact A1|split; [left; exact A2|left; exact A3]].
    + injection H as <-; match goal with |- context [set_c _ _ ?c'] => destruct (NR c' ltac:(intros; discriminate) eq_refl eq_refl eq_refl ltac:(cbn; auto) ltac:(cbn; auto)) as (A1 & A2 & A3) end; split; [left; exact A1|split; [left; exact A2|left; exact A3]].
    + injection H as <-; match goal with |- context [set_c _ _ ?c'] => destruct (NR c' ltac:(intros; discriminate) eq_refl eq_refl eq_refl ltac:(cbn; auto) ltac:(cbn; auto)) as (A1 & A2 & A3) end; split; [left; exact A1|split; [left; exact A2|left; exact A3]].
    + injection H as <-; match goal with |- context [set_c _ _ ?c'] => destruct (NR c' ltac:(intros; discriminate) eq_refl eq_refl eq_refl ltac:(cbn; auto) ltac:(cbn; auto)) as (A1 & A2 & A3) end; split; [left; exact A1|split; [left; exact A2|left; exact A3]].
    + injection H as <-; match goal with |- context [set_c _ _ ?c'] => destruct (NR c' ltac:(intros; discriminate) eq_refl eq_refl eq_refl ltac:(cbn; auto) ltac:(cbn; auto)) as (A1 & A2 & A3) end; split; [left; exact A1|split; [left; exact A2|left; exact A3]].
    + injection H as <-; match goal with |- context [set_c _ _ ?c'] => destruct (NR c' ltac:(intros; discriminate) eq_refl eq_refl eq_refl ltac:(cbn; auto) ltac:(cbn; auto)) as (A1 & A2 & A3) end; split; [left; exact A1|split; [left; exact A2|left; exact A3]].
  - unfold step_new in H. destruct (destroyed s); [discriminate|]. injection H as <-.
    assert (G : forall c n, calls (new_call s c n) = calls s ++ [c]) by reflexivity.
    assert (K : forall c n k j, nth_error (calls s) k = Some (CSched j) -> nth_error (calls (new_call s c n)) k = Some (CSched j)).
    { intros. rewrite G. rewrite nth_error_app1; auto. apply nth_error_Some; congruence. }
    destruct r; (split; [left; split; auto|split; [left; split; auto|left; split; auto]]).
  - destruct (nth_error (workers s) i) as [[]|] eqn:W; try discriminate. injection H as <-.
    split; [|split]; left; (split; auto); cbn; intros k j Hk; eapply UPD; eauto; discriminate.
  - destruct (nth_error (calls s) k) as [[]|] eqn:C; try discriminate; injection H as <-;
      (split; [|split]); left; (split; auto); cbn; intros m j Hm; eapply UPC; eauto; discriminate.
Qed.

(** ** C30 *)
(** In every reachable state: the jobs scheduled so far are, in this order, the jobs started followed by the jobs
    waiting; every job was scheduled (hence started) at most once; the started jobs are the finished and the running
    ones; and at most as many jobs run as there are workers. *)
Theorem jobs_started_once_in_order : forall s, reachable s ->
  sched s = started s ++ q s /\ NoDup (map jid (sched s)) /\ NoDup (map jid (started s)) /\
  Permutation (started s) (finished s ++ running s) /\
  length (running s) <= length (workers s).
Proof.
  intros s R. destruct (reach_Inv s R) as [I _].
  assert (N : NoDup (map jid (sched s))).
  { pose proof (i_ids _ I) as N. rewrite map_app in N. clear - N. induction (map jid (sched s)); [constructor|].
    inversion N; subst. constructor; auto. intros X. apply H1. apply in_or_app; auto. }
  repeat split; auto; try apply I.
  - rewrite (i_fifo _ I), map_app in N. clear - N. induction (map jid (started s)); [constructor|].
    inversion N; subst. constructor; auto. intros X. apply H1. apply in_or_app; auto.
  - unfold running. clear. induction (workers s) as [|w ws IH]; cbn; auto. rewrite app_length. destruct w; cbn; lia.
Qed.
(** With one worker jobs do not overlap: a job is only started when all jobs started before are finished, and jobs
    finish in the order scheduled. *)
Theorem one_worker_is_sequential : forall s, reachable s -> length (workers s) <= 1 ->
  length (running s) <= 1 /\ (running s = [] \/ exists j, running s = [j]) /\
  started s = finished s ++ running s.
Proof.
  intros s [ls H]. revert s H. induction ls as [|l ls IH] using rev_ind; intros s H L.
  - injection H as <-. cbn. auto.
  - rewrite run_app in H. destruct (run init ls) as [t|] eqn:E; [|discriminate]. cbn in H.
    destruct (step t l) as [t'|] eqn:S; [|discriminate]. injection H as <-.
    assert (R : reachable t') by (eapply reach_step; [exists ls; exact E|exact S]).
    destruct (jobs_started_once_in_order t' R) as (_ & _ & _ & P & RL).
    assert (RC : running t' = [] \/ exists j, running t' = [j]).
    { destruct (running t') as [|j [|]] eqn:Q; [auto|eauto|cbn in RL; lia]. }
    split; [lia|]. split; [exact RC|].
    (* all log updates keep started = finished ++ running *)
    assert (Lt : length (workers t) <= length (workers t')).
    { clear - S. unfold step in S. destruct (stopped t); [discriminate|]. destruct l.
      - unfold step_worker in S. destruct (nth_error (workers t) i) as [w|]; [|discriminate].
        destruct w; repeat match type of S with context [if ?b then _ else _] => destruct b end;
          try destruct (q t); try discriminate; injection S as <-; cbn; rewrite ?upd_length, ?map_length; auto.
      - unfold step_call in S. destruct (nth_error (calls t) k) as [c|]; [|discriminate].
        destruct c; repeat match type of S with context [if ?b then _ else _] => destruct b end; try destruct n;
          try discriminate; injection S as <-; cbn; rewrite ?map_length, ?app_length; lia.
      - unfold step_new in S. destruct (destroyed t); [discriminate|]. injection S as <-. destruct r; cbn; auto.
      - destruct (nth_error (workers t) i) as [[]|]; try discriminate. injection S as <-. cbn. now rewrite upd_length.
      - destruct (nth_error (calls t) k) as [[]|]; try discriminate; injection S as <-; auto. }
    destruct (IH t eq_refl ltac:(lia)) as (_ & RT & ET).
    destruct (ub t') eqn:U.
    { (* a step into undefined behaviour changes neither logs nor program counters *)
      assert (X : started t' = started t /\ finished t' = finished t /\ running t' = running t).
      { clear - S U. unfold step in S. destruct (stopped t) eqn:ST; [discriminate|].
        assert (UN : ub t = None). { unfold stopped in ST. destruct (ub t); auto. now rewrite orb_true_r in ST. }
        destruct l.
        - unfold step_worker in S. destruct (nth_error (workers t) i) as [w|]; [|discriminate].
          destruct w; repeat match type of S with context [if ?b then _ else _] => destruct b end;
            try destruct (q t); try discriminate; injection S as <-; cbn in U; try congruence; auto.
        - unfold step_call in S. destruct (nth_error (calls t) k) as [c|]; [|discriminate].
          destruct c; repeat match type of S with context [if ?b then _ else _] => destruct b end; try destruct n;
            try discriminate; injection S as <-; cbn in U; try congruence; auto.
        - unfold step_new in S. destruct (destroyed t); [discriminate|]. injection S as <-. destruct r; cbn in U; congruence.
        - destruct (nth_error (workers t) i) as [[]|]; try discriminate. injection S as <-. cbn in U; congruence.
        - destruct (nth_error (calls t) k) as [[]|]; try discriminate; injection S as <-; cbn in U; congruence. }
      destruct X as (-> & -> & ->). exact ET. }
    destruct (logs_record_events t l t' S U) as (LS & LF & _).
    assert (W1 : forall u i w, length (workers u) <= 1 -> nth_error (workers u) i = Some w -> workers u = [w]).
    { intros u i w A B. destruct (workers u) as [|a [|]]; [destruct i; discriminate| |cbn in A; lia].
      destruct i as [|i]; [cbn in B; congruence|destruct i; discriminate]. }
    destruct LS as [[LS1 LS2]|(i & j & _ & A & B & C)], LF as [[LF1 LF2]|(i' & j' & _ & A' & B' & C')].
    + rewrite LS1, LF1, ET. f_equal.
      (* same running jobs *)
      destruct (running t) as [|x [|]] eqn:Rt; [| |destruct RT as [?|[? ?]]; discriminate].
      * destruct RC as [->|[y Ey]]; auto. exfalso.
        assert (In y (running t')) by (rewrite Ey; now left). unfold running in H. apply in_flat_map in H as (w & Hw & Hy).
        destruct w; cbn in Hy; try (destruct Hy; fail); destruct Hy as [Hy|[]]; subst j. apply In_nth_error in Hw as [n Hn]. apply LS2 in Hn.
        assert (In y (running t)). { unfold running. apply in_flat_map. exists (WRun y). split; [eapply nth_error_In; eauto|now left]. }
        rewrite Rt in H. destruct H.
      * assert (In x (running t)) by (rewrite Rt; now left). unfold running in H. apply in_flat_map in H as (w & Hw & Hy).
        destruct w; cbn in Hy; try (destruct Hy; fail); destruct Hy as [Hy|[]]; subst j. apply In_nth_error in Hw as [n Hn]. apply LF2 in Hn.
        assert (In x (running t')). { unfold running. apply in_flat_map. exists (WRun x). split; [eapply nth_error_In; eauto|now left]. }
        destruct RC as [Q|[y Ey]]; [rewrite Q in H; destruct H|rewrite Ey in *; destruct H as [->|[]]; reflexivity].
    + pose proof (W1 t _ _ ltac:(lia) A') as Wt. pose proof (W1 t' _ _ L B') as Wt'. unfold running in *. rewrite Wt in ET. rewrite Wt'. cbn in *.
      rewrite LS1, C', ET, app_nil_r. reflexivity.
    + pose proof (W1 t _ _ ltac:(lia) A) as Wt. pose proof (W1 t' _ _ L B) as Wt'. unfold running in *. rewrite Wt in ET. rewrite Wt'. cbn in *.
      rewrite LF1, C, ET, app_nil_r. reflexivity.
    + pose proof (W1 t _ _ ltac:(lia) A). pose proof (W1 t _ _ ltac:(lia) A'). congruence.
Qed.

(** ** C31 *)
Theorem waitForEmptyQueue_returns_when_idle : forall s k s' b, reachable s ->
  nth_error (calls s) k = Some CWait0 -> step s (LCall k) = Some s' -> nth_error (calls s') k = Some (CRet b) ->
  q s' = [] /\ running s' = [] /\ Permutation (sched s') (finished s').
Proof.
  intros s k s' b R C S Rt. destruct (reach_Inv s' (reach_step _ _ _ R S)) as [I' _]. destruct (reach_Inv s R) as [I _].
  unfold step in S. destruct (stopped s); [discriminate|]. unfold step_call in S. rewrite C in S.
  destruct (destroyed s); [injection S as <-; cbn in Rt; congruence|]. destruct (free s); [|discriminate].
  destruct (negb (active s =? 0) || negb (match q s with [] => true | _ => false end)) eqn:T; injection S as <-;
    cbn in Rt; rewrite (upd_same _ _ _ _ _ C) in Rt; [discriminate|].
  apply orb_false_elim in T as [T1 T2].
  assert (Q : q s = []) by now destruct (q s).
  assert (A : active s = 0) by (destruct (Nat.eqb_spec (active s) 0); [auto|discriminate]).
  assert (RN : running s = []).
  { rewrite (i_active _ I) in A. unfold running. pose proof (count_0 _ _ _ A) as Z. clear - Z.
    induction (workers s) as [|w ws IH]; auto. cbn. rewrite IH by (intros; apply Z; now right).
    specialize (Z w (or_introl eq_refl)). destruct w; try discriminate; reflexivity. }
  split; [exact Q|]. split; [exact RN|]. cbn.
  rewrite (i_fifo _ I), Q, app_nil_r, (i_run _ I), RN, app_nil_r. reflexivity.
Qed.

(** ** C32 *)
Lemma done_running s : forallb is_done (workers s) = true -> running s = [].
Proof.
  unfold running. intros H. rewrite forallb_forall in H. induction (workers s) as [|w ws IH]; auto. cbn.
  rewrite IH by (intros; apply H; now right). specialize (H w (or_introl eq_refl)). destruct w; try discriminate; reflexivity.
Qed.
(** a state in which all workers are gone and no start() is under way *)
Definition quiet (s : state) : Prop :=
  forallb is_done (workers s) = true /\ created s = true /\ forall n, ~ In (CStarting n) (calls s).
Lemma quiet_step s l s' : quiet s -> step s l = Some s' -> quiet s' /\ started s' = started s /\ exists more, q s' = q s ++ more.
Proof.
  intros (D & C & N) S. unfold step in S. destruct (stopped s); [discriminate|].
  assert (DW : forall i w, nth_error (workers s) i = Some w -> w = WDone).
  { intros i w H. rewrite forallb_forall in D. apply nth_error_In in H. specialize (D w H). now destruct w. }
  assert (Nil : exists more, q s = q s ++ more) by (exists []; now rewrite app_nil_r).
  assert (DM : forallb is_done (map wake_worker (workers s)) = true).
  { clear - D. induction (workers s) as [|w ws IH]; auto. cbn in *. apply andb_prop in D as [D1 D2]. rewrite IH by auto. now destruct w. }
  assert (NU : forall k c, (forall n, c <> CStarting n) -> forall n, ~ In (CStarting n) (upd (calls s) k c)).
  { intros k c H n X. apply upd_In in X as [X|X]; [eapply H; eauto|eapply N; eauto]. }
  assert (ND : forall k c, (forall n, c <> CStarting n) -> forall n, ~ In (CStarting n) (upd (map wake_dtor (calls s)) k c)).
  { intros k c H n X. apply upd_In in X as [X|X]; [eapply H; eauto|]. apply map_dtor_In in X as [X|[X _]]; [eapply N; eauto|discriminate]. }
  destruct l.
  - unfold step_worker in S. destruct (nth_error (workers s) i) as [w|] eqn:W; [|discriminate].
    rewrite (DW _ _ W) in S. discriminate.
  - unfold step_call in S. destruct (nth_error (calls s) k) as [c|] eqn:K; [|discriminate].
    destruct c; repeat match type of S with context [if ?b then _ else _] => destruct b eqn:? end; try discriminate;
      try (exfalso; eapply N, nth_error_In; eauto; fail); try congruence;
      injection S as <-; (split; [split; [cbn; auto|split; [cbn; auto|cbn; auto; first [apply NU|apply ND]; discriminate]]|split; [reflexivity|cbn; eauto; try (exists []; rewrite ?app_nil_r; cbn; rewrite ?app_nil_r; auto; fail)]]).
  - unfold step_new in S. destruct (destroyed s); [discriminate|]. injection S as <-.
    assert (G : forall c n, (forall m, c <> CStarting m) -> quiet (new_call s c n)).
    { intros c n H. split; auto. split; auto. cbn. intros m X. apply in_app_or in X as [X|[X|[]]]; [eapply N; eauto|eapply H; eauto]. }
    destruct r; (split; [apply G; discriminate|split; auto]).
  - destruct (nth_error (workers s) i) as [w|] eqn:W; [|discriminate]. rewrite (DW _ _ W) in S. discriminate.
  - destruct (nth_error (calls s) k) as [[]|] eqn:K; try discriminate; injection S as <-;
      (split; [split; [auto|split; [auto|cbn; apply NU; discriminate]]|split; auto]).
Qed.
Lemma quiet_run ls : forall s s', quiet s -> run s ls = Some s' -> quiet s' /\ started s' = started s /\ exists more, q s' = q s ++ more.
Proof.
  induction ls as [|l ls IH]; cbn; intros s s' Q H.
  - injection H as <-. split; auto. split; auto. exists []. now rewrite app_nil_r.
  - destruct (step s l) as [t|] eqn:S; [|discriminate]. destruct (quiet_step _ _ _ Q S) as (Qt & E1 & m1 & E2).
    destruct (IH _ _ Qt H) as (Q' & E3 & m2 & E4). split; auto. split; [congruence|]. exists (m1 ++ m2). now rewrite E4, E2, app_assoc.
Qed.
(** When join() returns all workers have returned and no job is running; the jobs not started are still queued in
    order; and (unless a start() call is still creating threads) no job is ever started later and the queue only grows. *)
Theorem join_returns_when_stopped : forall s k s' b, reachable s ->
  nth_error (calls s) k = Some CJoin2 -> step s (LCall k) = Some s' -> nth_error (calls s') k = Some (CRet b) ->
  (forall w, In w (workers s') -> w = WDone) /\ running s' = [] /\ Permutation (started s') (finished s') /\
  sched s' = started s' ++ q s' /\ q s' = q s /\
  ((forall n, ~ In (CStarting n) (calls s)) -> forall ls s'', run s' ls = Some s'' ->
     started s'' = started s' /\ (forall w, In w (workers s'') -> w = WDone) /\ exists more, q s'' = q s' ++ more).
Proof.
  intros s k s' b R C S Rt. destruct (reach_Inv s' (reach_step _ _ _ R S)) as [I' _].
  pose proof S as S0.
  unfold step in S. destruct (stopped s); [discriminate|]. unfold step_call in S. rewrite C in S.
  destruct (destroyed s); [injection S as <-; cbn in Rt; congruence|].
  destruct (created s) eqn:CR; [|injection S as <-; cbn in Rt; congruence].
  destruct (forallb is_done (workers s)) eqn:D; [|discriminate]. injection S as <-.
  assert (DW : forall u, forallb is_done (workers u) = true -> forall w, In w (workers u) -> w = WDone).
  { intros u Hu w H. rewrite forallb_forall in Hu. specialize (Hu w H). now destruct w. }
  assert (RN : running (set_c s k (CRet false)) = []) by now apply done_running.
  split; [now apply (DW s)|]. split; [auto|]. split; [rewrite (i_run _ I'), RN, app_nil_r; reflexivity|].
  split; [apply (i_fifo _ I')|]. split; [reflexivity|].
  intros N ls s'' H. assert (Q : quiet (set_c s k (CRet false))).
  { split; auto. split; auto. cbn. intros n X. apply upd_In in X as [X|X]; [discriminate|eapply N; eauto]. }
  destruct (quiet_run _ _ _ Q H) as ((Q1 & _) & Q2 & Q3). split; auto. split; auto. now apply DW.
Qed.

(** ** C35 *)
(** At every moment the future of a scheduled job is ready with a value/exception exactly when that very job has run,
    and then with its own result; it is broken exactly when the queue was destroyed before the job was started. *)
Theorem futures_get_their_own_result : forall s j, reachable s -> In j (sched s) -> jfut j = true ->
  (forall o, lookup (futs s) (jid j) = Some (FReady o) <-> In j (finished s) /\ o = jres j) /\
  (lookup (futs s) (jid j) = Some FBroken -> destroyed s = true /\ In j (q s)) /\
  (forall o, lookup (futs s) (jid j) = Some (FReady o) -> In j (started s)).
Proof.
  intros s j R J F. destruct (reach_Inv s R) as [I _].
  destruct (jobs_started_once_in_order s R) as (E & N & _ & P & _).
  assert (INJ : forall a b, In a (sched s) -> In b (sched s) -> jid a = jid b -> a = b).
  { clear - N. induction (sched s) as [|x l IH]; intros a b A B H; [destruct A|]. inversion N; subst.
    destruct A as [->|A], B as [->|B]; auto.
    - exfalso. apply H2. rewrite H. now apply in_map.
    - exfalso. apply H2. rewrite <- H. now apply in_map. }
  assert (FS : forall a, In a (finished s) -> In a (sched s) /\ In a (started s)).
  { intros a A. assert (In a (started s)) by (eapply Permutation_in; [symmetry; exact P|apply in_or_app; now left]).
    split; auto. rewrite E. apply in_or_app; now left. }
  assert (G : forall o, lookup (futs s) (jid j) = Some (FReady o) <-> In j (finished s) /\ o = jres j).
  { intros o. split.
    - intros H. destruct (i_fut2 _ I _ _ H) as [(j' & A & B & _ & C)|(_ & j' & _ & _ & _ & C)]; [|discriminate].
      injection C as ->. assert (j' = j) by (apply INJ; auto; now apply FS). subst j'. auto.
    - intros [A ->]. now apply (i_fut1 _ I). }
  split; [exact G|]. split.
  - intros H. destruct (i_fut2 _ I _ _ H) as [(j' & _ & _ & _ & C)|(D & j' & A & B & _ & _)]; [discriminate|].
    split; auto. rewrite <- (INJ j' j); auto. rewrite E. apply in_or_app; now right.
  - intros o H. apply FS, G with o, H.
Qed.

(** ** C92: no wake-up is lost between scheduling and working, or between finishing and waiting *)
Theorem no_lost_wakeups : forall s, reachable s ->
  (q s <> [] -> ~ In WWait (workers s)) /\
  (In CWaitSleep (calls s) -> q s <> [] \/ exists w, In w (workers s) /\ working w = true) /\
  (q s <> [] -> stopped s = false -> (exists w, In w (workers s) /\ w <> WDone) ->
     exists i s', step s (LWorker i) = Some s').
Proof.
  intros s R. destruct (reach_Inv s R) as [I _]. split; [|split].
  - intros Q H. apply Q. eapply (i_sleep _ I); eauto.
  - intros H. destruct (i_waiter _ I H) as [?|A]; auto. right. rewrite (i_active _ I) in A. clear - A.
    induction (workers s) as [|w ws IH]; cbn in A; [congruence|]. destruct (working w) eqn:E.
    + exists w. split; auto. now left.
    + destruct IH as (v & Hv & K); auto. exists v. split; auto. now right.
  - intros Q ST (w & Hw & ND). unfold step. rewrite ST.
    destruct (lock s) as [h|] eqn:L.
    + destruct (proj1 (i_lock _ I h) L) as (v & Hv & K). exists h. unfold step_worker. rewrite Hv.
      destruct v; try discriminate; eauto; repeat match goal with |- context [if ?b then _ else _] => destruct b end; eauto.
      destruct (q s); eauto.
    + apply In_nth_error in Hw as [n Hn]. exists n. unfold step_worker. rewrite Hn. unfold free. rewrite L.
      destruct w; try congruence; eauto; repeat match goal with |- context [if ?b then _ else _] => destruct b end; eauto.
      * exfalso. apply Q. eapply (i_sleep _ I WWait); auto. eapply nth_error_In; eauto.
      * destruct (q s); eauto.
Qed.
(** and the queue is never popped while empty *)
Theorem never_pops_empty_queue : forall s, reachable s -> ub s <> Some UBPopEmpty.
Proof. intros s R. apply reach_Inv; auto. Qed.

(** ** C33: join() *)
(** Refuted: the wake-up of join() can be lost.  One worker has found the queue empty and killWorkers_ false but is not
    yet asleep when join() sets the flag and notifies; it then sleeps forever.  In the reached state no thread can make
    any step (only a spurious wake-up or a further call by somebody else could help), and join() has not returned. *)
Definition lost_wakeup_schedule : list label :=
  [LNew (RStart 1); LCall 0; LCall 0; LCall 0; LWorker 0; LWorker 0; LNew RJoin; LCall 1; LCall 1; LWorker 0].
Theorem join_lost_wakeup_refuted : exists s, run init lost_wakeup_schedule = Some s /\
  nth_error (calls s) 1 = Some CJoin2 /\ workers s = [WWait] /\ stopped s = false /\
  forall l s', step s l = Some s' -> (exists i, l = LSpurW i) \/ (exists r, l = LNew r).
Proof.
  eexists. split; [vm_compute; reflexivity|]. split; [reflexivity|]. split; [reflexivity|]. split; [reflexivity|].
  intros l s' H. destruct l as [i|k|r|i|k]; eauto; exfalso.
  - destruct i as [|[|i]]; vm_compute in H; try discriminate.
  - destruct k as [|[|[|k]]]; vm_compute in H; try discriminate.
  - destruct k as [|[|[|k]]]; vm_compute in H; try discriminate.
Qed.

(** Proved part: once the flag is set and no worker is asleep or about to fall asleep, every fair execution ends with
    all workers gone, so that join() returns. *)
Definition winding_down (s : state) : Prop :=
  kill s = true /\ created s = true /\ (forall n, ~ In (CStarting n) (calls s)) /\
  (forall w, In w (workers s) -> sleepy w = false).
Definition wmeasure (w : wpc) : nat :=
  match w with WDone => 0 | WExit => 1 | WCheck => 2 | WTest => 3 | WRun _ => 5 | _ => 4 end.
Definition measure (s : state) : nat := fold_right (fun w n => wmeasure w + n) 0 (workers s).
Lemma measure_upd ws i w w' : nth_error ws i = Some w ->
  fold_right (fun w n => wmeasure w + n) 0 (upd ws i w') + wmeasure w = fold_right (fun w n => wmeasure w + n) 0 ws + wmeasure w'.
Proof. revert i. induction ws; intros [|i] H; cbn in *; try discriminate; [injection H as ->; lia|]. specialize (IHws _ H). lia. Qed.
Lemma wake_id ws : (forall w, In w ws -> sleepy w = false) -> map wake_worker ws = ws.
Proof. induction ws as [|w ws IH]; intros H; auto. cbn. rewrite IH by (intros; apply H; now right). f_equal. specialize (H w (or_introl eq_refl)). destruct w; auto; discriminate. Qed.

Lemma winding_step s l s' : winding_down s -> step s l = Some s' ->
  winding_down s' /\ measure s' <= measure s /\
  (forall i, l = LWorker i -> measure s' < measure s \/ ub s' <> None).
Proof.
  intros (K & C & N & SL) S. unfold step in S. destruct (stopped s); [discriminate|].
  pose proof (wake_id _ SL) as WK.
  assert (NU : forall k c, (forall n, c <> CStarting n) -> forall n, ~ In (CStarting n) (upd (calls s) k c)).
  { intros k c H n X. apply upd_In in X as [X|X]; [eapply H; eauto|eapply N; eauto]. }
  assert (ND : forall k c, (forall n, c <> CStarting n) -> forall n, ~ In (CStarting n) (upd (map wake_dtor (calls s)) k c)).
  { intros k c H n X. apply upd_In in X as [X|X]; [eapply H; eauto|]. apply map_dtor_In in X as [X|[X _]]; [eapply N; eauto|discriminate]. }
  assert (NM : forall n, ~ In (CStarting n) (map wake_dtor (calls s))).
  { intros n X. apply map_dtor_In in X as [X|[X _]]; [eapply N; eauto|discriminate]. }
  assert (NW : forall n, ~ In (CStarting n) (map wake_waiter (calls s))).
  { intros n X. apply map_waiter_In in X as [X|X]; [eapply N; eauto|discriminate]. }
  destruct l.
  - unfold step_worker in S. destruct (nth_error (workers s) i) as [w|] eqn:W; [|discriminate].
    assert (UB : forall u, s' = set_ub s u -> winding_down s' /\ measure s' <= measure s /\
              (forall i0, LWorker i = LWorker i0 -> measure s' < measure s \/ ub s' <> None)).
    { intros u ->. split; [repeat split; auto|]. split; [auto|]. intros _ _. right. discriminate. }
    assert (GO : forall w', kill s' = true -> created s' = true -> (forall n, ~ In (CStarting n) (calls s')) ->
       workers s' = upd (workers s) i w' -> sleepy w' = false -> wmeasure w' < wmeasure w ->
       winding_down s' /\ measure s' <= measure s /\ (forall i0, LWorker i = LWorker i0 -> measure s' < measure s \/ ub s' <> None)).
    { intros w' A1 A2 A3 A4 A5 A6. pose proof (measure_upd _ _ _ w' W) as M. unfold measure. rewrite A4.
      split; [|split; [lia|intros; left; lia]]. repeat split; auto. rewrite A4. intros v Hv. apply upd_In in Hv as [->|Hv]; auto. }
    assert (SW : sleepy w = false) by (eapply SL, nth_error_In; eauto).
    destruct w; try discriminate.
    + destruct (destroyed s); [injection S as E; eapply UB; symmetry; exact E|]. destruct (free s); [|discriminate]. injection S as <-. apply (GO WTest); auto.
    + rewrite K in S. cbn in S. rewrite andb_false_r in S. injection S as <-. apply (GO WCheck); auto.
    + destruct (destroyed s); [injection S as E; eapply UB; symmetry; exact E|]. destruct (free s); [|discriminate]. injection S as <-. apply (GO WTest); auto.
    + rewrite K in S. injection S as <-. apply (GO WExit); auto. cbn. now rewrite WK.
    + injection S as <-. apply (GO WDone); auto.
    + injection S as <-. apply (GO WRelock); auto.
    + destruct (destroyed s); [injection S as E; eapply UB; symmetry; exact E|]. destruct (free s); [|discriminate]. injection S as <-. apply (GO WTest); auto.
  - assert (GO : kill s' = true -> created s' = true -> (forall n, ~ In (CStarting n) (calls s')) -> workers s' = workers s ->
       winding_down s' /\ measure s' <= measure s /\ (forall i, LCall k = LWorker i -> measure s' < measure s \/ ub s' <> None)).
    { intros A1 A2 A3 A4. unfold measure. rewrite A4. split; [|split; [lia|discriminate]]. repeat split; auto. now rewrite A4. }
    unfold step_call in S. destruct (nth_error (calls s) k) as [c|] eqn:Ck; [|discriminate].
    destruct c; repeat match type of S with context [if ?b then _ else _] => destruct b eqn:? end; try discriminate;
      try (exfalso; eapply N, nth_error_In; eauto; fail); try congruence;
      injection S as <-; apply GO; cbn; auto; first [apply NU; discriminate|apply ND; discriminate].
  - unfold step_new in S. destruct (destroyed s); [discriminate|]. injection S as <-.
    assert (G : forall c n, (forall m, c <> CStarting m) -> winding_down (new_call s c n)).
    { intros c n H. repeat split; auto. cbn. intros m X. apply in_app_or in X as [X|[X|[]]]; [eapply N; eauto|eapply H; eauto]. }
    destruct r; (split; [apply G; discriminate|split; [apply le_n|discriminate]]).
  - destruct (nth_error (workers s) i) as [w|] eqn:W; [|discriminate]. assert (SW : sleepy w = false) by (eapply SL, nth_error_In; eauto).
    destruct w; discriminate.
  - destruct (nth_error (calls s) k) as [[]|] eqn:Ck; try discriminate; injection S as <-;
      (split; [repeat split; auto; cbn; apply NU; discriminate|split; [apply le_n|discriminate]]).
Qed.

Lemma winding_progress s : Inv s -> winding_down s -> stopped s = false -> forallb is_done (workers s) = false ->
  exists i s', step s (LWorker i) = Some s'.
Proof.
  intros I (K & C & N & SL) ST D. unfold step. rewrite ST.
  assert (E : exists i w, nth_error (workers s) i = Some w /\ w <> WDone).
  { clear - D. induction (workers s) as [|w ws IH]; [discriminate|]. cbn in D. apply andb_false_elim in D as [D|D].
    - exists 0, w. split; auto. intros ->. discriminate.
    - destruct (IH D) as (i & v & A & B). exists (S i), v. auto. }
  destruct (lock s) as [h|] eqn:L.
  - destruct (proj1 (i_lock _ I h) L) as (v & Hv & Hh). exists h. unfold step_worker. rewrite Hv.
    destruct v; try discriminate; eauto; repeat match goal with |- context [if ?b then _ else _] => destruct b end; eauto.
    destruct (q s); eauto.
  - destruct E as (n & w & Hn & NDn). exists n. unfold step_worker. rewrite Hn. unfold free. rewrite L.
    assert (SW : sleepy w = false) by (eapply SL, nth_error_In; eauto).
    destruct w; try congruence; try discriminate; eauto; repeat match goal with |- context [if ?b then _ else _] => destruct b end; eauto.
    destruct (q s); eauto.
Qed.

(** An infinite execution, and fairness to the workers: again and again some worker makes a step or none can. *)
Definition execution (f : nat -> state) (lab : nat -> label) : Prop := forall n, step (f n) (lab n) = Some (f (S n)).
Definition fair (f : nat -> state) (lab : nat -> label) : Prop :=
  forall n, exists m, n <= m /\ ((exists i, lab m = LWorker i) \/ (forall i, step (f m) (LWorker i) = None)).

Theorem join_returns_partial : forall f lab, reachable (f 0) -> winding_down (f 0) -> execution f lab -> fair f lab ->
  exists n, forall m, n <= m ->
    (forall w, In w (workers (f m)) -> w = WDone) /\
    (forall k, nth_error (calls (f m)) k = Some CJoin2 -> destroyed (f m) = false ->
       exists s', step (f m) (LCall k) = Some s' /\ nth_error (calls s') k = Some (CRet false)).
Proof.
  intros f lab R0 W0 EX FA.
  assert (RW : forall n, reachable (f n) /\ winding_down (f n)).
  { induction n; auto. destruct IHn as [A B]. split; [eapply reach_step; eauto|]. eapply winding_step; eauto. }
  assert (NS : forall n, stopped (f n) = false).
  { intros n. specialize (EX n). unfold step in EX. destruct (stopped (f n)); [discriminate|auto]. }
  assert (MONO : forall n d, measure (f (d + n)) <= measure (f n)).
  { induction d; auto. cbn. destruct (winding_step _ _ _ (proj2 (RW (d + n))) (EX (d + n))) as (_ & M & _). lia. }
  assert (MAIN : forall x n, measure (f n) <= x -> exists m, n <= m /\ forallb is_done (workers (f m)) = true).
  { induction x as [x IH] using lt_wf_ind. intros n Hx. destruct (FA n) as (m & Hm & [[i Hi]|NO]).
    - destruct (winding_step _ _ _ (proj2 (RW m)) (EX m)) as (_ & _ & M). destruct (M i Hi) as [LT|U].
      + pose proof (MONO n (m - n)) as MM. replace (m - n + n) with m in MM by lia.
        destruct (IH (measure (f (S m))) ltac:(lia) (S m) ltac:(lia)) as (m' & A & B). exists m'. split; [lia|auto].
      + exfalso. pose proof (NS (S m)) as X. unfold stopped in X. destruct (ub (f (S m))); [rewrite orb_true_r in X; discriminate|congruence].
    - exists m. split; auto. destruct (forallb is_done (workers (f m))) eqn:D; auto. exfalso.
      destruct (RW m) as [Rm Wm]. destruct (winding_progress _ (proj1 (reach_Inv _ Rm)) Wm (NS m) D) as (i & s' & S).
      rewrite NO in S. discriminate. }
  destruct (MAIN (measure (f 0)) 0 (le_n _)) as (n & _ & D). exists n. intros m Hm.
  assert (Dm : forallb is_done (workers (f m)) = true).
  { assert (Q : quiet (f n)). { destruct (RW n) as [_ (_ & C & N & _)]. split; auto. }
    clear D. induction Hm; [apply Q|].
    assert (Qm : forall d, quiet (f (d + n))). { induction d; auto. cbn. eapply quiet_step; eauto. }
    specialize (Qm (S m - n)). replace (S m - n + n) with (S m) in Qm by lia. apply Qm. }
  split.
  - intros w Hw. rewrite forallb_forall in Dm. specialize (Dm w Hw). now destruct w.
  - intros k Ck ND. destruct (RW m) as [_ (_ & C & _)]. unfold step. rewrite NS. unfold step_call. rewrite Ck, ND, C, Dm.
    eexists. split; [reflexivity|]. cbn. eapply upd_same; eauto.
Qed.
(** The hypotheses are met, e.g., when the flag is set while the worker is executing a job. *)
Example winding_reachable : exists s,
  run init [LNew (RStart 1); LCall 0; LCall 0; LCall 0; LNew (RSchedule false (Returns 3)); LCall 1;
            LWorker 0; LWorker 0; LWorker 0; LNew RJoin; LCall 2; LCall 2] = Some s /\
  winding_down s /\ nth_error (calls s) 2 = Some CJoin2.
Proof.
  eexists. split; [vm_compute; reflexivity|]. split; [|reflexivity]. repeat split.
  - cbn. intros n [H|[H|[H|[]]]]; discriminate.
  - cbn. intros w [<-|[]]. reflexivity.
Qed.
(** The destructor sets the flag under the mutex: after its first step no worker sleeps or is about to. *)
Theorem dtor_winds_down : forall s k s', reachable s -> nth_error (calls s) k = Some CDtor0 ->
  created s = true -> (forall n, ~ In (CStarting n) (calls s)) -> step s (LCall k) = Some s' -> ub s' = None -> winding_down s'.
Proof.
  intros s k s' R C CR N S U. destruct (reach_Inv s R) as [I _]. unfold step in S. destruct (stopped s); [discriminate|].
  unfold step_call in S. rewrite C in S. destruct (destroyed s); [injection S as <-; discriminate|].
  destruct (free s) eqn:F; [|discriminate]. apply free_None in F.
  assert (ND : forall c, (forall n, c <> CStarting n) -> forall n, ~ In (CStarting n) (upd (map wake_dtor (calls s)) k c)).
  { intros c H n X. apply upd_In in X as [X|X]; [eapply H; eauto|]. apply map_dtor_In in X as [X|[X _]]; [eapply N; eauto|discriminate]. }
  assert (SL : forall w, In w (map wake_worker (workers s)) -> sleepy w = false).
  { intros w Hw. apply in_map_iff in Hw as (v & <- & Hv). destruct v; auto. exfalso.
    apply In_nth_error in Hv as [n Hn]. pose proof (lock_held _ _ _ _ (i_lock _ I) Hn eq_refl). congruence. }
  cbn zeta in S. destruct (pool s =? 0); injection S as <-; repeat split; auto; cbn; apply ND; discriminate.
Qed.

(** ** C34: ~JobQueue *)
(** Refuted: threadsInPool_ counts a thread only after it has started to run.  Destroying the queue directly after
    start(1) finishes at once, and the worker then locks a destroyed mutex. *)
Theorem dtor_refuted : exists s,
  run init [LNew (RStart 1); LCall 0; LCall 0; LCall 0; LNew RDestroy; LCall 1; LWorker 0] = Some s /\
  nth_error (calls s) 0 = Some (CRet false) /\ nth_error (calls s) 1 = Some (CRet false) /\ ub s = Some UBWorkerAfterDtor.
Proof. eexists. split; [vm_compute; reflexivity|]. repeat split. Qed.

(** Proved part: if every thread created so far has entered its loop and no start() is under way when the destructor
    finishes, then all workers are gone at that moment and none ever touches the object again. *)
Theorem dtor_partial : forall s l s', reachable s -> step s l = Some s' ->
  destroyed s = false -> destroyed s' = true ->
  ~ In WInit (workers s) -> (forall n, ~ In (CStarting n) (calls s)) ->
  (forall w, In w (workers s') -> w = WDone) /\
  (forall ls s'', run s' ls = Some s'' -> ub s'' <> Some UBWorkerAfterDtor /\ (forall w, In w (workers s'') -> w = WDone)).
Proof.
  intros s l s' R S D D' NI NS. pose proof (reach_step _ _ _ R S) as R'. destruct (reach_Inv s' R') as [I' _].
  destruct (i_dead _ I' D') as (L & P & _).
  (* what the last step of the destructor changes *)
  assert (X : exists k, l = LCall k /\ (workers s' = workers s \/ workers s' = map wake_worker (workers s)) /\ created s' = created s /\
     (forall n, ~ In (CStarting n) (calls s')) /\ ub s' = ub s).
  { unfold step in S. destruct (stopped s); [discriminate|]. destruct l.
    - exfalso. unfold step_worker in S. destruct (nth_error (workers s) i) as [w|]; [|discriminate].
      destruct w; rewrite ?D in S; repeat match type of S with context [if ?b then _ else _] => destruct b end; try destruct (q s);
        try discriminate; injection S as <-; cbn in D'; congruence.
    - exists k. split; auto. unfold step_call in S. destruct (nth_error (calls s) k) as [c|] eqn:C; [|discriminate].
      assert (NU : forall c, (forall n, c <> CStarting n) -> forall n, ~ In (CStarting n) (upd (calls s) k c)).
      { intros c0 H n X. apply upd_In in X as [X|X]; [eapply H; eauto|eapply NS; eauto]. }
      assert (ND : forall c, (forall n, c <> CStarting n) -> forall n, ~ In (CStarting n) (upd (map wake_dtor (calls s)) k c)).
      { intros c0 H n X. apply upd_In in X as [X|X]; [eapply H; eauto|]. apply map_dtor_In in X as [X|[X _]]; [eapply NS; eauto|discriminate]. }
      rewrite D in S.
      destruct c; repeat match type of S with context [if ?b then _ else _] => destruct b end; try destruct n; try discriminate;
        injection S as <-; cbn in D'; try congruence; (split; [cbn; auto|split; [auto|split; [cbn; first [apply NU|apply ND]; discriminate|auto]]]).
    - exfalso. unfold step_new in S. rewrite D in S. injection S as <-. destruct r; cbn in D'; congruence.
    - exfalso. destruct (nth_error (workers s) i) as [[]|]; try discriminate. injection S as <-. cbn in D'; congruence.
    - exfalso. destruct (nth_error (calls s) k) as [[]|]; try discriminate; injection S as <-; cbn in D'; congruence. }
  destruct X as (k & -> & WE & CE & NS' & UE).
  assert (DW : forall w, In w (workers s') -> w = WDone).
  { intros w Hw. rewrite (i_pool _ I') in P. pose proof (count_0 _ _ _ P w Hw) as Z.
    assert (NH : holding w = false).
    { destruct (holding w) eqn:H; auto. apply In_nth_error in Hw as [n Hn]. pose proof (lock_held _ _ _ _ (i_lock _ I') Hn H). congruence. }
    assert (NW : w <> WInit).
    { intros ->. apply NI. destruct WE as [E|E]; rewrite E in Hw; auto. apply in_map_iff in Hw as (v & Ev & Hv). destruct v; try discriminate. auto. }
    destruct w; try discriminate; congruence. }
  split; auto.
  assert (G : forall ls t t'', (forall w, In w (workers t) -> w = WDone) -> destroyed t = true ->
     ub t <> Some UBWorkerAfterDtor -> run t ls = Some t'' -> ub t'' <> Some UBWorkerAfterDtor /\ (forall w, In w (workers t'') -> w = WDone)).
  { induction ls as [|l ls IH]; cbn; intros t t'' A B C H; [injection H as <-; auto|].
    destruct (step t l) as [u|] eqn:St; [|discriminate].
    assert (Y : workers u = workers t /\ destroyed u = true /\ ub u <> Some UBWorkerAfterDtor).
    { unfold step in St. destruct (stopped t); [discriminate|]. destruct l.
      - unfold step_worker in St. destruct (nth_error (workers t) i) as [w|] eqn:W; [|discriminate].
        rewrite (A w (nth_error_In _ _ W)) in St. discriminate.
      - unfold step_call in St. destruct (nth_error (calls t) k0) as [c|]; [|discriminate]. rewrite B in St.
        destruct c; try discriminate; injection St as <-; repeat split; auto; discriminate.
      - unfold step_new in St. rewrite B in St. discriminate.
      - destruct (nth_error (workers t) i) as [w|] eqn:W; [|discriminate]. rewrite (A w (nth_error_In _ _ W)) in St. discriminate.
      - destruct (nth_error (calls t) k0) as [[]|]; try discriminate; injection St as <-; repeat split; auto. }
    destruct Y as (Y1 & Y2 & Y3). apply (IH u t''); auto; intros; apply A; congruence. }
  intros ls s'' H. eapply G; eauto. rewrite UE. destruct (ub s) eqn:U; [|discriminate].
  unfold step in S. unfold stopped in S. rewrite U, orb_true_r in S. discriminate.
Qed.

(** ** Examples: two workers, three jobs, a future, a waiter *)
Definition ex_labels : list label :=
  [LNew (RStart 2); LCall 0; LCall 0; LCall 0; LCall 0;
   LNew (RSchedule true (Returns 7)); LNew (RSchedule true (Throws 1)); LNew (RSchedule false (Returns 0)); LCall 2; LCall 1; LCall 3;
   LWorker 1; LWorker 1; LWorker 1; LWorker 0; LWorker 0; LWorker 0; LNew RWaitEmpty; LCall 4;
   LWorker 0; LWorker 0; LWorker 0; LWorker 0; LWorker 1; LWorker 0; LWorker 0; LWorker 0; LWorker 0; LWorker 1; LWorker 1; LWorker 1; LCall 4].
Example ex_run : match run init ex_labels with
  | Some s => map jid (sched s) = [1; 0; 2] /\ map jid (started s) = [1; 0; 2] /\ map jid (finished s) = [0; 1; 2] /\
              futs s = [(1, FReady (Throws 1)); (0, FReady (Returns 7))] /\ nth_error (calls s) 4 = Some (CRet false)
  | None => False end.
Proof. vm_compute. repeat split. Qed.

Print Assumptions logs_record_events.
Print Assumptions jobs_started_once_in_order.
Print Assumptions one_worker_is_sequential.
Print Assumptions waitForEmptyQueue_returns_when_idle.
Print Assumptions join_returns_when_stopped.
Print Assumptions futures_get_their_own_result.
Print Assumptions no_lost_wakeups.
Print Assumptions join_lost_wakeup_refuted.
Print Assumptions join_returns_partial.
Print Assumptions dtor_refuted.
Print Assumptions dtor_partial.
