(** C59: printing. *)
From Verif Require Import Logging_Model Logging_Proofs Logging_Print_Proofs.
Open Scope nat_scope.

(** Loggers whose log() returns or throws a std::exception (nice), any number of threads, loggers exchanged and shutdown called at
    any time.  For a thread t between two prints: the messages it printed so far (done, in order) each got exactly one answer;
    those answered Printed were delivered exactly once, in order, and nothing else was; a message is dropped only after shutdown. *)
Theorem print_exactly_once beh progs c t : nice beh -> preach beh (pstart progs) c -> tpc c t = QIdle ->
  exists done, nth t progs [] = done ++ trest c t /\ map fst (rev (results_of c t)) = done /\
    rev (delivered_by (pst c) t) = map fst (filter is_printed (rev (results_of c t))) /\
    Forall (fun e => snd e = Printed \/ snd e = Dropped /\ pshut (pst c) = true) (results_of c t) /\
    (pshut (pst c) = false -> rev (delivered_by (pst c) t) = done).
Proof.
  intros NB R Q. pose proof (pinv_reach beh progs c NB R) as I. exists (map fst (rev (results_of c t))).
  assert (F : Forall (fun e => snd e = Printed \/ snd e = Dropped /\ pshut (pst c) = true) (results_of c t)).
  { unfold results_of. apply Forall_map. apply Forall_forall. intros [x [m r]] IN. apply filter_In in IN as [IN _]. pose proof (piR _ _ I) as H. rewrite Forall_forall in H. specialize (H _ IN). cbn in *.
    destruct r; auto; try contradiction. }
  assert (D : rev (delivered_by (pst c) t) = map fst (filter is_printed (rev (results_of c t)))).
  { rewrite (piD _ _ I t), Q. cbn [inLogger app]. unfold printed_of. rewrite <- map_rev. f_equal. clear. induction (results_of c t) as [|x l IH]; auto. cbn [filter rev].
    rewrite filter_app, <- IH. cbn [filter]. destruct (is_printed x); [reflexivity|rewrite app_nil_r; reflexivity]. }
  split; [|split; [auto|split; [auto|split; [auto|]]]].
  - rewrite <- (piO _ _ I t). unfold current. rewrite Q. cbn [app]. rewrite map_rev. auto.
  - intros SH. rewrite D. f_equal. apply Forall_rev in F. clear D. induction (rev (results_of c t)) as [|x l IH]; auto. inversion F as [|? ? H1 H2]. subst. cbn [filter].
    destruct H1 as [H1|[_ H1]]; [|congruence]. unfold is_printed at 1. rewrite H1. f_equal. auto.
Qed.
(** a message is given to the logger that is current at that moment, by a thread that is printing it *)
Theorem print_current_logger beh c mv c' : pcstep beh c mv = Some c' -> pdelivered (pst c') = pdelivered (pst c) \/
  exists t, mv = Thread t /\ tpc c t = QLog /\ pdelivered (pst c') = (plogger (pst c), (t, tmsg c t)) :: pdelivered (pst c).
Proof.
  intros S. destruct mv as [t| |lg]; [|injection S as <-; auto|injection S as <-; auto].
  apply pcstep_cases in S as (F & [(o & m & r & T1 & T2 & PS & PR)|(p & m & r & s' & p' & e & T1 & ST & T2 & PS & PR)]); [rewrite PS; auto|].
  apply tpc_of in T1 as (P1 & M1 & R1). rewrite PS. destruct p; cbn [pstep] in ST; try discriminate.
  - destruct (pshut (pst c)); injection ST as <- <- <-; auto.
  - destruct (is_me _ _); injection ST as <- <- <-; auto.
  - destruct (plock (pst c)); [discriminate|]. injection ST as <- <- <-; auto.
  - injection ST as <- <- <-; auto.
  - destruct (beh _ _). injection ST as <- <- <-; right; exists t. rewrite M1. auto.
  - destruct nested; [destruct e0; injection ST as <- <- <-; auto|]. destruct (pshut (pst c)); [injection ST as <- <- <-; auto|]. destruct (is_me _ _); injection ST as <- <- <-; auto.
  - injection ST as <- <- <-; auto.
  - injection ST as <- <- <-; auto.
Qed.
(** one thread at a time is inside a logger *)
Theorem print_exclusive beh progs c t1 t2 : nice beh -> preach beh (pstart progs) c -> inLogger (tpc c t1) = true -> inLogger (tpc c t2) = true -> t1 = t2.
Proof.
  intros NB R H1 H2. pose proof (pinv_reach beh progs c NB R) as I.
  assert (K : forall t, inLogger (tpc c t) = true -> plock (pst c) = Some t) by (intros t H; apply (piL _ _ I t); destruct (tpc c t); cbn in *; auto; discriminate).
  apply K in H1, H2. congruence.
Qed.
(** log statements made by the logger itself are dropped: they neither block nor deliver anything *)
Theorem print_nested_dropped beh progs c t x nested e : nice beh -> preach beh (pstart progs) c -> tpc c t = QInside (x :: nested) e ->
  exists c', pcstep beh c (Thread t) = Some c' /\ tpc c' t = QInside nested e /\ pst c' = pst c /\ presults c' = presults c.
Proof.
  intros NB R P. pose proof (pinv_reach beh progs c NB R) as I.
  assert (EL : plock (pst c) = Some t) by (apply (piL _ _ I t); rewrite P; auto). pose proof (piP _ _ I) as PP. rewrite EL, P in PP. destruct PP as [PP _].
  assert (TH : exists m r, nth_error (pthreads c) t = Some (QInside (x :: nested) e, m, r)).
  { unfold tpc, th in P. destruct (nth_error (pthreads c) t) as [[[p m] r]|]; [|discriminate]. cbn in P. subst. eauto. }
  destruct TH as (m & r & TH). unfold pcstep. rewrite TH. cbn [pstep]. rewrite PP. cbn [is_me]. rewrite Nat.eqb_refl.
  destruct (pshut (pst c)); (eexists; split; [reflexivity|]; cbn [pst presults]; split; [|auto]; unfold tpc, th; cbn [pthreads]; rewrite nth_replace, Nat.eqb_refl, TH; auto).
Qed.
(** printing never gets stuck: unless every thread has finished, some thread can move *)
Theorem print_progress beh progs c t : nice beh -> preach beh (pstart progs) c -> tpc c t <> QIdle \/ trest c t <> [] -> exists t' c', pcstep beh c (Thread t') = Some c'.
Proof.
  intros NB R W. pose proof (pinv_reach beh progs c NB R) as I.
  assert (ST : forall x, tpc c x <> QIdle -> (forall m, pstep beh (pst c) x m (tpc c x) <> None) -> exists t' c', pcstep beh c (Thread t') = Some c').
  { intros x N H. exists x. unfold pcstep. unfold tpc, th in *. destruct (nth_error (pthreads c) x) as [[[p m] r]|] eqn:E; [|cbn in N; congruence]. cbn [fst snd] in *. specialize (H m).
    destruct p; try congruence; destruct (pstep beh (pst c) x m _) as [[[s' p'] e']|]; try congruence; eauto. }
  destruct (plock (pst c)) as [o|] eqn:EL.
  - pose proof (proj2 (piL _ _ I o) EL) as CS. pose proof (piP _ _ I) as PP. rewrite EL in PP. apply (ST o); [intros X; rewrite X in CS; discriminate|]. intros m.
    destruct (tpc c o); cbn in *; try discriminate; try contradiction.
    + destruct (beh (plogger (pst c)) m). discriminate.
    + destruct nested; [destruct e; discriminate|]. destruct (pshut _); [discriminate|]. destruct (is_me _ _); discriminate.
  - pose proof (piL _ _ I t) as LT. rewrite EL in LT.
    destruct (tpc c t) eqn:P; try (discriminate (proj1 LT eq_refl));
      try (apply (ST t); [rewrite P; discriminate|intros m; rewrite P; cbn; rewrite ?EL; destruct (pshut (pst c)); try discriminate; destruct (is_me _ _); discriminate]).
    destruct W as [W|W]; [congruence|]. exists t. unfold pcstep. unfold tpc, trest, th in *. destruct (nth_error (pthreads c) t) as [[[p m] r]|]; cbn in *; [|congruence]. subst p.
    destruct r; [congruence|]. eauto.
Qed.
(** after shutdown, whoever is not already past the test delivers nothing any more *)
Theorem print_after_shutdown beh c c' t : pshut (pst c) = true -> (tpc c t = QIdle \/ tpc c t = QCheck1) -> preach beh c c' -> delivered_by (pst c') t = delivered_by (pst c) t.
Proof. intros SH P R. apply (shutdown_silent beh c c' t SH P R). Qed.
(** A logger that throws something else than a std::exception silences its thread for good: later messages of that thread are
    dropped although nobody called shutdown. *)
Theorem print_exactly_once_refuted : exists beh progs c, preach beh (pstart progs) c /\ tpc c 0 = QIdle /\ pshut (pst c) = false /\
  results_of c 0 = [(str "second", Dropped); (str "first", Thrown)] /\ plock (pst c) = None.
Proof.
  set (beh := (fun (_ : nat) (_ : bytes) => (@nil bytes, ThrowsOther)) : behaviour). set (P := [[str "first"; str "second"]]).
  assert (RUN : forall ms c c', preach beh (pstart P) c -> fold_left (fun o mv => match o with Some x => pcstep beh x mv | None => None end) ms (Some c) = Some c' -> preach beh (pstart P) c').
  { induction ms as [|t ts IH]; intros c c' R H; cbn [fold_left] in H; [injection H as <-; auto|]. destruct (pcstep beh c t) as [c1|] eqn:S.
    - eapply IH; [|exact H]. econstructor; eauto.
    - exfalso. clear - H. induction ts; cbn in H; auto. discriminate. }
  destruct (fold_left (fun o mv => match o with Some x => pcstep beh x mv | None => None end) (repeat (Thread 0) 11) (Some (pstart P))) as [c|] eqn:E; [|vm_compute in E; discriminate].
  exists beh, P, c. split; [eapply RUN; [constructor|exact E]|]. vm_compute in E. injection E as <-. repeat split; reflexivity.
Qed.

(** Non-vacuity *)
Definition talkative : behaviour := fun lg m => ([str "nested"; m], if Nat.eqb lg 0 then Returns else ThrowsStd).
Lemma ex_nice : nice talkative.
Proof. intros [|lg] m; discriminate. Qed.
Example ex_print : exists c, preach talkative (pstart [[str "a"; str "b"]; [str "c"]]) c /\ pdelivered (pst c) = [(1, (1, str "c")); (0, (0, str "a"))] /\ tpc c 0 = QIdle.
Proof.
  set (P := pstart [[str "a"; str "b"]; [str "c"]]).
  assert (RUN : forall ms c c', preach talkative P c -> fold_left (fun o mv => match o with Some x => pcstep talkative x mv | None => None end) ms (Some c) = Some c' -> preach talkative P c').
  { induction ms as [|t ts IH]; intros c c' R H; cbn [fold_left] in H; [injection H as <-; auto|]. destruct (pcstep talkative c t) as [c1|] eqn:S.
    - eapply IH; [|exact H]. econstructor; eauto.
    - exfalso. clear - H. induction ts; cbn in H; auto. discriminate. }
  destruct (fold_left (fun o mv => match o with Some x => pcstep talkative x mv | None => None end) (repeat (Thread 0) 10 ++ [SetLogger 1] ++ repeat (Thread 1) 10) (Some P)) as [c|] eqn:E; [|vm_compute in E; discriminate].
  exists c. split; [eapply RUN; [constructor|exact E]|]. vm_compute in E. injection E as <-. split; reflexivity.
Qed.
Print Assumptions print_exactly_once.
Print Assumptions print_current_logger.
Print Assumptions print_exclusive.
Print Assumptions print_nested_dropped.
Print Assumptions print_progress.
Print Assumptions print_after_shutdown.
Print Assumptions print_exactly_once_refuted.
