From Verif Require Import Logging_Model Logging_Proofs.
Open Scope nat_scope.

(** what thread t delivered / finished, latest first *)
Definition delivered_by (s : pstate) (t : nat) : list bytes := map (fun e => snd (snd e)) (filter (fun e => Nat.eqb (fst (snd e)) t) (pdelivered s)).
Definition results_of (c : pconfig) (t : nat) : list (bytes * presult) := map snd (filter (fun e => Nat.eqb (fst e) t) (presults c)).
Definition is_printed (e : bytes * presult) : bool := match snd e with Printed => true | _ => false end.
Definition printed_of (c : pconfig) (t : nat) : list bytes := map fst (filter is_printed (results_of c t)).
Definition nice (beh : behaviour) : Prop := forall lg m, snd (beh lg m) <> ThrowsOther.
Definition inCS (p : ppc) : bool := match p with QSet | QLog | QInside _ _ | QSelf | QClear | QExit => true | _ => false end.
Definition inLogger (p : ppc) : bool := match p with QInside _ _ | QClear | QSelf | QExit => true | _ => false end.
Definition th (c : pconfig) (t : nat) : ppc * bytes * list bytes := match nth_error (pthreads c) t with Some x => x | None => (QIdle, [], []) end.
Definition tpc (c : pconfig) (t : nat) : ppc := fst (fst (th c t)).
Definition tmsg (c : pconfig) (t : nat) : bytes := snd (fst (th c t)).
Definition trest (c : pconfig) (t : nat) : list bytes := snd (th c t).
Definition current (c : pconfig) (t : nat) : list bytes := match tpc c t with QIdle => [] | _ => [tmsg c t] end.

Lemma pcstep_cases beh c t c' : pcstep beh c (Thread t) = Some c' ->
  (forall x, x <> t -> th c' x = th c x) /\
  ((exists o m r, th c t = (QIdle, o, m :: r) /\ th c' t = (QCheck1, m, r) /\ pst c' = pst c /\ presults c' = presults c) \/
   (exists p m r s' p' e, th c t = (p, m, r) /\ pstep beh (pst c) t m p = Some (s', p', e) /\ th c' t = (p', m, r) /\ pst c' = s' /\
      presults c' = match e with Some x => (t, (m, x)) :: presults c | None => presults c end)).
Proof.
  unfold pcstep. destruct (nth_error (pthreads c) t) as [[[p m] r]|] eqn:E; [|discriminate]. intros H.
  assert (G : forall s x res, c' = mkPC s (replace t x (pthreads c)) res ->
    (forall y, y <> t -> th c' y = th c y) /\ th c' t = x /\ pst c' = s /\ presults c' = res).
  { intros s x res ->. unfold th. cbn [pthreads pst presults]. split; [|split; auto].
    - intros y N. rewrite nth_replace. apply Nat.eqb_neq in N. rewrite N. auto.
    - rewrite nth_replace, Nat.eqb_refl, E. auto. }
  assert (TH : th c t = (p, m, r)) by (unfold th; rewrite E; auto).
  assert (T : forall s' p' e, pstep beh (pst c) t m p = Some (s', p', e) ->
     c' = mkPC s' (replace t (p', m, r) (pthreads c)) (match e with Some x => (t, (m, x)) :: presults c | None => presults c end) ->
     (forall x, x <> t -> th c' x = th c x) /\
     (exists p m r s' p' e, th c t = (p, m, r) /\ pstep beh (pst c) t m p = Some (s', p', e) /\ th c' t = (p', m, r) /\ pst c' = s' /\
      presults c' = match e with Some x => (t, (m, x)) :: presults c | None => presults c end)).
  { intros s' p' e PS EQ. destruct (G _ _ _ EQ) as (G1 & G2 & G3 & G4). split; auto. exists p, m, r, s', p', e. auto. }
  assert (NI : p <> QIdle -> match pstep beh (pst c) t m p with
      | None => None
      | Some (s', p', e) => Some (mkPC s' (replace t (p', m, r) (pthreads c)) (match e with Some x => (t, (m, x)) :: presults c | None => presults c end))
      end = Some c') by (intros NQ; destruct p; try exact H; congruence).
  assert (DQ : {p = QIdle} + {p <> QIdle}) by (destruct p; first [left; reflexivity|right; discriminate]). destruct DQ as [->|NQ].
  2:{ specialize (NI NQ). destruct (pstep beh (pst c) t m p) as [[[s' p'] e]|] eqn:PS; [|discriminate]. injection NI as EQ.
      destruct (T s' p' e eq_refl (eq_sym EQ)) as [A B]. split; [exact A|right; exact B]. }
  clear NI T.
  destruct r as [|m' r]; [discriminate|]. injection H as <-. destruct (G (pst c) (QCheck1, m', r) (presults c) eq_refl) as (G1 & G2 & G3 & G4). split; [exact G1|left].
  exists m, m', r. auto.
Qed.
Record pinv (progs : list (list bytes)) (c : pconfig) : Prop := {
  piL : forall t, inCS (tpc c t) = true <-> plock (pst c) = Some t;
  piP : match plock (pst c) with
        | None => pprinting (pst c) = None
        | Some t => match tpc c t with
                    | QSet => pprinting (pst c) = None
                    | QLog => pprinting (pst c) = Some t
                    | QInside _ e => pprinting (pst c) = Some t /\ e <> ThrowsOther
                    | QClear => pprinting (pst c) = Some t
                    | _ => False
                    end
        end;
  piD : forall t, delivered_by (pst c) t = (if inLogger (tpc c t) then [tmsg c t] else []) ++ printed_of c t;
  piR : Forall (fun e => match snd (snd e) with Printed => True | Dropped => pshut (pst c) = true | Thrown => False end) (presults c);
  piO : forall t, rev (map fst (results_of c t)) ++ current c t ++ trest c t = nth t progs [] }.
Lemma tpc_of c t p m r : th c t = (p, m, r) -> tpc c t = p /\ tmsg c t = m /\ trest c t = r.
Proof. unfold tpc, tmsg, trest. intros ->. auto. Qed.
Lemma th_eq c c' t : th c' t = th c t -> tpc c' t = tpc c t /\ tmsg c' t = tmsg c t /\ trest c' t = trest c t /\ current c' t = current c t.
Proof. unfold current, tpc, tmsg, trest. intros ->. auto. Qed.
Lemma lock_inv2 (own : ppc -> bool) (f f' : nat -> ppc) t (o o' : option nat) :
  (forall x, own (f x) = true <-> o = Some x) -> (forall x, x <> t -> f' x = f x) ->
  ((own (f' t) = own (f t) /\ o' = o) \/ (o = None /\ own (f' t) = true /\ o' = Some t) \/ (own (f t) = true /\ own (f' t) = false /\ o' = None)) ->
  forall x, own (f' x) = true <-> o' = Some x.
Proof.
  intros H F C x. destruct (Nat.eq_dec x t) as [->|N].
  - destruct C as [[E ->]|[[-> [E ->]]|[E1 [E2 ->]]]].
    + rewrite E. apply H.
    + rewrite E. tauto.
    + rewrite E2. split; discriminate.
  - rewrite F by auto. destruct C as [[E ->]|[[-> [E ->]]|[E1 [E2 ->]]]].
    + apply H.
    + rewrite H. split; congruence.
    + rewrite H. apply H in E1. split; congruence.
Qed.
Lemma pinv_start progs : pinv progs (pstart progs).
Proof.
  assert (T : forall t, tpc (pstart progs) t = QIdle /\ trest (pstart progs) t = nth t progs []).
  { intros t. unfold tpc, trest, th, pstart. cbn [pthreads]. rewrite nth_error_map.
    destruct (nth_error progs t) eqn:E; cbn; split; auto; [symmetry; apply nth_error_nth; auto|]. symmetry. apply nth_overflow. apply nth_error_None. auto. }
  split.
  - intros t. destruct (T t) as [-> _]. cbn. split; discriminate.
  - reflexivity.
  - intros t. destruct (T t) as [-> _]. reflexivity.
  - constructor.
  - intros t. unfold current. destruct (T t) as [-> ->]. reflexivity.
Qed.
Lemma printed_cons c c' t x m r : presults c' = (t, (m, r)) :: presults c -> printed_of c' x = (if Nat.eqb t x then match r with Printed => [m] | _ => [] end else []) ++ printed_of c x.
Proof. intros E. unfold printed_of, results_of. rewrite E. cbn [filter fst]. destruct (Nat.eqb t x); auto. destruct r; auto. Qed.
Lemma results_cons c c' t x m r : presults c' = (t, (m, r)) :: presults c -> results_of c' x = (if Nat.eqb t x then [(m, r)] else []) ++ results_of c x.
Proof. intros E. unfold results_of. rewrite E. cbn [filter fst]. destruct (Nat.eqb t x); auto. Qed.

Lemma pinv_step beh progs c mv c' : nice beh -> pinv progs c -> pcstep beh c mv = Some c' -> pinv progs c'.
Proof.
  intros NB I S. destruct mv as [t| |lg].
  2:{ cbn in S. injection S as <-. destruct I as [A B C D E]. split; auto. cbn [pst presults pshut]. eapply Forall_impl; [|exact D]. intros [x [y z]]. cbn. destruct z; auto. }
  2:{ cbn in S. injection S as <-. destruct I as [A B C D E]. split; auto. }
  apply pcstep_cases in S as (F & [(o & m & r & T1 & T2 & PS & PR)|(p & m & r & s' & p' & e & T1 & ST & T2 & PS & PR)]).
  - apply tpc_of in T1 as (P1 & M1 & R1). apply tpc_of in T2 as (P2 & M2 & R2).
    assert (LK : forall x, inCS (tpc c' x) = true <-> plock (pst c') = Some x).
    { apply (lock_inv2 inCS (tpc c) (tpc c') t (plock (pst c))); [apply (piL _ _ I)|intros x N; apply th_eq; auto|]. left. rewrite P1, P2, PS. auto. }
    split; auto.
    + pose proof (piP _ _ I) as X. rewrite PS. destruct (plock (pst c)) as [o'|] eqn:EL; auto. destruct (Nat.eq_dec o' t) as [->|N].
      * pose proof (proj2 (piL _ _ I t) EL) as Y. rewrite P1 in Y. discriminate.
      * destruct (th_eq c c' o' (F o' N)) as (-> & _). auto.
    + intros x. rewrite PS. unfold printed_of, results_of. rewrite PR. destruct (Nat.eq_dec x t) as [->|N].
      * rewrite (piD _ _ I t), P1, P2. reflexivity.
      * destruct (th_eq c c' x (F x N)) as (-> & -> & _). apply (piD _ _ I x).
    + rewrite PS, PR. apply (piR _ _ I).
    + intros x. unfold results_of. rewrite PR. destruct (Nat.eq_dec x t) as [->|N].
      * rewrite <- (piO _ _ I t). unfold current, results_of. rewrite P1, P2, M2, R1, R2. reflexivity.
      * destruct (th_eq c c' x (F x N)) as (_ & _ & -> & ->). apply (piO _ _ I x).
  - apply tpc_of in T1 as (P1 & M1 & R1). apply tpc_of in T2 as (P2 & M2 & R2). subst s'.
    (* threads other than t, when the step is by t *)
    assert (OTH : forall x, x <> t -> tpc c' x = tpc c x /\ tmsg c' x = tmsg c x /\ trest c' x = trest c x /\ current c' x = current c x) by (intros x N; apply th_eq; auto).
    pose proof (piL _ _ I t) as LT. rewrite P1 in LT. pose proof (piP _ _ I) as PP.
    (* deliveries and results of other threads *)
    assert (DO : forall x, x <> t -> (pdelivered (pst c') = pdelivered (pst c) \/ exists lg, pdelivered (pst c') = (lg, (t, m)) :: pdelivered (pst c)) ->
       delivered_by (pst c') x = (if inLogger (tpc c' x) then [tmsg c' x] else []) ++ printed_of c' x).
    { intros x N PD. assert (E1 : delivered_by (pst c') x = delivered_by (pst c) x).
      { unfold delivered_by. destruct PD as [->|(lg & ->)]; auto. cbn [filter fst snd]. destruct (Nat.eqb t x) eqn:Q; auto. apply Nat.eqb_eq in Q. congruence. }
      assert (E2 : printed_of c' x = printed_of c x).
      { destruct e as [y|]; [rewrite (printed_cons c c' t x m y PR)|unfold printed_of, results_of; rewrite PR; auto]. destruct (Nat.eqb t x) eqn:Q; auto. apply Nat.eqb_eq in Q. congruence. }
      rewrite E1, E2. destruct (OTH x N) as (-> & -> & _). apply (piD _ _ I x). }
    assert (OO : forall x, x <> t -> rev (map fst (results_of c' x)) ++ current c' x ++ trest c' x = nth x progs []).
    { intros x N. assert (E2 : results_of c' x = results_of c x).
      { destruct e as [y|]; [rewrite (results_cons c c' t x m y PR)|unfold results_of; rewrite PR; auto]. destruct (Nat.eqb t x) eqn:Q; auto. apply Nat.eqb_eq in Q. congruence. }
      rewrite E2. destruct (OTH x N) as (_ & _ & -> & ->). apply (piO _ _ I x). }
    assert (ON : e = None -> p <> QIdle -> p' <> QIdle -> forall x, rev (map fst (results_of c' x)) ++ current c' x ++ trest c' x = nth x progs []).
    { intros -> NP NP' x. destruct (Nat.eq_dec x t) as [->|N]; [|apply OO; auto]. rewrite <- (piO _ _ I t). unfold results_of. rewrite PR. f_equal. unfold current.
      rewrite P1, P2, M1, M2, R1, R2. destruct p, p'; auto; congruence. }
    assert (OD : forall y, e = Some y -> p <> QIdle -> p' = QIdle -> forall x, rev (map fst (results_of c' x)) ++ current c' x ++ trest c' x = nth x progs []).
    { intros y -> NP -> x. destruct (Nat.eq_dec x t) as [->|N]; [|apply OO; auto]. rewrite <- (piO _ _ I t), (results_cons c c' t t m y PR), Nat.eqb_refl. unfold current.
      rewrite P1, P2, M1, R1, R2. cbn [app map fst rev]. rewrite <- !app_assoc. f_equal. destruct p; auto. congruence. }
    assert (DT : e = None -> pdelivered (pst c') = pdelivered (pst c) -> inLogger p' = inLogger p -> forall x, delivered_by (pst c') x = (if inLogger (tpc c' x) then [tmsg c' x] else []) ++ printed_of c' x).
    { intros -> PD IL x. destruct (Nat.eq_dec x t) as [->|N]; [|apply DO; auto]. unfold delivered_by, printed_of, results_of. rewrite PD, PR, P2, M2, IL, <- M1, <- P1. apply (piD _ _ I t). }
    assert (LKK : ((inCS p' = inCS p /\ plock (pst c') = plock (pst c)) \/ (plock (pst c) = None /\ inCS p' = true /\ plock (pst c') = Some t) \/ (inCS p = true /\ inCS p' = false /\ plock (pst c') = None)) ->
       forall x, inCS (tpc c' x) = true <-> plock (pst c') = Some x).
    { intros H. apply (lock_inv2 inCS (tpc c) (tpc c') t (plock (pst c))); [apply (piL _ _ I)|intros x N; apply OTH; auto|]. rewrite P1, P2. auto. }
    assert (PRR : match e with None => True | Some Printed => True | Some Dropped => pshut (pst c') = true | Some Thrown => False end -> pshut (pst c') = pshut (pst c) ->
       Forall (fun e => match snd (snd e) with Printed => True | Dropped => pshut (pst c') = true | Thrown => False end) (presults c')).
    { intros H SH. rewrite PR. assert (O : Forall (fun e => match snd (snd e) with Printed => True | Dropped => pshut (pst c') = true | Thrown => False end) (presults c)) by (rewrite SH; apply (piR _ _ I)).
      destruct e as [y|]; auto. }
    assert (NOTCS : inCS p = false -> inCS p' = false -> pst c' = pst c -> match plock (pst c') with
        | None => pprinting (pst c') = None
        | Some t => match tpc c' t with QSet => pprinting (pst c') = None | QLog => pprinting (pst c') = Some t | QInside _ e => pprinting (pst c') = Some t /\ e <> ThrowsOther
            | QClear => pprinting (pst c') = Some t | _ => False end end).
    { intros A B ->. destruct (plock (pst c)) as [y|] eqn:EL; auto. destruct (Nat.eq_dec y t) as [->|N]; [|destruct (OTH y N) as (-> & _); auto].
      exfalso. pose proof (proj2 LT eq_refl). congruence. }
    destruct p; cbn [pstep inCS inLogger] in *; try discriminate.
    + (* QCheck1 *)
      destruct (pshut (pst c)) eqn:SH; injection ST as EQ <- <-; symmetry in EQ.
      * split; [apply LKK; rewrite EQ; auto|apply NOTCS; auto| |apply PRR; rewrite EQ; auto|eapply OD; eauto; discriminate].
        intros x. destruct (Nat.eq_dec x t) as [->|N]; [|apply DO; auto; rewrite EQ; auto]. rewrite (printed_cons c c' t t m Dropped PR), Nat.eqb_refl, P2, EQ, (piD _ _ I t), P1. reflexivity.
      * split; [apply LKK; rewrite EQ; auto|apply NOTCS; auto|apply DT; rewrite ?EQ; auto|apply PRR; rewrite ?EQ; auto|apply ON; auto; discriminate].
    + (* QCheck2 *)
      assert (NM : is_me (pprinting (pst c)) t = false).
      { destruct (is_me (pprinting (pst c)) t) eqn:EM; auto. exfalso. destruct (pprinting (pst c)) as [y|] eqn:EP; [|discriminate]. cbn in EM. apply Nat.eqb_eq in EM. subst y.
        destruct (plock (pst c)) as [y|] eqn:EL; [|congruence]. assert (y = t). { destruct (tpc c y); first [contradiction|congruence|destruct PP as [PP _]; congruence]. }
        subst y. pose proof (proj2 LT eq_refl). discriminate. }
      rewrite NM in ST. injection ST as EQ <- <-; symmetry in EQ.
      split; [apply LKK; rewrite EQ; auto|apply NOTCS; auto|apply DT; rewrite ?EQ; auto|apply PRR; rewrite ?EQ; auto|apply ON; auto; discriminate].
    + (* QLock *)
      destruct (plock (pst c)) eqn:EL; [discriminate|]. injection ST as EQ <- <-; symmetry in EQ.
      split; [apply LKK; rewrite EQ; cbn; auto|rewrite EQ; cbn; rewrite P2; auto|apply DT; rewrite ?EQ; auto|apply PRR; rewrite ?EQ; auto|apply ON; auto; discriminate].
    + (* QSet *)
      pose proof (proj1 LT eq_refl) as EL. injection ST as EQ <- <-; symmetry in EQ.
      split; [apply LKK; rewrite EQ; cbn; auto|rewrite EQ; cbn; rewrite EL, P2; auto|apply DT; rewrite ?EQ; auto|apply PRR; rewrite ?EQ; auto|apply ON; auto; discriminate].
    + (* QLog *)
      pose proof (proj1 LT eq_refl) as EL. rewrite EL, P1 in PP. pose proof (NB (plogger (pst c)) m) as NE. destruct (beh (plogger (pst c)) m) as [nested en]. cbn [snd] in NE.
      injection ST as EQ <- <-; symmetry in EQ.
      split; [apply LKK; rewrite EQ; cbn; auto|rewrite EQ; cbn; rewrite EL, P2; auto| |apply PRR; rewrite ?EQ; auto|apply ON; auto; discriminate].
      intros x. destruct (Nat.eq_dec x t) as [->|N]; [|apply DO; auto; right; exists (plogger (pst c)); rewrite EQ; auto].
      pose proof (piD _ _ I t) as X. rewrite P1 in X. cbn [inLogger app] in X. rewrite P2, M2. cbn [inLogger app]. unfold printed_of, results_of in *. rewrite PR, <- X.
      unfold delivered_by. rewrite EQ. cbn [pdelivered filter fst snd]. rewrite Nat.eqb_refl. reflexivity.
    + (* QInside *)
      pose proof (proj1 LT eq_refl) as EL. rewrite EL, P1 in PP. destruct PP as [PP NE]. rewrite PP in ST. cbn [is_me] in ST. rewrite Nat.eqb_refl in ST.
      assert (EQ : pst c' = pst c /\ e = None /\ (exists n', p' = QInside n' e0 \/ p' = QClear)).
      { destruct nested as [|n nested].
        - destruct e0; [| |congruence]; injection ST as EQ <- <-; repeat split; auto; exists []; auto.
        - destruct (pshut (pst c)); injection ST as EQ <- <-; repeat split; auto; exists nested; auto. }
      destruct EQ as (EQ & -> & n' & EP').
      split; [apply LKK; rewrite EQ; destruct EP' as [-> | ->]; auto|rewrite EQ, EL, P2; destruct EP' as [-> | ->]; auto|apply DT; rewrite ?EQ; auto; destruct EP' as [-> | ->]; auto
             |apply PRR; rewrite ?EQ; auto|apply ON; auto; destruct EP' as [-> | ->]; discriminate].
    + (* QClear *)
      pose proof (proj1 LT eq_refl) as EL. injection ST as EQ <- <-; symmetry in EQ.
      split; [apply LKK; rewrite EQ; cbn; auto|rewrite EQ; cbn; auto| |apply PRR; rewrite ?EQ; auto|eapply OD; eauto; discriminate].
      intros x. destruct (Nat.eq_dec x t) as [->|N]; [|apply DO; auto; rewrite EQ; auto].
      rewrite (printed_cons c c' t t m Printed PR), Nat.eqb_refl, P2. cbn [inLogger app]. transitivity (delivered_by (pst c) t); [unfold delivered_by; rewrite EQ; reflexivity|].
      rewrite (piD _ _ I t), P1, M1. reflexivity.
    + (* QExit *) pose proof (proj1 LT eq_refl) as EL. rewrite EL, P1 in PP. destruct PP.
Qed.
Lemma pinv_reach beh progs c : nice beh -> preach beh (pstart progs) c -> pinv progs c.
Proof. intros N. induction 1; [apply pinv_start|eapply pinv_step; eauto]. Qed.

(** after shutdown *)
Lemma shutdown_silent beh c c' t : pshut (pst c) = true -> (tpc c t = QIdle \/ tpc c t = QCheck1) -> preach beh c c' ->
  pshut (pst c') = true /\ (tpc c' t = QIdle \/ tpc c' t = QCheck1) /\ delivered_by (pst c') t = delivered_by (pst c) t.
Proof.
  intros SH P. induction 1 as [|c1 mv c2 R IH S]; [auto|]. destruct IH as (A & B & C). destruct mv as [x| |lg].
  - apply pcstep_cases in S as (F & [(o & m & r & T1 & T2 & PS & PR)|(p & m & r & s' & p' & e & T1 & ST & T2 & PS & PR)]).
    + rewrite PS. split; auto. split; auto. destruct (Nat.eq_dec x t) as [->|N]; [apply tpc_of in T2 as (-> & _); auto|]. destruct (th_eq c1 c2 t (F t ltac:(auto))) as (-> & _). auto.
    + subst s'. apply tpc_of in T1 as (P1 & M1 & R1). apply tpc_of in T2 as (P2 & M2 & R2).
      assert (SH2 : pshut (pst c2) = pshut (pst c1) /\ (pdelivered (pst c2) = pdelivered (pst c1) \/ (p = QLog /\ pdelivered (pst c2) = (plogger (pst c1), (x, m)) :: pdelivered (pst c1)))).
      { destruct p; cbn [pstep] in ST; try discriminate.
        - destruct (pshut (pst c1)) eqn:QS; injection ST as <- <- <-; auto.
        - destruct (is_me _ _); injection ST as <- <- <-; auto.
        - destruct (plock (pst c1)); [discriminate|]. injection ST as <- <- <-; auto.
        - injection ST as <- <- <-; auto.
        - destruct (beh _ _). injection ST as <- <- <-; auto.
        - destruct nested; [destruct e0; injection ST as <- <- <-; auto|]. destruct (pshut (pst c1)) eqn:QS; [injection ST as <- <- <-; auto|]. destruct (is_me _ _); injection ST as <- <- <-; auto.
        - injection ST as <- <- <-; auto.
        - injection ST as <- <- <-; auto. }
      destruct SH2 as [-> PD]. split; auto. destruct (Nat.eq_dec x t) as [->|N].
      * rewrite P1 in B. destruct B as [->| ->]; cbn [pstep] in ST; [discriminate|]. rewrite A in ST. injection ST as EQ <- <-. rewrite P2. split; auto. rewrite <- EQ. auto.
      * destruct (th_eq c1 c2 t (F t ltac:(auto))) as (-> & _). split; auto. rewrite <- C. unfold delivered_by. destruct PD as [->|[_ ->]]; auto. cbn [filter fst snd].
        apply Nat.eqb_neq in N. rewrite N. auto.
  - cbn in S. injection S as <-. auto.
  - cbn in S. injection S as <-. auto.
Qed.
