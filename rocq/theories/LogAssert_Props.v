(** C132: the assertions of sm_logging. *)
From Verif Require Import Bytes Float64 Logging_Model Logging_Spec Logging_Proofs Logging_Filter_Props LogMacro_Model LogMacro_Props LogAssert_Model.
From Coq Require Import Lia ZArith.
Open Scope nat_scope.

(** ** SM_ASSERT, SM_ASSERT_MSG, SM_BREAK *)
(** A failed assertion always stops at the breakpoint, whatever is logged or filtered; one that holds has no effect but evaluating
    its condition once.  In a release build (NDEBUG) nothing happens and the condition is not evaluated. *)
Lemma fatal_ok min package s id m now : exists s', sm_fatal min package s id m now = Some s' /\ (forall x, menv s' x = menv s x).
Proof.
  unfold sm_fatal, expand, fatal. cbn [ulevel uvar uname ustream uargs prefixed]. destruct (10 <? min); [exists s; auto|].
  assert (SO : stream_of package (mkU 10 Plain None false (pure m)) package) by (left; auto).
  destruct (define_clean s id package _ package None SO) as (e1 & E1 & D). cbn [uname ulevel prefixed] in D.
  unfold exec_stmt. cbn [svar sname slevel]. cbn zeta in D. rewrite D. destruct (lenabled _).
  - cbv zeta. cbn iota. unfold print_at, eval_in, pure. cbn [sargs sstream]. eexists. split; [reflexivity|]. cbn [menv]. intros x. rewrite outside_inside. auto.
  - eexists. split; [reflexivity|]. auto.
Qed.
Lemma fatals_ok min package now l : forall s, exists s', fatals min package s l now = Some s' /\ (forall x, menv s' x = menv s x).
Proof.
  induction l as [|[id m] l IH]; intros s; cbn [fatals]; [eauto|]. destruct (fatal_ok min package s id m now) as (s1 & -> & E1). destruct (IH s1) as (s2 & H & E2). exists s2. split; auto. intros x. rewrite E2. auto.
Qed.
Theorem assert_stops ndebug min package s cond id m user now e v : cond (menv s) = Some (e, v) ->
  (ndebug = true -> sm_assert ndebug min package s cond id m now = Continues s /\ sm_assert_msg ndebug min package s cond id m user now = Continues s /\ sm_break ndebug min package s id m now = Continues s) /\
  (ndebug = false ->
     (v <> 0%Z -> exists s', sm_assert ndebug min package s cond id m now = Continues s' /\ sm_assert_msg ndebug min package s cond id m user now = Continues s' /\
                      menv s' = e /\ mout s' = mout s /\ mg s' = mg s) /\
     (v = 0%Z -> (exists s', sm_assert ndebug min package s cond id m now = Breaks s' /\ forall x, menv s' x = e x) /\
              (exists s', sm_assert_msg ndebug min package s cond id m user now = Breaks s' /\ forall x, menv s' x = e x)) /\
     (exists s', sm_break ndebug min package s id m now = Breaks s' /\ forall x, menv s' x = menv s x)).
Proof.
  intros C. split; intros ->; [auto|]. unfold sm_assert, sm_assert_msg, sm_break. rewrite C. unfold nonzero. rewrite negb_involutive. split; [|split].
  - intros N. apply Z.eqb_neq in N. rewrite N. eexists. split; [reflexivity|]. split; [reflexivity|]. auto.
  - intros ->. cbn [Z.eqb]. set (s1 := mkM _ _ _ _ _). split.
    + destruct (fatals_ok min package now [(id, m)] s1) as (s' & -> & E). exists s'. split; auto.
    + destruct (fatals_ok min package now [(id, m); (S id, user); (S (S id), [10%N])] s1) as (s' & -> & E). exists s'. split; auto.
  - destruct (fatals_ok min package now [(id, m)] s) as (s' & -> & E). exists s'. split; auto.
Qed.
(** The explanation is printed before the breakpoint unless fatal messages are compiled out or the package's stream is off. *)
Definition after_calls (h : list op) (e : env) (out : list entry) : mstate := mkM (run g0 h) (fun _ => false) (fun _ => fzero) e out.
Lemma fatal_prints min package h e out id m now : named h id package ->
  exists s', sm_fatal min package (after_calls h e out) id m now = Some s' /\
    mout s' = (if (min <=? 10) && wanted h package 10 true then [mkEn id now package 10 m] else []) ++ out.
Proof.
  intros NM. unfold sm_fatal, expand, fatal. cbn [ulevel uvar uname ustream uargs prefixed]. destruct (10 <? min) eqn:MIN.
  { apply Nat.ltb_lt in MIN. replace (min <=? 10) with false by (symmetry; apply Nat.leb_gt; auto). eexists. split; [reflexivity|]. auto. }
  apply Nat.ltb_ge in MIN. replace (min <=? 10) with true by (symmetry; apply Nat.leb_le; auto). cbn [andb].
  assert (SO : stream_of package (mkU 10 Plain None false (pure m)) package) by (left; auto).
  destruct (define_clean (after_calls h e out) id package _ package None SO) as (e1 & E1 & D). cbn [uname ulevel prefixed after_calls mg mhit mlast mout] in D.
  pose proof (log_filter_up_to_date h id package 10 true NM) as F. unfold answer in F. cbn [exec] in F.
  destruct (define_location (run g0 h) id package 10 true) as [g2 b] eqn:DL. cbn [snd fst] in F, D. injection F as F.
  assert (LE : lenabled (gtable g2 id) = wanted h package 10 true).
  { rewrite <- F. unfold define_location in DL. injection DL as <- <-. rewrite andb_true_r. auto. }
  assert (LL : llevel (gtable g2 id) = 10) by (pose proof (define_level (run g0 h) id package 10 true) as X; rewrite DL in X; exact X).
  assert (LN : lname (gtable g2 id) = package).
  { destruct (history (h ++ [Log id package 10 true])) as [A B]. rewrite run_snoc in A, B. cbn [exec] in A, B. rewrite DL in A, B. cbn [fst] in A, B.
    destruct (ahN _ _ A id) as (q & lv & c & IN & E). { eapply B. apply in_or_app. right. left. reflexivity. }
    rewrite E. apply in_app_or in IN as [IN|[IN|[]]]; [eapply NM; eauto|]. injection IN as <- _ _. auto. }
  unfold exec_stmt. cbn [svar sname slevel]. rewrite D, LE. destruct (wanted h package 10 true).
  - cbv zeta. cbn iota. unfold print_at, eval_in, pure. cbn [sargs sstream]. eexists. split; [reflexivity|]. cbn [mout mg]. rewrite LL, LN. auto.
  - eexists. split; [reflexivity|]. auto.
Qed.
Theorem assert_explains_partial min package h e out cond id m now e1 : named h id package -> cond e = Some (e1, 0%Z) ->
  exists s', sm_assert false min package (after_calls h e out) cond id m now = Breaks s' /\
    mout s' = (if (min <=? 10) && wanted h package 10 true then [mkEn id now package 10 m] else []) ++ out.
Proof.
  intros NM C. unfold sm_assert. cbn [after_calls menv mg mhit mlast mout]. rewrite C. cbn [nonzero Z.eqb negb fatals].
  destruct (fatal_prints min package h e1 out id m now NM) as (s' & H & O). unfold after_calls in H. rewrite H. exists s'. auto.
Qed.
(** so a failed assertion can be silent: stream sm switched off *)
Theorem assert_explains_refuted : exists h e cond s', cond e = Some (e, 0%Z) /\
  sm_assert false 0 (str "sm") (after_calls h e []) cond 0 (str "ASSERTION FAILED") fzero = Breaks s' /\ mout s' = [].
Proof.
  exists [Disable (str "sm")], (fun _ => VI 0), (pure 0%Z). eexists. split; [reflexivity|]. split; [vm_compute; reflexivity|]. reflexivity.
Qed.

(** ** SM_ASSERT_CMD *)
(** should run the command exactly if the condition is false *)
Theorem assert_cmd_refuted : exists x y, sm_assert_cmd false (Bin OGt (Prim x) (Prim 0)) = false /\ ~ (x > 0)%Z /\
  sm_assert_cmd false (Bin OEq (Prim y) (Prim 5)) = false /\ y <> 5%Z /\
  sm_assert_cmd false (Bin OLt (Prim y) (Prim 10)) = true /\ (y < 10)%Z.
Proof. exists (-3)%Z, 3%Z. cbn. repeat split; lia. Qed.
(** The documented use, SM_ASSERT_CMD(x > 0, handleError()), runs the command exactly when x is zero: never for a negative x. *)
Theorem assert_cmd_documented x : sm_assert_cmd false (Bin OGt (Prim x) (Prim 0)) = Z.eqb x 0.
Proof. cbn. unfold nonzero, zb. destruct (Z.eqb x 0); auto. Qed.
(** It is right for conditions that are one operand (a variable, a call, anything in parentheses) or a negated one, and for
    comparing two truth values; in a release build the command never runs. *)
Theorem assert_cmd_partial :
  (forall v, sm_assert_cmd false (Prim v) = negb (nonzero v)) /\
  (forall e, sm_assert_cmd false (Not e) = negb (nonzero (ceval (Not e)))) /\
  (forall a b e, (a = 0 \/ a = 1)%Z -> (b = 0 \/ b = 1)%Z -> (e = Bin OEq (Prim a) (Prim b) \/ e = Bin ONe (Prim a) (Prim b)) ->
     sm_assert_cmd false e = negb (nonzero (ceval e))) /\
  (forall e, sm_assert_cmd true e = false).
Proof.
  split; [|split; [|split]]; intros; auto.
  - cbn. unfold nonzero, zb. destruct (Z.eqb v 0); auto.
  - cbn. unfold nonzero, zb. destruct (Z.eqb (ceval e) 0); auto.
  - destruct H as [-> | ->], H0 as [-> | ->], H1 as [-> | ->]; reflexivity.
Qed.
(** In general, exactly which conditions are handled correctly: those whose value changes its truth when the leftmost operand is
    negated. *)
Theorem assert_cmd_exact e : sm_assert_cmd false e = negb (nonzero (ceval e)) <-> nonzero (ceval (bang e)) <> nonzero (ceval e).
Proof. unfold sm_assert_cmd. destruct (nonzero (ceval (bang e))), (nonzero (ceval e)); cbn; split; intros H; auto; try discriminate; exfalso; apply H; auto. Qed.

(** What SM_ASSERT_CMD tests for a comparison, an arithmetic or a logical condition of two operands: the first operand is replaced by 1 if it is zero and by 0
    otherwise; and for c ? t : f it is the branch that is not taken which decides. *)
Theorem assert_cmd_operators a b t f : let z := if Z.eqb a 0 then 1%Z else 0%Z in let runs o := sm_assert_cmd false (Bin o (Prim a) (Prim b)) = true in
  (runs OEq <-> z = b) /\ (runs ONe <-> z <> b) /\ (runs OLt <-> (z < b)%Z) /\ (runs OLe <-> (z <= b)%Z) /\ (runs OGt <-> (z > b)%Z) /\ (runs OGe <-> (z >= b)%Z) /\
  (runs OAnd <-> a = 0%Z /\ b <> 0%Z) /\ (runs OOr <-> a = 0%Z \/ b <> 0%Z) /\ (runs OPlus <-> (z + b <> 0)%Z) /\ (runs OMinus <-> (z - b <> 0)%Z) /\ (runs OBitAnd <-> a = 0%Z /\ Z.odd b = true) /\
  (sm_assert_cmd false (Tern (Prim a) (Prim t) (Prim f)) = true <-> (a = 0%Z /\ t <> 0%Z) \/ (a <> 0%Z /\ f <> 0%Z)).
Proof.
  cbv zeta. unfold sm_assert_cmd. cbn [bang ceval]. unfold nonzero, zb. destruct (Z.eqb_spec a 0) as [A|A]; cbn [negb];
  (assert (N : forall x, negb (x =? 0)%Z = true <-> x <> 0%Z) by (intros x; destruct (Z.eqb_spec x 0); cbn; split; intros; auto; congruence));
  (assert (B : forall c : bool, negb ((if c then 1 else 0) =? 0)%Z = true <-> c = true) by (intros [|]; cbn; split; intros; auto; congruence)).
  all: repeat match goal with |- _ /\ _ => split | |- _ <-> _ => split end; intros H; rewrite ?B, ?N, ?negb_true_iff, ?Z.eqb_eq, ?Z.eqb_neq, ?Z.ltb_lt, ?Z.leb_le in *; auto; try lia.
  - split; [exact A|]. rewrite Z.land_comm in H. change 1%Z with (Z.ones 1) in H. rewrite Z.land_ones in H by lia. change (2 ^ 1)%Z with 2%Z in H. rewrite Zmod_odd in H. destruct (Z.odd b); [reflexivity|congruence].
  - destruct H as [_ H]. rewrite Z.land_comm. change 1%Z with (Z.ones 1). rewrite Z.land_ones by lia. change (2 ^ 1)%Z with 2%Z. rewrite Zmod_odd, H. lia.
  - change (t <> 0%Z). destruct H as [[_ H]|[H _]]; [exact H|contradiction].
  - exfalso. apply H. reflexivity.
  - change (f <> 0%Z). destruct H as [[H _]|[_ H]]; [contradiction|exact H].
Qed.

(** Non-vacuity *)
Example ex_assert : exists s', sm_assert false 0 (str "sm") (after_calls [SetLevel 10; Log 3 (str "sm") 10 true] (fun _ => VI 2) []) (fun e => match e (str "x") with VI z => Some (e, zb (Z.ltb 5 z)) | _ => None end) 3 (str "ASSERTION FAILED") fzero = Breaks s' /\ length (mout s') = 1.
Proof. eexists. split; [vm_compute; reflexivity|reflexivity]. Qed.
Example ex_msg : exists s', sm_assert_msg false 0 (str "sm") (after_calls [] (fun _ => VI 2) []) (pure 0%Z) 3 (str "ASSERTION FAILED") (str "x is 2") fzero = Breaks s' /\ map etext (mout s') = [[10%N]; str "x is 2"; str "ASSERTION FAILED"].
Proof. eexists. split; [vm_compute; reflexivity|reflexivity]. Qed.
