(** Histories of calls on a corrector with exact arithmetic. *)
From Coq Require Import List QArith Lqa Sorted Lia Bool.
From Verif Require Import Corrector_Model Corrector_Spec Corrector_Proofs.
Import ListNotations.
Open Scope Q_scope.
Ltac conjs := repeat match goal with |- _ /\ _ => split end.

(** The result of one call in a history: a returned time, or the exception thrown. *)
Inductive reply := Returned (t : Q) | Threw (e : exn).
Definition step2 (st : option (corrector QTime * list reply)) (s : sample) :=
  match st with
  | None => None
  | Some (c, rs) =>
      match correctTimestamp c (fst s : time_t QTime) (snd s : time_t QTime) with
      | Ret t c' => Some (c', rs ++ [Returned t])
      | Throw e c' => Some (c', rs ++ [Threw e])
      | Undef => None
      end
  end.
(** Calling correctTimestamp(remote, local) on a fresh corrector, going on after exceptions. [None] = undefined behaviour. *)
Definition run2 (calls : list sample) := fold_left step2 calls (Some (newCorrector QTime, [])).

Record call3 := mkCall { c_remote : Q; c_local : Q; c_period : Q }.
Definition call_sample (k : call3) : sample := (c_remote k, c_local k).
Definition step3 (st : option (corrector QTime * list reply)) (k : call3) :=
  match st with
  | None => None
  | Some (c, rs) =>
      match correctPeriodic c (c_remote k : time_t QTime) (c_local k : time_t QTime) (c_period k : time_t QTime) with
      | Ret t c' => Some (c', rs ++ [Returned t])
      | Throw e c' => Some (c', rs ++ [Threw e])
      | Undef => None
      end
  end.
(** The same with correctTimestamp(remote, local, switchingPeriod). *)
Definition run3 (calls : list call3) := fold_left step3 calls (Some (newCorrector QTime, [])).

(** What the caller sees of the hull. *)
Definition hull_samples (c : core QTime) : list sample := map smp (points c).

Definition ofS (s : sample) : QP := qp (fst s) (snd s).
Lemma smp_ofS s : smp (ofS s) = s. Proof. destruct s; reflexivity. Qed.
(** The invariant in terms of a list of samples in order of arrival. *)
Definition Tracks (c : core QTime) (A : list sample) : Prop := Good c (rev (map ofS A)).

Lemma map_smp_ofS A : map smp (map ofS A) = A.
Proof. rewrite map_map. rewrite <- (map_id A) at 2. apply map_ext. apply smp_ofS. Qed.
Lemma tracks_hull c A : Tracks c A -> LowerHull A (hull_samples c).
Proof.
  intros [Hi _]. apply hull_correct in Hi. rewrite rev_involutive, map_smp_ofS in Hi. exact Hi.
Qed.
Lemma tracks_empty : Tracks (emptyCore QTime) [].
Proof. split; [apply inv_empty|simpl; lia]. Qed.

Lemma sorted_accepts (c : core QTime) A r : Tracks c A -> (acceptable A r <-> accepts (rev (map ofS A)) r).
Proof.
  intros [Hi _]. pose proof (i_Ss _ _ Hi) as HS.
  assert (E : forall s, In s A <-> In (ofS s) (rev (map ofS A))).
  { intros s. rewrite <- in_rev. split; intros H; [apply in_map; auto|].
    apply in_map_iff in H. destruct H as (s' & E & H). apply (f_equal smp) in E. rewrite !smp_ofS in E. congruence. }
  unfold acceptable, accepts. destruct (rev (map ofS A)) as [|t S] eqn:ES.
  - split; auto. intros _ s Hs. apply E in Hs. destruct Hs.
  - split.
    + intros H. specialize (H (smp t)). rewrite E in H. apply H. left. destruct t; reflexivity.
    + intros H s Hs. apply E in Hs. inversion HS; subst. destruct Hs as [->|Hs].
      * exact H.
      * rewrite Forall_forall in H3. specialize (H3 _ Hs). unfold later in H3. cbn in *. lra.
Qed.

Lemma rev_ofS_snoc A r l : rev (map ofS (A ++ [(r, l)])) = qp r l :: rev (map ofS A).
Proof. rewrite map_app, rev_app_distr. reflexivity. Qed.

Lemma core_reject c A r l : Tracks c A -> ~ acceptable A r ->
  correctCore c (r : time_t QTime) l = Throw TimeWentBackwards c.
Proof.
  intros H Hn. apply correctCore_reject with (rev (map ofS A)); auto. intros K. apply Hn. apply (sorted_accepts c); auto.
Qed.
Lemma core_accept (c : core QTime) A (r l : Q) : Tracks c A -> acceptable A r ->
  exists v c', correctCore c (r : time_t QTime) l = Ret v c' /\ Tracks c' (A ++ [(r, l)]) /\ v <= l /\
    ((length (hull c') < 3)%nat -> v = l /\ mid c' = mid c) /\
    ((length (hull c') >= 3)%nat -> exists a b, segment c' = Some (a, b) /\ v = line (smp a) (smp b) r /\
        let m := (qx (last (hull c') (qp r l)) + r) / 2 in qx a < m <= qx b).
Proof.
  intros H Ha. rewrite (sorted_accepts c) in Ha by auto.
  destruct (correctCore_accept c _ r l H Ha) as (v & c' & E & G & Rest).
  exists v, c'. split; auto. split; auto. unfold Tracks. rewrite rev_ofS_snoc. exact G.
Qed.

(** A reply is right: an exception exactly for an unacceptable sample, else a time <= local. *)
Definition reply_ok (A : list sample) (s : sample) (x : reply) : Prop :=
  match x with
  | Threw e => e = TimeWentBackwards /\ ~ acceptable A (fst s)
  | Returned t => t <= snd s /\ acceptable A (fst s)
  end.

Lemma offer_yes A s : acceptable A (fst s) -> offer A s = A ++ [s].
Proof. intros. unfold offer. destruct acceptable_dec; tauto. Qed.
Lemma offer_no A s : ~ acceptable A (fst s) -> offer A s = A.
Proof. intros. unfold offer. destruct acceptable_dec; tauto. Qed.

Lemma run2_tracks calls : exists c rs, run2 calls = Some (c, rs) /\ Tracks (main c) (accepted calls) /\ pending c = None /\
  length rs = length calls /\
  (forall i s x, nth_error calls i = Some s -> nth_error rs i = Some x -> reply_ok (accepted (firstn i calls)) s x).
Proof.
  induction calls as [|s calls IH] using rev_ind.
  - exists (newCorrector QTime), []. conjs; auto; try apply tracks_empty. intros [|i]; discriminate.
  - destruct IH as (c & rs & E & T & P & L & H).
    unfold run2, accepted in *. rewrite fold_left_app. cbn [fold_left]. rewrite E. cbn [step2]. unfold correctTimestamp.
    assert (Old : forall x, reply_ok (fold_left offer calls []) s x ->
       forall i s0 x0, nth_error (calls ++ [s]) i = Some s0 -> nth_error (rs ++ [x]) i = Some x0 ->
         reply_ok (fold_left offer (firstn i (calls ++ [s])) []) s0 x0).
    { intros x Hx i s0 x0 H1 H2. destruct (Nat.lt_ge_cases i (length calls)) as [Hi|Hi].
      - rewrite nth_error_app1 in H1, H2 by lia. rewrite firstn_app.
        replace (i - length calls)%nat with 0%nat by lia. rewrite firstn_O, app_nil_r. eauto.
      - assert (i = length calls).
        { assert (K : nth_error (calls ++ [s]) i <> None) by congruence. apply nth_error_Some in K.
          rewrite app_length in K. simpl in K. lia. }
        subst i. rewrite nth_error_app2, Nat.sub_diag in H1 by lia. rewrite <- L in H2.
        rewrite nth_error_app2, Nat.sub_diag in H2 by lia. injection H1 as <-. injection H2 as <-.
        rewrite firstn_app, Nat.sub_diag, firstn_O, app_nil_r, firstn_all. exact Hx. }
    rewrite fold_left_app. cbn [fold_left].
    destruct (acceptable_dec (fold_left offer calls []) (fst s)) as [Y|N].
    + destruct (core_accept (main c) _ (fst s) (snd s) T Y) as (v & c' & E1 & T' & Hv & _).
      rewrite E1. exists (mkC c' (pending c)), (rs ++ [Returned v]). rewrite offer_yes by auto. conjs; auto.
      * cbn [main]. destruct s; exact T'.
      * rewrite !app_length, L. reflexivity.
      * apply Old. split; auto.
    + rewrite (core_reject (main c) _ (fst s) (snd s) T N). exists (mkC (main c) (pending c)), (rs ++ [Threw TimeWentBackwards]).
      rewrite offer_no by auto. conjs; auto.
      * rewrite !app_length, L. reflexivity.
      * apply Old. split; auto.
Qed.

(** * The periodic overload: two windows of the accepted samples *)
Record Windows (c : corrector QTime) (A : list sample) (n : nat) (om : option nat) : Prop := {
  w_main : Tracks (main c) (skipn n A);
  w_sorted : StronglySorted (fun a b => fst a < fst b) A;
  w_n : (n < length A \/ A = [] /\ n = 0)%nat;
  w_pend : match pending c, om with
           | None, None => True
           | Some q, Some m => Tracks q (skipn m A) /\ (n <= m <= length A)%nat
           | _, _ => False
           end }.

Lemma windows_empty : Windows (newCorrector QTime) [] 0 None.
Proof. split; simpl; auto using tracks_empty. constructor. Qed.

Lemma skipn_In (X : Type) n (l : list X) x : In x (skipn n l) -> In x l.
Proof. intros H. rewrite <- (firstn_skipn n l). apply in_app_iff. auto. Qed.
Lemma acceptable_skip A n r : acceptable A r -> acceptable (skipn n A) r.
Proof. intros H s Hs. apply H. eapply skipn_In; eauto. Qed.
Lemma skipn_last (X : Type) n (A : list X) z : (n < length (A ++ [z]))%nat -> In z (skipn n (A ++ [z])).
Proof.
  intros H. rewrite app_length in H. simpl in H. rewrite skipn_app. replace (n - length A)%nat with 0%nat by lia.
  apply in_app_iff. right. left. auto.
Qed.
Lemma acceptable_window A n r : StronglySorted (fun a b => fst a < fst b) A ->
  (n < length A \/ A = [] /\ n = 0)%nat -> acceptable (skipn n A) r -> acceptable A r.
Proof.
  intros HS [Hn | [-> ->]] H; auto.
  destruct A as [|a A'] using rev_ind; [simpl in Hn; lia|]. clear IHA'.
  specialize (H a (skipn_last _ _ _ _ Hn)).
  intros s Hs. apply in_app_iff in Hs. destruct Hs as [Hs|[<-|[]]]; auto.
  assert (fst s < fst a); [|lra].
  apply (SS_app_lt _ (fun a b => fst a < fst b) _ _ s a HS); auto. left; auto.
Qed.
Lemma sorted_snoc A r l : StronglySorted (fun a b : sample => fst a < fst b) A -> acceptable A r ->
  StronglySorted (fun a b : sample => fst a < fst b) (A ++ [(r, l)]).
Proof.
  induction A as [|a A IH]; intros HS H; [repeat constructor|]. simpl. inversion HS; subst. constructor.
  - apply IH; auto. intros s Hs. apply H. right; auto.
  - rewrite Forall_forall in *. intros x Hx. apply in_app_iff in Hx. destruct Hx as [Hx|[<-|[]]]; auto.
    apply H. left; auto.
Qed.
Lemma skipn_snoc (X : Type) n (A : list X) z : (n <= length A)%nat -> skipn n (A ++ [z]) = skipn n A ++ [z].
Proof. intros H. rewrite skipn_app. replace (n - length A)%nat with 0%nat by lia. reflexivity. Qed.
Lemma skipn_all' (X : Type) (A : list X) : skipn (length A) A = [].
Proof. apply skipn_all. Qed.

(** The window spanned by the pending corrector: the one running, or a new one starting with this sample. *)
Definition pending_start (om : option nat) (len : nat) (half s : Q) : option nat :=
  match om with Some m => Some m | None => if Qlt_le_dec half s then Some len else None end.

Lemma span_ex (c : core QTime) : exists s, span c = Some s.
Proof. unfold span. destruct (hull c) as [|a [|b [|d h]]]; eexists; reflexivity. Qed.

Lemma periodic_reject c A n om r l sp : Windows c A n om -> ~ acceptable A r ->
  correctPeriodic c (r : time_t QTime) l sp = Throw TimeWentBackwards c.
Proof.
  intros W H. unfold correctPeriodic.
  rewrite (core_reject (main c) (skipn n A)); [destruct c; reflexivity|apply W|].
  intros K. apply H. eapply acceptable_window; eauto; apply W.
Qed.

Lemma periodic_accept c A n om (r l sp : Q) : Windows c A n om -> acceptable A r -> 0 <= sp ->
  let A' := A ++ [(r, l)] in
  exists v m1 s, Tracks m1 (skipn n A') /\ span m1 = Some s /\ v <= l /\
   correctCore (main c) (r : time_t QTime) l = Ret v m1 /\
   exists c', correctPeriodic c (r : time_t QTime) l sp = Ret v c' /\
   (s <= sp -> main c' = m1 /\ Windows c' A' n (pending_start om (length A) (sp / 2) s)) /\
   (sp < s -> exists m, pending_start om (length A) (sp / 2) s = Some m /\ Windows c' A' m (Some (length A'))).
Proof.
  intros W Ha Hsp A'.
  assert (Hn : (n <= length A)%nat) by (destruct (w_n _ _ _ _ W) as [?|[-> ->]]; simpl; lia).
  assert (Len : length A' = S (length A)) by (unfold A'; rewrite app_length; simpl; lia).
  destruct (core_accept (main c) (skipn n A) r l) as (v & m1 & E1 & T1 & Hv & _);
    [apply W | apply acceptable_skip; auto |].
  rewrite <- skipn_snoc in T1 by auto. fold A' in T1.
  destruct (span_ex m1) as [s Es].
  exists v, m1, s. split; [exact T1|]. split; [exact Es|]. split; [exact Hv|]. split; [exact E1|].
  assert (HS' : StronglySorted (fun a b => fst a < fst b) A') by (apply sorted_snoc; auto; apply W).
  unfold correctPeriodic. rewrite E1, Es. cbn [obind t_half QTime].
  (* the pending corrector after this call *)
  assert (P : forall q m, Tracks q (skipn m A) -> (n <= m <= length A)%nat ->
     exists vq q', correctCore q (r : time_t QTime) l = Ret vq q' /\ Tracks q' (skipn m A')).
  { intros q m Tq Hm. destruct (core_accept q (skipn m A) r l Tq) as (vq & q' & Eq & Tq' & _);
      [apply acceptable_skip; auto|].
    exists vq, q'. split; auto. unfold A'. rewrite skipn_snoc; [exact Tq'|exact (proj2 Hm)]. }
  assert (Q1 : forall q m, Tracks q (skipn m A) -> (n <= m <= length A)%nat ->
     exists c', match correctCore q (r : time_t QTime) l with
                | Undef => Undef
                | Throw e q' => Throw e (mkC m1 (Some q'))
                | Ret _ q' => if Qlt_bool sp s then Ret v (mkC q' (Some (emptyCore QTime))) else Ret v (mkC m1 (Some q'))
                end = Ret v c' /\
     (s <= sp -> main c' = m1 /\ Windows c' A' n (Some m)) /\
     (sp < s -> exists m', Some m = Some m' /\ Windows c' A' m' (Some (length A')))).
  { intros q m Tq Hm. destruct (P q m Tq Hm) as (vq & q' & Eq & Tq'). rewrite Eq.
    destruct (Qlt_bool sp s) eqn:Eb.
    - apply Qlt_bool_iff in Eb. eexists. split; [reflexivity|]. split; [intros; lra|]. intros _. exists m. split; auto.
      split; cbn [main pending]; auto; [left; lia|]. split; [|lia]. rewrite skipn_all'. apply tracks_empty.
    - assert (s <= sp) by (unfold Qlt_bool in Eb; apply negb_false_iff in Eb; apply Qle_bool_iff; auto).
      eexists. split; [reflexivity|]. split; [|intros; lra]. intros _. split; auto.
      split; cbn [main pending]; auto; [left; lia|]. split; [exact Tq'|lia]. }
  pose proof (w_pend _ _ _ _ W) as Wp.
  destruct (pending c) as [q|], om as [m|]; try contradiction; cbn [pending_start].
  - destruct Wp as [Tq Hm]. apply (Q1 q m Tq Hm).
  - change (t_lt QTime) with Qlt_bool. change (t_lt QTime) with Qlt_bool in *.
    destruct (Qlt_bool (sp / 2) s) eqn:Eh.
    + apply Qlt_bool_iff in Eh. destruct (Qlt_le_dec (sp / 2) s) as [_|K]; [|lra].
      apply (Q1 (emptyCore QTime) (length A)); [rewrite skipn_all'; apply tracks_empty|lia].
    + assert (Hs : s <= sp / 2) by (unfold Qlt_bool in Eh; apply negb_false_iff in Eh; apply Qle_bool_iff; auto).
      assert (Hs2 : s <= sp).
      { assert (sp / 2 <= sp); [apply Qle_shift_div_r; lra|lra]. }
      destruct (Qlt_le_dec (sp / 2) s) as [K|_]; [lra|].
      destruct (Qlt_bool sp s) eqn:Eb; [apply Qlt_bool_iff in Eb; lra|].
      eexists. split; [reflexivity|]. split; [|intros; lra]. intros _. split; auto.
      split; cbn [main pending]; auto. left; lia.
Qed.

Lemma run3_windows calls : (forall k, In k calls -> 0 <= c_period k) ->
  exists c rs n om, run3 calls = Some (c, rs) /\ Windows c (accepted (map call_sample calls)) n om /\
  length rs = length calls /\
  (forall i k x, nth_error calls i = Some k -> nth_error rs i = Some x ->
     reply_ok (accepted (map call_sample (firstn i calls))) (call_sample k) x).
Proof.
  induction calls as [|k calls IH] using rev_ind; intros Hp.
  - exists (newCorrector QTime), [], 0%nat, None. conjs; auto using windows_empty. intros [|i]; discriminate.
  - destruct IH as (c & rs & n & om & E & W & L & H); [intros; apply Hp, in_app_iff; auto|].
    specialize (Hp k). assert (Hk : 0 <= c_period k) by (apply Hp, in_app_iff; right; left; auto).
    unfold run3, accepted in *. rewrite fold_left_app. cbn [fold_left]. rewrite E. cbn [step3].
    assert (Old : forall x, reply_ok (fold_left offer (map call_sample calls) []) (call_sample k) x ->
       forall i s0 x0, nth_error (calls ++ [k]) i = Some s0 -> nth_error (rs ++ [x]) i = Some x0 ->
         reply_ok (fold_left offer (map call_sample (firstn i (calls ++ [k]))) []) (call_sample s0) x0).
    { intros x Hx i s0 x0 H1 H2. destruct (Nat.lt_ge_cases i (length calls)) as [Hi|Hi].
      - rewrite nth_error_app1 in H1, H2 by lia. rewrite firstn_app.
        replace (i - length calls)%nat with 0%nat by lia. rewrite firstn_O, app_nil_r. eauto.
      - assert (i = length calls).
        { assert (K : nth_error (calls ++ [k]) i <> None) by congruence. apply nth_error_Some in K.
          rewrite app_length in K. simpl in K. lia. }
        subst i. rewrite nth_error_app2, Nat.sub_diag in H1 by lia. rewrite <- L in H2.
        rewrite nth_error_app2, Nat.sub_diag in H2 by lia. injection H1 as <-. injection H2 as <-.
        rewrite firstn_app, Nat.sub_diag, firstn_O, app_nil_r, firstn_all. exact Hx. }
    rewrite map_app, fold_left_app. cbn [map fold_left].
    set (A := fold_left offer (map call_sample calls) []) in *.
    destruct (acceptable_dec A (c_remote k)) as [Y|N].
    + destruct (periodic_accept c A n om (c_remote k) (c_local k) (c_period k) W Y Hk)
        as (v & m1 & s & T1 & Es & Hv & _ & c' & E1 & K1 & K2).
      rewrite E1. rewrite offer_yes by auto.
      destruct (Qlt_le_dec (c_period k) s) as [Hs|Hs].
      * destruct (K2 Hs) as (m & _ & W'). exists c', (rs ++ [Returned v]), m, (Some (length (A ++ [call_sample k]))).
        conjs; auto; [rewrite !app_length, L; reflexivity|apply Old; split; auto].
      * destruct (K1 Hs) as (_ & W'). eexists c', (rs ++ [Returned v]), n, _.
        conjs; [reflexivity|exact W'|rewrite !app_length, L; reflexivity|apply Old; split; auto].
    + rewrite (periodic_reject c A n om _ _ _ W N). exists c, (rs ++ [Threw TimeWentBackwards]), n, om.
      rewrite offer_no by auto. conjs; auto; [rewrite !app_length, L; reflexivity|apply Old; split; auto].
Qed.
