(** C21-C26, C91: the timestamp corrector. *)
From Coq Require Import List ZArith QArith Sorted Lia Bool.
From Verif Require Import Float64 Corrector_Model Corrector_Spec Corrector_Proofs Corrector_Hist Corrector_I64.
From Coq Require Import Lqa.
Import ListNotations.
Open Scope Q_scope.

(** C21. For every sequence of calls (exact arithmetic): nothing undefined happens, and the next call throws
    TimeWentBackwards and leaves the whole corrector unchanged exactly when its remote time is not
    greater than that of every accepted sample; otherwise it returns. *)
Theorem corrector_guard : forall calls, exists c rs, run2 calls = Some (c, rs) /\
  forall remote loc : Q,
  (~ acceptable (accepted calls) remote ->
     correctTimestamp c (remote : time_t QTime) loc = Throw TimeWentBackwards c) /\
  (acceptable (accepted calls) remote ->
     exists t c', correctTimestamp c (remote : time_t QTime) loc = Ret t c').
Proof.
  intros calls. destruct (run2_tracks calls) as (c & rs & E & T & _). exists c, rs. split; auto.
  intros r l. unfold correctTimestamp. split; intros H.
  - rewrite (core_reject (main c) _ r l T H). destruct c; reflexivity.
  - destruct (core_accept (main c) _ r l T H) as (v & c' & E1 & _). rewrite E1. eauto.
Qed.
(** Whatever the number type, a call that throws leaves the corrector unchanged (also for int64 and double). *)
Theorem corrector_throw_unchanged : forall (T : TimeType) c remote loc e c',
  correctTimestamp (T := T) c remote loc = Throw e c' -> e = TimeWentBackwards /\ c' = c.
Proof.
  intros T [[h m] pd] r l e c'. unfold correctTimestamp, correctCore. cbn [main hull pending mid].
  destruct (match h with top :: _ => t_le T r (px top) | [] => false end); [intros [= <- <-]; auto|].
  destruct (pushPoint h (mkP r l)) as [h'|]; [|discriminate].
  destruct (Nat.ltb_spec (length h') 3) as [|Hge]; [discriminate|].
  destruct (t_mid T _ _); [|discriminate]. destruct (lowerBound _ _); [discriminate|].
  unfold getLocalTime. cbn [hull]. destruct (Nat.ltb_spec (length h') 2) as [Hlt|_]; [lia|].
  destruct (obind _ _); discriminate.
Qed.
(** With double timestamps a NaN remote time is accepted and disables the guard: after 5 and NaN the backward
    time 1 is not rejected with the exception but ends in undefined behaviour (segment index -1). *)
Definition class_f64 (o : outcome (time_t F64Time) (corrector F64Time)) : Z :=
  match o with Ret _ _ => 0 | Throw _ _ => 1 | Undef => 2 end%Z.
Theorem double_nan_refuted :
  match correctTimestamp (newCorrector F64Time) (fofZ 5 : time_t F64Time) (fofZ 5) with
  | Ret _ c1 =>
      match correctTimestamp c1 (fnan : time_t F64Time) (fofZ 6) with
      | Ret _ c2 => class_f64 (correctTimestamp c2 (fofZ 1 : time_t F64Time) (fofZ 7)) = 2%Z
      | _ => False
      end
  | _ => False
  end.
Proof. vm_compute. reflexivity. Qed.

(** C22. The retained points are the lower convex hull of the accepted samples (see Corrector_Spec.v). *)
Theorem corrector_hull : forall calls c rs, run2 calls = Some (c, rs) ->
  LowerHull (accepted calls) (hull_samples (main c)).
Proof.
  intros calls c rs E. destruct (run2_tracks calls) as (c' & rs' & E' & T & _).
  assert (c = c') by congruence. subst. apply tracks_hull. exact T.
Qed.
(** Collinear samples may be retained: the chain is convex but not strictly convex. *)
Theorem corrector_strictly_convex_refuted : exists calls c rs, run2 calls = Some (c, rs) /\
  hull_samples (main c) = [(0, 0); (1, 1); (2, 2)].
Proof. exists [(0, 0); (1, 1); (2, 2)]. do 2 eexists. split; reflexivity. Qed.

(** C23. Every reply is right (a time <= local for an acceptable sample, the exception otherwise), and whenever the
    current estimate has been computed from at least three points, it puts no accepted sample after its arrival. *)
Theorem corrector_below_local : forall calls, exists c rs, run2 calls = Some (c, rs) /\ length rs = length calls /\
  (forall i s x, nth_error calls i = Some s -> nth_error rs i = Some x -> reply_ok (accepted (firstn i calls)) s x) /\
  ((length (hull_samples (main c)) >= 3)%nat -> forall s, In s (accepted calls) ->
     exists t, getLocalTime (main c) (fst s : time_t QTime) = Ret t tt /\ t <= snd s).
Proof.
  intros calls. destruct (run2_tracks calls) as (c & rs & E & T & _ & L & H). exists c, rs.
  do 3 (split; [assumption|]). intros Hl s Hs. unfold hull_samples, points in Hl.
  rewrite map_length, rev_length in Hl. destruct T as [Hi Hm].
  destruct (getLocalTime_seg (main c) _ (fst s) Hi (Hm Hl)) as (a & b & _ & _ & _ & Eg & Hb).
  eexists. split; [exact Eg|]. apply (Hb (ofS s)). apply -> in_rev. apply in_map. exact Hs.
Qed.

(** C24. False of the code: impl:35-52 recomputes _midpointSegmentIndex only if at least three points are
    left. When a sample removes all but one of them the old index stays and getLocalTime (also getSlope,
    getOffset) reads past the end of the two-point hull. *)
Theorem corrector_index_refuted : exists calls c rs, run2 calls = Some (c, rs) /\
  length (hull_samples (main c)) = 2%nat /\ mid (main c) = 1%nat /\
  (forall r, getLocalTime (main c) r = Undef) /\ getSlope (main c) = Undef /\ getOffset (main c) = Undef.
Proof.
  set (calls := [(0, 0); (1, 0); (10, 9); (11, -(100))]). exists calls.
  assert (K : match run2 calls with
              | Some (c, _) => (length (hull (main c)), mid (main c), match segment (main c) with None => true | _ => false end)
              | None => (0%nat, 0%nat, false) end = (2%nat, 1%nat, true)) by (vm_compute; reflexivity).
  destruct (run2 calls) as [[c rs]|]; [|discriminate]. exists c, rs. injection K as K1 K2 K3.
  destruct (segment (main c)) eqn:Es; [discriminate|].
  split; [reflexivity|]. split; [unfold hull_samples, points; rewrite map_length, rev_length; exact K1|]. split; [exact K2|].
  unfold getLocalTime, getSlope, getOffset. rewrite K1, Es. repeat split.
Qed.
(** What holds: fewer than two points: NotInitialized; at least three points: the index is right, and the
    three functions return the line through two neighbouring hull points with different remote times, those around
    the middle of the hull at the time of the call; with exactly two points they are defined iff the index is 0. *)
Theorem corrector_index_partial : forall calls c rs, run2 calls = Some (c, rs) ->
  ((length (accepted calls) < 2)%nat -> forall r, getLocalTime (main c) r = Throw NotInitialized tt /\
      getSlope (main c) = Throw NotInitialized tt /\ getOffset (main c) = Throw NotInitialized tt) /\
  (((length (hull_samples (main c)) >= 3)%nat \/ length (hull_samples (main c)) = 2%nat /\ mid (main c) = 0%nat) ->
     exists a b k d, next_in (hull_samples (main c)) a b /\ fst a < fst b /\
       getSlope (main c) = Ret k tt /\ getOffset (main c) = Ret d tt /\ k == slope a b /\
       forall r, exists t, getLocalTime (main c) (r : time_t QTime) = Ret t tt /\ t == k * r + d /\ t == line a b r).
Proof.
  intros calls c rs E. destruct (run2_tracks calls) as (c' & rs' & E' & T & _).
  assert (c = c') by congruence. subst c'. clear E'.
  pose proof (tracks_hull _ _ T) as LH. unfold hull_samples, points in *. rewrite map_length, rev_length.
  split.
  - intros Hlen r.
    assert (Hh : (length (hull (main c)) < 2)%nat).
    { destruct T as [Hi _]. pose proof (i_incl _ _ Hi) as HI. pose proof (i_hs _ _ Hi) as Hs.
      assert (NoDup (hull (main c))).
      { clear - Hs. induction (hull (main c)) as [|a h IH]; [constructor|]. inversion Hs; subst. constructor; auto.
        intros K. rewrite Forall_forall in H2. specialize (H2 _ K). unfold later in H2. lra. }
      pose proof (NoDup_incl_length H HI) as K. rewrite rev_length, map_length in K. lia. }
    unfold getLocalTime, getSlope, getOffset. destruct (Nat.ltb_spec (length (hull (main c))) 2); [auto|lia].
  - intros Hl. destruct T as [Hi Hm].
    assert (Hok : (S (mid (main c)) < length (hull (main c)))%nat) by (destruct Hl as [Hl|[H1 H2]]; [auto|lia]).
    destruct (getLocalTime_seg (main c) _ 0 Hi Hok) as (a & b & Nab & Hab & Es & _ & _).
    exists (smp a), (smp b).
    exists ((qy b - qy a) / (qx b - qx a)), (qy a + (- qx a * (qy b - qy a) / (qx b - qx a))).
    split; [exact Nab|]. split; [exact Hab|].
    split; [unfold getSlope; destruct (Nat.ltb_spec (length (hull (main c))) 2); [lia|]; rewrite Es; reflexivity|].
    split; [unfold getOffset; destruct (Nat.ltb_spec (length (hull (main c))) 2); [lia|]; rewrite Es; reflexivity|].
    split; [reflexivity|].
    intros r. destruct (getLocalTime_seg (main c) _ r Hi Hok) as (a' & b' & _ & _ & Es' & Eg & _).
    rewrite Es in Es'. injection Es' as <- <-. eexists. split; [exact Eg|]. split; [|reflexivity].
    unfold line, smp. cbn [fst snd]. field. lra.
Qed.
(** The segment used is the one containing the middle of the hull's remote time span. *)
Theorem corrector_midpoint : forall calls c rs remote loc t c',
  run2 calls = Some (c, rs) -> correctTimestamp c (remote : time_t QTime) loc = Ret t c' ->
  (length (hull_samples (main c')) >= 3)%nat ->
  exists first a b, hd_error (hull_samples (main c')) = Some first /\ next_in (hull_samples (main c')) a b /\
    fst a < (fst first + remote) / 2 <= fst b /\ t = line a b remote.
Proof.
  intros calls c rs r l t c' E E1 Hl. destruct (run2_tracks calls) as (c0 & rs' & E' & T & _).
  assert (c0 = c) by congruence. subst c0. unfold correctTimestamp in E1.
  destruct (acceptable_dec (accepted calls) r) as [Y|N].
  2:{ rewrite (core_reject (main c) _ r l T N) in E1. discriminate. }
  destruct (core_accept (main c) _ r l T Y) as (v & m1 & Ec & T1 & _ & _ & K).
  rewrite Ec in E1. injection E1 as <- <-. cbn [main] in *.
  unfold hull_samples, points in Hl. rewrite map_length, rev_length in Hl.
  destruct (K Hl) as (a & b & Es & Ev & K1).
  destruct (segment_adj _ _ _ Es) as (ll & rr & Eh & _).
  exists (smp (last (hull m1) (qp r l))), (smp a), (smp b). repeat split; auto.
  - unfold hull_samples, points. pose proof (hd_error_rev _ (hull m1)) as Hr.
    destruct (hull m1) as [|x h] eqn:Eh1; [simpl in Hl; lia|].
    rewrite (last_dflt _ h x (qp r l) x).
    destruct (rev (x :: h)); [discriminate|]. cbn in *. congruence.
  - unfold hull_samples, points. rewrite Eh. apply hull_next_in.
  - apply K1.
  - apply K1.
Qed.

(** C25. For every sequence of periodic calls with non-negative periods: no undefined behaviour, every reply is right, and
    the corrector always holds the lower hull of a final window of the accepted samples (from the n-th on),
    the pending corrector one of a shorter window (from the m-th on). An acceptable call (remote, loc, sp) adds the
    sample to both; a pending window is started with this sample if there is none and the span exceeds
    half a period; if the span exceeds the period, the main window is replaced by the pending one and an empty
    pending window is kept. A call going backwards throws and changes nothing. *)
Definition windows (c : corrector QTime) (A : list sample) (n : nat) (om : option nat) : Prop :=
  LowerHull (skipn n A) (hull_samples (main c)) /\ (n < length A \/ A = [] /\ n = 0)%nat /\
  match pending c, om with
  | None, None => True
  | Some q, Some m => LowerHull (skipn m A) (hull_samples q) /\ (n <= m <= length A)%nat
  | _, _ => False
  end.
Theorem corrector_periodic : forall calls, (forall k, In k calls -> 0 <= c_period k) ->
  let A := accepted (map call_sample calls) in
  exists c rs n om, run3 calls = Some (c, rs) /\ windows c A n om /\ length rs = length calls /\
  (forall i k x, nth_error calls i = Some k -> nth_error rs i = Some x ->
     reply_ok (accepted (map call_sample (firstn i calls))) (call_sample k) x) /\
  (forall remote loc sp : Q, 0 <= sp ->
     (~ acceptable A remote -> correctPeriodic c (remote : time_t QTime) loc sp = Throw TimeWentBackwards c) /\
     (acceptable A remote -> exists t m1 s c', let A' := A ++ [(remote, loc)] in
        LowerHull (skipn n A') (hull_samples m1) /\ span m1 = Some s /\
        correctPeriodic c (remote : time_t QTime) loc sp = Ret t c' /\ t <= loc /\
        (s <= sp -> main c' = m1 /\ windows c' A' n (pending_start om (length A) (sp / 2) s)) /\
        (sp < s -> exists m, pending_start om (length A) (sp / 2) s = Some m /\ windows c' A' m (Some (length A'))))).
Proof.
  assert (Wh : forall c A n om, Windows c A n om -> windows c A n om).
  { intros c A n om [W1 W2 W3 W4]. split; [apply tracks_hull; auto|]. split; auto.
    destruct (pending c), om; auto. destruct W4. split; auto. apply tracks_hull; auto. }
  intros calls Hp A. destruct (run3_windows calls Hp) as (c & rs & n & om & E & W & L & H).
  exists c, rs, n, om. do 4 (split; [auto|]). intros r l sp Hsp. split; intros Hr.
  - exact (periodic_reject c A n om r l sp W Hr).
  - destruct (periodic_accept c A n om r l sp W Hr Hsp) as (v & m1 & sv & T1 & Es & Hv & _ & c' & E1 & K1 & K2).
    exists v, m1, sv, c'. cbn zeta. split; [apply tracks_hull; auto|]. do 3 (split; [auto|]). split.
    + intros Hs. destruct (K1 Hs). auto.
    + intros Hs. destruct (K2 Hs) as (m & ? & ?). eauto.
Qed.
(** A negative period can dereference the missing pending corrector (impl:78). *)
Theorem periodic_negative_refuted :
  correctPeriodic (newCorrector I64Time) (0%Z : time_t I64Time) 0%Z (-1)%Z = Undef.
Proof. reflexivity. Qed.

(** C91 (reset makes the corrector behave like new): true of the two-argument overload ... *)
Theorem reset_partial : forall (T : TimeType) c calls,
  let step2' := fun st (s : time_t T * time_t T) => match st with
    | Some (c, rs) => match correctTimestamp c (fst s) (snd s) with
        | Ret t c' => Some (c', rs ++ [Some t]) | Throw _ c' => Some (c', rs ++ [None]) | Undef => None end
    | None => None end in
  option_map snd (fold_left step2' calls (Some (reset c, []))) =
  option_map snd (fold_left step2' calls (Some (newCorrector T, []))).
Proof.
  intros T c calls step2'.
  assert (G : forall calls m pa pb rs, option_map snd (fold_left step2' calls (Some (mkC m pa, rs))) =
     option_map snd (fold_left step2' calls (Some (mkC m pb, rs)))).
  { clear calls. induction calls as [|s calls IH]; intros m pa pb rs; [reflexivity|].
    cbn [fold_left]. unfold step2' at 2 4. unfold correctTimestamp at 1 2. cbn [main pending].
    destruct (correctCore m (fst s) (snd s)); auto.
    }
  apply G.
Qed.
(** ... but reset does not clear the pending corrector, so after periodic use the first sample of a new recording
    makes the periodic overload throw (after having modified the main hull). *)
Theorem reset_periodic_refuted : exists calls c rs c', run3 calls = Some (c, rs) /\
  correctPeriodic (reset c) (0 : time_t QTime) 0 1 = Throw TimeWentBackwards c' /\ c' <> reset c.
Proof.
  set (calls := [mkCall 0 0 1; mkCall 1 0 1; mkCall 2 1 1]). exists calls.
  assert (K : match run3 calls with
              | Some (c, _) => match correctPeriodic (reset c) (0 : time_t QTime) 0 1 with
                               | Throw TimeWentBackwards c' => length (hull (main c'))
                               | _ => 0%nat end
              | None => 0%nat end = 1%nat) by (vm_compute; reflexivity).
  destruct (run3 calls) as [[c rs]|]; [|discriminate]. exists c, rs.
  destruct (correctPeriodic (reset c) (0 : time_t QTime) 0 1) as [|[|] c'|]; try discriminate.
  exists c'. split; [reflexivity|]. split; [reflexivity|]. intros ->. discriminate.
Qed.

Definition is_none {X} (o : option X) : bool := match o with None => true | Some _ => false end.
Lemma is_none_true X (o : option X) : is_none o = true -> o = None.
Proof. destruct o; [discriminate|auto]. Qed.
(** C26 is false: three samples 4 s apart, in nanoseconds, overflow the determinant. *)
Theorem int64_overflow_refuted : run2z [(0, 0); (4000000000, 4000000000); (8000000000, 8000000000)]%Z = None.
Proof. apply is_none_true. vm_compute. reflexivity. Qed.
(** Also, for timestamps beyond 2^53 the midpoint computed in double can precede the first sample: index -1. *)
Theorem int64_midpoint_refuted : let x := (2 ^ 60 + 100)%Z in run2z [(x, 0); (x + 1, 0); (x + 2, 1)]%Z = None.
Proof. intros x. apply is_none_true. vm_compute. reflexivity. Qed.
(** It holds for recordings shorter than 2.1 s within 26 days of the epoch, and then the hull is exact. *)
Theorem int64_partial : forall calls, short_recording calls ->
  exists c rs, run2z calls = Some (c, rs) /\ LowerHull (accepted (map q_of calls)) (hull_samples_z (main c)).
Proof. exact run2z_ok. Qed.

(** Non-vacuity *)
Example ex_run : exists c rs, run2 [(0, 5); (1, 6); (2, 6); (2, 9); (3, 9)] = Some (c, rs) /\
  hull_samples (main c) = [(0, 5); (2, 6); (3, 9)] /\ nth_error rs 3 = Some (Threw TimeWentBackwards).
Proof.
  assert (K : match run2 [(0, 5); (1, 6); (2, 6); (2, 9); (3, 9)] with
    | Some (c, rs) => (hull_samples (main c), nth_error rs 3) | None => ([], None) end =
    ([(0, 5); (2, 6); (3, 9)], Some (Threw TimeWentBackwards))) by (vm_compute; reflexivity).
  destruct (run2 _) as [[c rs]|]; [|discriminate]. injection K as K1 K2. eauto.
Qed.
Example ex_short : short_recording [(0, 5); (1000000000, 1000000007); (2000000000, 2000000001)]%Z.
Proof. split; cbn [In]; intros; repeat match goal with H : _ \/ _ |- _ => destruct H | H : False |- _ => destruct H end; subst; cbn; lia. Qed.
Example ex_switch : exists c rs, run3 [mkCall 0 0 2; mkCall 1 0 2; mkCall 2 (3#2) 2; mkCall 3 4 2] = Some (c, rs) /\
  hull_samples (main c) = [(2, 3#2); (3, 4)] /\ pending c = Some (emptyCore QTime).
Proof.
  assert (K : match run3 [mkCall 0 0 2; mkCall 1 0 2; mkCall 2 (3#2) 2; mkCall 3 4 2] with
    | Some (c, rs) => (hull_samples (main c), match pending c with Some (mkCore [] 0) => true | _ => false end) | None => ([], false) end =
    ([(2, 3#2); (3, 4)], true)) by (vm_compute; reflexivity).
  destruct (run3 _) as [[c rs]|]; [|discriminate]. injection K as K1 K2. exists c, rs. repeat split; auto.
  destruct (pending c) as [[[|] [|]]|]; try discriminate. reflexivity.
Qed.

Print Assumptions corrector_guard.
Print Assumptions corrector_throw_unchanged.
Print Assumptions double_nan_refuted.
Print Assumptions corrector_hull.
Print Assumptions corrector_strictly_convex_refuted.
Print Assumptions corrector_below_local.
Print Assumptions corrector_index_refuted.
Print Assumptions corrector_index_partial.
Print Assumptions corrector_midpoint.
Print Assumptions corrector_periodic.
Print Assumptions periodic_negative_refuted.
Print Assumptions reset_partial.
Print Assumptions reset_periodic_refuted.
Print Assumptions int64_overflow_refuted.
Print Assumptions int64_midpoint_refuted.
Print Assumptions int64_partial.
