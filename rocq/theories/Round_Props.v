(** C14 (rounding helpers) and C15 (quadratic equation, sign). *)
From Verif Require Import Float64 Round_Model Round_Proofs.
From Coq Require Import Psatz.

(** C14 is false: round(0.49999999999999994) = 1 (x + 0.5 rounds up to 1), and odd integers between 2^52 and 2^53
    are changed (x + 0.5 is a tie). *)
Definition just_below_half : f64 := flit (2^53 - 1) (-54).
Definition odd_big : f64 := fofZ (2^52 + 1).
Theorem round_nearest_refuted :
  (is_finite just_below_half = true /\ ~ exists n, B2R (sm_round just_below_half) = IZR n /\
      nearest_away (B2R just_below_half) n) /\
  (is_finite odd_big = true /\ ~ exists n, B2R (sm_round odd_big) = IZR n /\ nearest_away (B2R odd_big) n).
Proof.
  split; (split; [reflexivity|]).
  - intros (n & E & [A _]).
    assert (X : B2R (sm_round just_below_half) = 1) by (vm_compute; lra).
    assert (Y : B2R just_below_half < 1/2) by (vm_compute; lra).
    rewrite <- E, X in A. apply Rabs_le_inv in A. lra.
  - intros (n & E & [A _]).
    assert (X : B2R (sm_round odd_big) = 4503599627370498) by (vm_compute; lra).
    assert (Y : B2R odd_big = 4503599627370497) by (vm_compute; lra).
    rewrite <- E, X, Y in A. apply Rabs_le_inv in A. lra.
Qed.

(** C14, what holds: exact on all finite doubles with |x| < 2^52 other than +-0.49999999999999994,
    and on all with |x| >= 2^53. *)
Theorem round_partial : forall x : f64, is_finite x = true ->
  ((Rabs (B2R x) < bpow radix2 52 /\ Rabs (B2R x) <> 1/2 - bpow radix2 (-54)) \/
   bpow radix2 53 <= Rabs (B2R x)) ->
  is_finite (sm_round x) = true /\
  exists n, B2R (sm_round x) = IZR n /\ nearest_away (B2R x) n /\ (forall m, nearest_away (B2R x) m -> m = n).
Proof.
  intros x F H. destruct (sm_round_correct x F H) as (H1 & n & H2 & H3).
  split; auto. exists n. repeat split; auto; try apply H3. intros m Hm. eapply nearest_away_unique; eauto.
Qed.

(** rint(double): the nearest integer whenever it fits in an int. *)
Theorem rint_partial : forall (x : f64) n, is_finite x = true ->
  Rabs (B2R x) <> 1/2 - bpow radix2 (-54) -> nearest_away (B2R x) n -> (- 2^31 <= n < 2^31)%Z ->
  sm_rint x = Some n /\ sm_lrint x = Some n.
Proof.
  intros x n F Hb Hn Hr.
  assert (Hs : Rabs (B2R x) < bpow radix2 52).
  { destruct Hn as [A _]. apply Rabs_le_inv in A.
    assert (IZR (-2^31) <= IZR n <= IZR (2^31)) by (split; apply IZR_le; lia).
    apply Rlt_le_trans with (IZR (2^31) + 1); [|cbn; lra].
    apply Rabs_lt. change (-2^31)%Z with (- (2^31))%Z in *. rewrite opp_IZR in *. lra. }
  destruct (sm_round_correct x F (or_introl (conj Hs Hb))) as (H1 & m & H2 & H3).
  assert (m = n) by (eapply nearest_away_unique; eauto). subst m.
  split; unfold sm_rint, sm_lrint; apply cast_int_integral; auto.
Qed.

(** lrint(double) is wrong for values that fit a long but not an int: it casts to int, which is undefined
    (round.hpp:28). *)
Theorem lrint_refuted : exists (x : f64) n, is_finite x = true /\ nearest_away (B2R x) n /\
  (- 2^63 <= n < 2^63)%Z /\ Rabs (B2R x) < bpow radix2 52 /\ sm_lrint x = None.
Proof.
  exists (fofZ (2^31)), (2^31)%Z.
  destruct (fofZ_correct (2^31)%Z ltac:(lia)) as [E F]. rewrite E.
  split; auto. split.
  { split; rewrite Rminus_diag_eq by auto; rewrite Rabs_R0; lra. }
  split; [lia|]. split.
  - rewrite Rabs_pos_eq by (apply IZR_le; lia). cbn. lra.
  - vm_compute. reflexivity.
Qed.

(** C15 (exact arithmetic): throws exactly for a negative discriminant; otherwise, unless b = c = 0,
    the pair is the complete list of roots with multiplicity. *)
Theorem solveQuadratic_partial : forall a b c : R, a <> 0 ->
  (b * b - 4 * a * c < 0 -> solveQuadratic RArith a b c = None) /\
  (0 <= b * b - 4 * a * c -> (b <> 0 \/ c <> 0) ->
    exists x1 x2, solveQuadratic RArith a b c = Some (x1, x2) /\
      forall x, a * x * x + b * x + c = a * (x - x1) * (x - x2)).
Proof.
  intros a b c Ha. cbn [solveQuadratic RArith num a_add a_sub a_mul a_div a_sqrt a_opp a_ltb a_ofZ].
  replace (b * b - 4 * c * a) with (b * b - 4 * a * c) by ring.
  split.
  - intros H. unfold solveQuadratic; cbn. replace (b * b - 4 * c * a) with (b * b - 4 * a * c) by ring.
    rewrite Rlt_bool_true by auto. reflexivity.
  - intros H Hbc. unfold solveQuadratic; cbn. replace (b * b - 4 * c * a) with (b * b - 4 * a * c) by ring.
    rewrite Rlt_bool_false by auto.
    set (s := sqrt (b * b - 4 * a * c)).
    assert (Hs : s * s = b * b - 4 * a * c) by (apply sqrt_sqrt; auto).
    assert (Hs0 : 0 <= s) by apply sqrt_pos.
    set (n := if Rlt_bool b 0 then s - b else - s - b).
    assert (Hn : n * n + 2 * b * n + 4 * a * c = 0).
    { unfold n. destruct (Rlt_bool b 0); nra. }
    assert (Nn : n <> 0).
    { intros E. unfold n in E. destruct (Rlt_bool_spec b 0) as [Lb|Lb]; [lra|].
      assert (b = 0) by lra. assert (s = 0) by lra. rewrite H0, H1 in Hs.
      assert (a * c = 0) by lra. apply Rmult_integral in H2. destruct Hbc; tauto. }
    eexists; eexists; split; [reflexivity|]. intros x.
    assert (P1 : a * (n / (2 * a)) * (2 * c / n) = c) by (field; auto).
    assert (P2 : a * (n / (2 * a) + 2 * c / n) = - b).
    { replace (a * (n / (2 * a) + 2 * c / n)) with ((n * n + 4 * a * c) / (2 * n)) by (field; auto).
      replace (n * n + 4 * a * c) with (- b * (2 * n)) by lra. field; auto. }
    replace (a * (x - n / (2 * a)) * (x - 2 * c / n)) with
      (a * x * x - (a * (n / (2 * a) + 2 * c / n)) * x + a * (n / (2 * a)) * (2 * c / n)) by ring.
    rewrite P1, P2. ring.
Qed.

(** C15 is false for b = c = 0 (double root 0): the second component is 0/0 = NaN in double
    arithmetic. *)
Theorem solveQuadratic_double_zero_refuted :
  match solveQuadratic FArith (fofZ 1) (fofZ 0) (fofZ 0) with
  | Some (x1, x2) => is_nan x2 = true
  | None => False
  end.
Proof. vm_compute. reflexivity. Qed.

(** sgn on reals and on non-NaN doubles. *)
Theorem sgn_spec :
  (forall v : R, sgn RArith v = (if Rlt_bool 0 v then 1 else if Rlt_bool v 0 then -1 else 0)%Z) /\
  (forall v : f64, is_nan v = false ->
     (sgn FArith v = 1%Z <-> 0 < ext v) /\ (sgn FArith v = (-1)%Z <-> ext v < 0) /\ (sgn FArith v = 0%Z <-> ext v = 0)).
Proof.
  split.
  - intros v. unfold sgn; cbn. destruct (Rlt_bool_spec 0 v), (Rlt_bool_spec v 0); auto; lra.
  - intros v N. unfold sgn; cbn [FArith a_ltb a_ofZ].
    assert (E0 : ext (fofZ 0) = 0) by reflexivity. assert (N0 : is_nan (fofZ 0) = false) by reflexivity.
    pose proof (fltb_ext (fofZ 0) v N0 N) as H1. pose proof (fltb_ext v (fofZ 0) N N0) as H2. rewrite E0 in *.
    destruct (fltb (fofZ 0) v), (fltb v (fofZ 0)); cbn;
      repeat match goal with
      | H : true = true <-> _ |- _ => pose proof (proj1 H eq_refl); clear H
      | H : false = true <-> ?P |- _ => assert (~ P) by (intros X; apply H in X; discriminate); clear H
      end; repeat split; intros; try lra; try discriminate; auto.
Qed.

Example ex_round : B2R (sm_round (fofZ 3)) = 3 /\ sm_rint (flit 5 (-1)) = Some 3%Z /\ sm_rint (flit (-5) (-1)) = Some (-3)%Z.
Proof. split; [vm_compute; lra|]. vm_compute; auto. Qed.
Example ex_round_hyp : Rabs (B2R (flit 5 (-1))) < bpow radix2 52 /\ Rabs (B2R (flit 5 (-1))) <> 1/2 - bpow radix2 (-54).
Proof.
  assert (E : B2R (flit 5 (-1)) = 5/2) by (vm_compute; lra). rewrite E, Rabs_pos_eq by lra.
  pose proof (bpow_gt_0 radix2 (-54)). split; [cbn; lra|lra].
Qed.

Print Assumptions round_nearest_refuted.
Print Assumptions round_partial.
Print Assumptions rint_partial.
Print Assumptions lrint_refuted.
Print Assumptions solveQuadratic_partial.
Print Assumptions solveQuadratic_double_zero_refuted.
Print Assumptions sgn_spec.
