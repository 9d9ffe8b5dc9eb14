(** C12 (numerical comparisons) and C13 (assertion macros). *)
From Verif Require Import Float64 NumCmp_Model NumCmp_Proofs.

(** Exactly one of three booleans is true. *)
Definition exactly_one (x y z : bool) : Prop :=
  (x = true /\ y = false /\ z = false) \/ (x = false /\ y = true /\ z = false) \/
  (x = false /\ y = false /\ z = true).

(** C12, for all finite doubles a, b and every finite positive epsilon, in debug and release
    builds: none of the three throws, exactly one holds; ... *)
Theorem comparisons_trichotomy : forall nd a b eps,
  is_finite a = true -> is_finite b = true -> is_finite eps = true -> 0 < B2R eps ->
  exists ae lt gt,
    approximatelyEqual nd a b eps = Some ae /\ definitelyLessThan nd a b eps = Some lt /\
    definitelyGreaterThan nd a b eps = Some gt /\ exactly_one ae lt gt /\
    (lt = true -> B2R a < B2R b) /\ (gt = true -> B2R b < B2R a).
Proof.
  intros nd a b eps Fa Fb Fe Pe.
  destruct (approx_iff nd a b eps Fa Fb Fe Pe) as (ae & Ha & Ia).
  destruct (less_iff nd a b eps Fa Fb Fe Pe) as (lt & Hl & Il).
  destruct (greater_iff nd a b eps Fa Fb Fe Pe) as (gt & Hg & Ig).
  exists ae, lt, gt. repeat (split; [assumption|]).
  pose proof (tol_nonneg a b eps Pe) as T.
  replace (B2R b - B2R a) with (- (B2R a - B2R b)) in Il by ring. rewrite clamp_neg in Il.
  set (d := clamp (B2R a - B2R b)) in *.
  split; [|split].
  - unfold exactly_one.
    destruct ae; destruct lt; destruct gt; auto 6; exfalso;
      repeat match goal with
      | H : true = true <-> _ |- _ => pose proof (proj1 H eq_refl); clear H
      | H : false = true <-> ?P |- _ => assert (~ P) by (intros X; apply H in X; discriminate); clear H
      end;
      unfold Rabs in *; destruct (Rcase_abs d); lra.
  - intros ->. pose proof (proj1 Il eq_refl) as H.
    destruct (Rlt_le_dec (B2R a) (B2R b)) as [L|L]; auto. exfalso.
    assert (0 <= d) by (apply clamp_nonneg; lra). lra.
  - intros ->. pose proof (proj1 Ig eq_refl) as H.
    destruct (Rlt_le_dec (B2R b) (B2R a)) as [L|L]; auto. exfalso.
    assert (0 <= - d) by (unfold d; rewrite <- clamp_neg; apply clamp_nonneg; lra). lra.
Qed.

(** ... symmetry, reflexivity and duality. *)
Theorem comparisons_symmetry : forall nd a b eps,
  is_finite a = true -> is_finite b = true -> is_finite eps = true -> 0 < B2R eps ->
  approximatelyEqual nd a b eps = approximatelyEqual nd b a eps /\
  approximatelyEqual nd a a eps = Some true /\
  definitelyLessThan nd a b eps = definitelyGreaterThan nd b a eps.
Proof.
  intros nd a b eps Fa Fb Fe Pe. repeat split.
  - destruct (approx_iff nd a b eps Fa Fb Fe Pe) as (r1 & -> & I1).
    destruct (approx_iff nd b a eps Fb Fa Fe Pe) as (r2 & -> & I2).
    f_equal. apply bool_iff_eq. rewrite I1, I2, (tol_sym b a).
    replace (B2R b - B2R a) with (- (B2R a - B2R b)) by ring. rewrite clamp_neg, Rabs_Ropp. tauto.
  - destruct (approx_iff nd a a eps Fa Fa Fe Pe) as (r1 & -> & I1). f_equal.
    apply I1. rewrite Rminus_diag_eq by reflexivity. rewrite clamp_0, Rabs_R0. apply tol_nonneg; auto.
  - destruct (less_iff nd a b eps Fa Fb Fe Pe) as (r1 & -> & I1).
    destruct (greater_iff nd b a eps Fb Fa Fe Pe) as (r2 & -> & I2).
    f_equal. apply bool_iff_eq. rewrite I1, I2, (tol_sym b a). tauto.
Qed.

(** A non-positive epsilon is refused. *)
Theorem comparisons_reject_epsilon : forall nd a b eps, is_nan eps = false -> ext eps <= 0 ->
  approximatelyEqual nd a b eps = None /\ definitelyLessThan nd a b eps = None /\
  definitelyGreaterThan nd a b eps = None.
Proof.
  intros nd a b eps N P. unfold approximatelyEqual, definitelyLessThan, definitelyGreaterThan.
  rewrite (eps_bad eps N P). auto.
Qed.

(** Boundary of C12: with infinite arguments (inf - inf is NaN) or an infinite epsilon (0 * inf)
    none of the three relations holds. *)
Theorem comparisons_infinite_cases :
  (forall nd, approximatelyEqual nd (finf false) (finf false) (flit 1 (-52)) = Some false /\
   definitelyLessThan nd (finf false) (finf false) (flit 1 (-52)) = Some false /\
   definitelyGreaterThan nd (finf false) (finf false) (flit 1 (-52)) = Some false) /\
  (forall nd, approximatelyEqual nd fzero fzero (finf false) = Some false /\
   definitelyLessThan nd fzero fzero (finf false) = Some false /\
   definitelyGreaterThan nd fzero fzero (finf false) = Some false).
Proof. split; intros []; vm_compute; auto. Qed.

(** C13. For non-NaN arguments (infinities included) every macro throws exactly when its relation
    is false; relations are stated on the extended real values. *)
Theorem asserts_throw_iff_partial : forall v lo hi, is_nan v = false -> is_nan lo = false -> is_nan hi = false ->
  (assert_LT v hi = true <-> ~ ext v < ext hi) /\
  (assert_LE v hi = true <-> ~ ext v <= ext hi) /\
  (assert_GT v lo = true <-> ~ ext v > ext lo) /\
  (assert_GE v lo = true <-> ~ ext v >= ext lo) /\
  (assert_GE_LT v lo hi = true <-> ~ (ext lo <= ext v < ext hi)) /\
  (assert_GT_LE v lo hi = true <-> ~ (ext lo < ext v <= ext hi)) /\
  (assert_GE_LE v lo hi = true <-> ~ (ext lo <= ext v <= ext hi)) /\
  (assert_POSITIVE v = true <-> ~ ext v > 0) /\
  (assert_NONNEGATIVE v = true <-> ~ ext v >= 0) /\
  (assert_NEGATIVE v = true <-> ~ ext v < 0) /\
  (assert_NONPOSITIVE v = true <-> ~ ext v <= 0) /\
  (assert_ZERO v = true <-> ext v <> 0) /\
  (assert_EQ v lo = true <-> ext v <> ext lo) /\
  (assert_NE v lo = true <-> ~ ext v <> ext lo).
Proof.
  intros v lo hi Nv Nl Nh.
  assert (Nz : is_nan fzero = false) by reflexivity. assert (Ez : ext fzero = 0) by reflexivity.
  unfold assert_LT, assert_LE, assert_GT, assert_GE, assert_GE_LT, assert_GT_LE, assert_GE_LE,
    assert_POSITIVE, assert_NONNEGATIVE, assert_NEGATIVE, assert_NONPOSITIVE, assert_ZERO, assert_EQ, assert_NE.
  rewrite !orb_true_iff.
  assert (EQ : forall x y : f64, is_nan x = false -> is_nan y = false ->
     (negb (feqb x y) = true <-> ext x <> ext y)).
  { intros x y Hx Hy. pose proof (feqb_ext x y Hx Hy) as H. rewrite negb_true_iff.
    destruct (feqb x y); split; intros; try discriminate; auto; try tauto.
    intros E. apply H in E. discriminate. }
  rewrite !EQ by auto.
  rewrite !fleb_ext, !fltb_ext, !feqb_ext by auto. rewrite Ez.
  repeat split; intros; try lra.
  all: try (destruct (Rlt_le_dec (ext v) (ext lo)); [left; lra | right; lra]).
  all: try (destruct (Rle_lt_dec (ext v) (ext lo)); [left; lra | right; lra]).
Qed.

(** NEAR, FINITE and NOTNAN do treat NaN as failing; NEAR for finite arguments compares the rounded
    difference. *)
Theorem assert_NEAR_spec : forall v t e : f64,
  (is_nan v = true \/ is_nan t = true \/ is_nan e = true -> assert_NEAR v t e = true) /\
  (is_finite v = true -> is_finite t = true -> is_nan e = false ->
     (assert_NEAR v t e = true <-> ~ Rabs (clamp (B2R t - B2R v)) <= Rabs (ext e))) /\
  (assert_FINITE v = true <-> is_finite v = false) /\ (assert_NOTNAN v = true <-> is_nan v = true).
Proof.
  intros v t e. repeat split; auto.
  - intros H. unfold assert_NEAR. apply negb_true_iff. apply fcmp_nan. rewrite !is_nan_fabs.
    destruct H as [H|[H|H]]; auto; left.
    + destruct v; try discriminate. destruct t; reflexivity.
    + destruct t; try discriminate. destruct v; reflexivity.
  - unfold assert_NEAR. rewrite negb_true_iff. intros X Y. destruct (fsub_ext t v H0 H) as [N E].
    pose proof (proj2 (fleb_ext (fabs (fsub t v)) (fabs e) ltac:(rewrite is_nan_fabs; auto) ltac:(rewrite is_nan_fabs; auto))) as K.
    rewrite !ext_fabs, E in K by auto. rewrite K in X by exact Y. discriminate.
  - unfold assert_NEAR. rewrite negb_true_iff. intros X. destruct (fsub_ext t v H0 H) as [N E].
    pose proof (proj1 (fleb_ext (fabs (fsub t v)) (fabs e) ltac:(rewrite is_nan_fabs; auto) ltac:(rewrite is_nan_fabs; auto))) as K.
    rewrite !ext_fabs, E in K by auto. destruct (fleb (fabs (fsub t v)) (fabs e)); auto. exfalso; auto.
  - unfold assert_FINITE. apply negb_true_iff.
  - intros H. unfold assert_FINITE. rewrite H. reflexivity.
Qed.

(** C13 is false for NaN: every range assertion lets a NaN pass (e.g. SM_ASSERT_GT(e, NaN, 0.0)). *)
Theorem range_asserts_reject_nan_refuted : forall lo hi : f64,
  assert_LT fnan hi = false /\ assert_LE fnan hi = false /\ assert_GT fnan lo = false /\
  assert_GE fnan lo = false /\ assert_GE_LT fnan lo hi = false /\ assert_GT_LE fnan lo hi = false /\
  assert_GE_LE fnan lo hi = false /\ assert_POSITIVE fnan = false /\ assert_NONNEGATIVE fnan = false.
Proof.
  intros lo hi. destruct lo, hi; repeat split; reflexivity.
Qed.

(** Release builds drop the _DBG macros. *)
Theorem dbg_asserts : forall t, dbg true t = false /\ dbg false t = t.
Proof. auto. Qed.

Example ex_cmp : approximatelyEqual false (fofZ 3) (fofZ 3) (flit 1 (-52)) = Some true /\
  definitelyLessThan false (fofZ 3) (fofZ 4) (flit 1 (-52)) = Some true /\
  definitelyGreaterThan false (fofZ 3) (fofZ 4) (flit 1 (-52)) = Some false.
Proof. vm_compute. auto. Qed.
Example ex_assert : assert_GE_LT (fofZ 3) (fofZ 3) (fofZ 4) = false /\ assert_GE_LT (fofZ 4) (fofZ 3) (fofZ 4) = true.
Proof. vm_compute. auto. Qed.

Print Assumptions comparisons_trichotomy.
Print Assumptions comparisons_symmetry.
Print Assumptions comparisons_reject_epsilon.
Print Assumptions comparisons_infinite_cases.
Print Assumptions asserts_throw_iff_partial.
Print Assumptions assert_NEAR_spec.
Print Assumptions range_asserts_reject_nan_refuted.
