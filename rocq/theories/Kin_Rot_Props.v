(** C70, C71, C72, C81, C82, C84: rotation matrices, Euler angles, axis-angle, Euler-Rodriguez and rotation vector parameters, angleMod. *)
From Verif Require Import Kin_Rot_Model Kin_Quat_Model Kin_Quat_Props.
From Coq Require Import Lra Psatz Lia.
Open Scope R_scope.

(** ** specification: the vector v turned about the unit axis e by the angle a (right hand rule; Rodrigues' formula) *)
Definition turned (e : vec3) (a : R) (v : vec3) : vec3 :=
  add3 (add3 (scale3 (cos a) v) (scale3 (sin a) (cross e v))) (scale3 ((1 - cos a) * dot3 e v) e).
Definition ex : vec3 := V3 1 0 0.
Definition ey : vec3 := V3 0 1 0.
Definition ez : vec3 := V3 0 0 1.

Ltac trig t := pose proof (sin2_cos2 t); unfold Rsqr in *.
Lemma sc1 a : sin a * sin a + cos a * cos a = 1. Proof. exact (sin2_cos2 a). Qed.
Lemma mat_eq A B : (forall v, mv3 A v = mv3 B v) -> A = B.
Proof.
  intros H. pose proof (H ex) as H1. pose proof (H ey) as H2. pose proof (H ez) as H3. destruct A as [[] [] []], B as [[] [] []]. unfold ex, ey, ez in *. vunfold.
  injection H1 as ? ? ?. injection H2 as ? ? ?. injection H3 as ? ? ?. veq; lra.
Qed.

(** ** C70 *)
Theorem Rx_turns a v : mv3 (Rx a) v = turned ex a v. Proof. destruct v. unfold Rx, turned, ex. vunfold. veq; ring. Qed.
Theorem Ry_turns a v : mv3 (Ry a) v = turned ey a v. Proof. destruct v. unfold Ry, turned, ey. vunfold. veq; ring. Qed.
Theorem Rz_turns a v : mv3 (Rz a) v = turned ez a v. Proof. destruct v. unfold Rz, turned, ez. vunfold. veq; ring. Qed.
Lemma Rx_rotation a : is_rotation (Rx a). Proof. pose proof (sc1 a). split; [split|]; unfold Rx; vunfold; veq; lra. Qed.
Lemma Ry_rotation a : is_rotation (Ry a). Proof. pose proof (sc1 a). split; [split|]; unfold Ry; vunfold; veq; lra. Qed.
Lemma Rz_rotation a : is_rotation (Rz a). Proof. pose proof (sc1 a). split; [split|]; unfold Rz; vunfold; veq; lra. Qed.
Theorem principal_rotations a : is_rotation (Rx a) /\ is_rotation (Ry a) /\ is_rotation (Rz a).
Proof. auto using Rx_rotation, Ry_rotation, Rz_rotation. Qed.
Theorem rph2R_product x y z : rph2R x y z = mm3 (Rz z) (mm3 (Ry y) (Rx x)).
Proof. unfold rph2R, zyx_entries, Rx, Ry, Rz. vunfold. veq; ring. Qed.
Theorem rph2R_rotation x y z : is_rotation (rph2R x y z).
Proof. rewrite rph2R_product. auto using rotation_mm, Rx_rotation, Ry_rotation, Rz_rotation. Qed.
Theorem C_transposes a : Cx a = tr3 (Rx a) /\ Cy a = tr3 (Ry a) /\ Cz a = tr3 (Rz a).
Proof. unfold Cx, Cy, Cz, Rx, Ry, Rz. cbv zeta. rewrite sin_neg, cos_neg. repeat split; vunfold; veq; ring. Qed.
Theorem rph2C_product x y z : rph2C x y z = mm3 (Cz z) (mm3 (Cy y) (Cx x)).
Proof. apply rph2R_product. Qed.
Theorem rph2C_rotation x y z : is_rotation (rph2C x y z). Proof. apply rph2R_rotation. Qed.
(** the conventions of the Euler classes: parameter 0 is the first angle of the name *)
Theorem zyx_product p : zyx_C p = mm3 (Cz (vx p)) (mm3 (Cy (vy p)) (Cx (vz p))) /\ is_rotation (zyx_C p).
Proof. split; [apply (rph2R_product (- vz p))|apply (rph2R_rotation (- vz p))]. Qed.
Theorem ypr_product p : ypr_C p = mm3 (Rz (vx p)) (mm3 (Ry (vy p)) (Rx (vz p))) /\ is_rotation (ypr_C p).
Proof. split; [apply (rph2R_product (vz p))|apply (rph2R_rotation (vz p))]. Qed.
Theorem zxy_product p : zxy_C p = mm3 (Rz (vx p)) (mm3 (Rx (vy p)) (Ry (vz p))) /\ is_rotation (zxy_C p).
Proof.
  assert (E : zxy_C p = mm3 (Rz (vx p)) (mm3 (Rx (vy p)) (Ry (vz p)))) by (destruct p; unfold zxy_C, Rx, Ry, Rz; vunfold; veq; ring).
  split; [exact E|]. rewrite E. auto using rotation_mm, Rx_rotation, Ry_rotation, Rz_rotation.
Qed.

(** ** C71 *)
Lemma atan_sin_cos t : - (PI / 2) < t < PI / 2 -> atan (sin t / cos t) = t.
Proof. intros H. apply (atan_tan t). lra. Qed.
Lemma atan2_polar r t : 0 < r -> - PI < t <= PI -> atan2 (r * sin t) (r * cos t) = t.
Proof.
  intros P [H1 H2]. unfold atan2. pose proof PI_RGT_0 as PP.
  destruct (Rlt_dec 0 (r * cos t)) as [C|C].
  - assert (0 < cos t) by nra. assert (B : - (PI / 2) < t < PI / 2).
    { split; apply Rnot_le_lt; intros B. assert (cos (- t) <= 0) by (apply cos_le_0; lra). rewrite cos_neg in *. lra. assert (cos t <= 0) by (apply cos_le_0; lra). lra. }
    replace (r * sin t / (r * cos t)) with (sin t / cos t) by (field; lra). apply atan_sin_cos, B.
  - destruct (Rlt_dec (r * cos t) 0) as [D|D].
    + assert (CN : cos t < 0) by nra. destruct (Rle_dec 0 (r * sin t)) as [S|S].
      * assert (0 <= sin t) by nra. assert (B : PI / 2 < t).
        { apply Rnot_le_lt. intros B. destruct (Rle_dec 0 t) as [T|T]. assert (0 <= cos t) by (apply cos_ge_0; lra). lra.
          assert (0 < sin (- t)) by (apply sin_gt_0; lra). rewrite sin_neg in *. lra. }
        assert (E : atan (sin (t - PI) / cos (t - PI)) = t - PI) by (apply atan_sin_cos; lra).
        rewrite sin_minus, cos_minus, cos_PI, sin_PI in E. replace (r * sin t / (r * cos t)) with ((sin t * -1 - cos t * 0) / (cos t * -1 + sin t * 0)) by (field; split; lra). rewrite E. lra.
      * assert (sin t < 0) by nra. assert (B : t < - (PI / 2)).
        { apply Rnot_le_lt. intros B. destruct (Rle_dec t 0) as [T|T]. assert (0 <= cos (- t)) by (apply cos_ge_0; lra). rewrite cos_neg in *. lra.
          assert (0 <= sin t) by (apply sin_ge_0; lra). lra. }
        assert (E : atan (sin (t + PI) / cos (t + PI)) = t + PI) by (apply atan_sin_cos; lra).
        rewrite sin_plus, cos_plus, cos_PI, sin_PI in E. replace (r * sin t / (r * cos t)) with ((sin t * -1 + cos t * 0) / (cos t * -1 - sin t * 0)) by (field; split; lra). rewrite E. lra.
    + assert (CZ : cos t = 0) by nra. assert (T : t = PI / 2 \/ t = - (PI / 2)).
      { destruct (Rtotal_order t (PI / 2)) as [L|[L|L]]; auto.
        - destruct (Rtotal_order t (- (PI / 2))) as [G|[G|G]]; auto; exfalso.
          + assert (cos (- t) < 0) by (apply cos_lt_0; lra). rewrite cos_neg in *. lra.
          + assert (0 < cos t) by (apply cos_gt_0; lra). lra.
        - exfalso. assert (cos t < 0) by (apply cos_lt_0; lra). lra. }
      destruct T as [-> | ->].
      * rewrite sin_PI2. destruct (Rlt_dec 0 (r * 1)); auto; lra.
      * rewrite sin_neg, sin_PI2. destruct (Rlt_dec 0 (r * - (1))); [lra|]. destruct (Rlt_dec (r * - (1)) 0); auto; lra.
Qed.
Lemma cos_pos_half y : - (PI / 2) < y < PI / 2 -> 0 < cos y. Proof. intros. apply cos_gt_0; lra. Qed.
(** recovery from the entries *)
Lemma zyx_recover x y z : - PI < x <= PI -> - (PI / 2) < y < PI / 2 -> - PI < z <= PI ->
  let C := zyx_entries (cos x) (sin x) (cos y) (sin y) (cos z) (sin z) in
  asin (vx (r32 C)) = - y /\ asin (- vx (r32 C)) = y /\ atan2 (vy (r32 C)) (vz (r32 C)) = x /\ atan2 (vx (r31 C)) (vx (r30 C)) = z.
Proof.
  intros Hx Hy Hz C. pose proof (cos_pos_half y Hy) as CY. unfold C, zyx_entries. vunfold. repeat split.
  - rewrite asin_opp, asin_sin by lra. auto.
  - rewrite Ropp_involutive. apply asin_sin. lra.
  - apply atan2_polar; auto.
  - rewrite (Rmult_comm (sin z)), (Rmult_comm (cos z)). apply atan2_polar; auto.
Qed.
Definition euler_range (x y z : R) : Prop := - PI < x <= PI /\ - (PI / 2) < y < PI / 2 /\ - PI < z <= PI.
Theorem R2rph_rph2R x y z : euler_range x y z -> R2rph (rph2R x y z) = V3 x y z.
Proof. intros (A & B & C). destruct (zyx_recover x y z A B C) as (E1 & _ & E2 & E3). unfold R2rph, rph2R. rewrite E1, E2, E3. f_equal. ring. Qed.
(** C2rph's range: |x|,|z| < pi (at x = -pi, the code computes atan2 of a negated zero). *)
Theorem C2rph_rph2C x y z : - PI < x < PI -> - (PI / 2) < y < PI / 2 -> - PI < z < PI -> C2rph (rph2C x y z) = V3 x y z.
Proof.
  intros A B C. pose proof (cos_pos_half _ B) as CY. unfold C2rph, rph2C, rph2R, zyx_entries. vunfold. rewrite !sin_neg, !cos_neg. f_equal.
  - replace (- (cos y * - sin x)) with (cos y * sin x) by ring. apply atan2_polar; lra.
  - rewrite Ropp_involutive. apply asin_sin. lra.
  - replace (- (- sin z * cos y)) with (cos y * sin z) by ring. rewrite (Rmult_comm (cos z)). apply atan2_polar; lra.
Qed.
Theorem zyx_recovered p : - PI < vx p < PI -> - (PI / 2) < vy p < PI / 2 -> - PI < vz p < PI -> zyx_params (zyx_C p) = p.
Proof.
  intros A B C. destruct p as [z y x]. cbn [vx vy vz] in *. destruct (zyx_recover (- x) (- y) (- z)) as (E1 & _ & E2 & E3); try lra.
  unfold zyx_params, zyx_C. cbn [vx vy vz] in *. rewrite E1, E2, E3. f_equal; ring.
Qed.
Theorem ypr_recovered p : euler_range (vz p) (vy p) (vx p) -> ypr_params (ypr_C p) = p.
Proof.
  intros (A & B & C). destruct p as [z y x]. cbn [vx vy vz] in *. destruct (zyx_recover x y z A B C) as (_ & E1 & E2 & E3).
  unfold ypr_params, ypr_C. cbn [vx vy vz] in *. rewrite E1, E2, E3. auto.
Qed.
Theorem zxy_recovered p : euler_range (vz p) (vy p) (vx p) -> zxy_params (zxy_C p) = p.
Proof.
  intros (A & B & C). destruct p as [z y x]. cbn [vx vy vz] in *. pose proof (cos_pos_half _ B) as CY. unfold zxy_params, zxy_C. vunfold. f_equal.
  - replace (- (- sin z * cos y)) with (cos y * sin z) by ring. rewrite (Rmult_comm (cos z)). apply atan2_polar; auto.
  - apply asin_sin. lra.
  - replace (- (- cos y * sin x)) with (cos y * sin x) by ring. apply atan2_polar; auto.
Qed.
(** Conversely every rotation matrix away from the singularity is rebuilt from its angles. *)
Lemma atan2_sincos y x : 0 < x * x + y * y -> let r := sqrt (x * x + y * y) in r * sin (atan2 y x) = y /\ r * cos (atan2 y x) = x /\ - PI < atan2 y x <= PI.
Proof.
  intros P r. pose proof PI_RGT_0 as PP. assert (R0 : 0 < r) by (apply sqrt_lt_R0; auto). assert (RR : r * r = x * x + y * y) by (apply sqrt_sqrt; lra).
  assert (A : forall u, 0 < u -> u * u = 1 + (y / x) * (y / x) -> x <> 0 -> cos (atan (y / x)) * u = 1 /\ sin (atan (y / x)) * u = y / x).
  { intros u U0 U N. set (t := atan (y / x)). pose proof (atan_bound (y / x)) as B. fold t in B. assert (C : 0 < cos t) by (apply cos_gt_0; lra).
    assert (T : tan t = y / x) by (unfold t; apply tan_atan). clearbody t. unfold tan in T. pose proof (sc1 t) as S.
    assert (ST : sin t = y / x * cos t) by (apply Rmult_eq_reg_r with (/ cos t); [|apply Rinv_neq_0_compat; lra]; transitivity (sin t / cos t); [auto|rewrite T; field; lra]). assert (CU : cos t * cos t * (u * u) = 1) by (rewrite U; replace (cos t * cos t * (1 + y / x * (y / x))) with (cos t * cos t + sin t * sin t) by (rewrite ST; ring); lra).
    assert (CP : 0 < cos t * u) by (apply Rmult_lt_0_compat; auto). assert (K : cos t * u = 1) by (clear - CP CU; set (k := cos t * u) in *; assert (k * k = 1) by (unfold k; lra); nra). split; auto. rewrite ST, Rmult_assoc, K. ring. }
  unfold atan2. destruct (Rlt_dec 0 x) as [X|X].
  - destruct (A (r / x)) as (C & S). apply Rdiv_lt_0_compat; auto. replace (r / x * (r / x)) with (r * r / (x * x)) by (field; lra). rewrite RR. field; lra. lra.
    pose proof (atan_bound (y / x)). repeat split; try lra.
    + revert S. generalize (sin (atan (y / x))). intros q S. transitivity (q * (r / x) * x); [field; lra|]. rewrite S. field; lra.
    + revert C. generalize (cos (atan (y / x))). intros q C. transitivity (q * (r / x) * x); [field; lra|]. rewrite C. ring.
  - destruct (Rlt_dec x 0) as [N|N].
    + destruct (A (r / - x)) as (C & S). apply Rdiv_lt_0_compat; lra. replace (r / - x * (r / - x)) with (r * r / (x * x)) by (field; lra). rewrite RR. field; lra. lra.
      pose proof (atan_bound (y / x)) as B.
      assert (ES : - (r * sin (atan (y / x))) = y) by (clear - S N; revert S; generalize (sin (atan (y / x))); intros q S; transitivity (q * (r / - x) * x); [field; lra|]; rewrite S; field; lra).
      assert (EC : - (r * cos (atan (y / x))) = x) by (clear - C N; revert C; generalize (cos (atan (y / x))); intros q C; transitivity (q * (r / - x) * x); [field; lra|]; rewrite C; ring).
      assert (SG : (0 <= y -> atan (y / x) <= 0) /\ (y < 0 -> 0 < atan (y / x))).
      { split; intros Y.
        - destruct (Rle_dec (atan (y / x)) 0) as [|G]; auto. exfalso. assert (0 < sin (atan (y / x))) by (apply sin_gt_0; lra). nra.
        - destruct (Rlt_dec 0 (atan (y / x))) as [|G]; auto. exfalso. assert (0 <= sin (- atan (y / x))) by (apply sin_ge_0; lra). rewrite sin_neg in *. nra. }
      destruct (Rle_dec 0 y) as [Y|Y].
      * rewrite neg_sin, neg_cos. repeat split; try lra; destruct SG; lra.
      * rewrite sin_minus, cos_minus, cos_PI, sin_PI. repeat split; try lra; destruct SG; lra.
    + assert (x = 0) by lra. subst x. assert (RY : r * r = y * y) by lra. destruct (Rlt_dec 0 y) as [Y|Y].
      * rewrite sin_PI2, cos_PI2. assert (r = y) by nra. repeat split; lra.
      * destruct (Rlt_dec y 0). rewrite sin_neg, cos_neg, sin_PI2, cos_PI2. assert (r = - y) by nra. repeat split; lra. exfalso. assert (y = 0) by lra. subst. lra.
Qed.
Theorem rph2R_R2rph C : is_rotation C -> -1 < vx (r32 C) < 1 -> let a := R2rph C in rph2R (vx a) (vy a) (vz a) = C.
Proof.
  intros H B a. pose proof (rotation_cof _ H) as K. destruct C as [[c00 c01 c02] [c10 c11 c12] [c20 c21 c22]]. destruct H as [[O1 O2] _]. unfold a, R2rph. vunfold.
  injection O1 as A1 A2 A3 A4 A5 A6 A7 A8 A9. injection O2 as B1 B2 B3 B4 B5 B6 B7 B8 B9. injection K as K1 K2 K3 K4 K5 K6 K7 K8 K9. clear a.
  assert (Q : 0 < 1 - c20 * c20) by (clear - B; nra). destruct (atan2_sincos c21 c22) as (SX & CX & _); [lra|]. destruct (atan2_sincos c10 c00) as (SZ & CZ & _); [lra|].
  set (x := atan2 c21 c22) in *. set (z := atan2 c10 c00) in *. unfold rph2R, zyx_entries. vunfold.
  rewrite sin_neg, cos_neg, sin_asin, cos_asin by lra.
  replace (c22 * c22 + c21 * c21) with (1 - Rsqr c20) in * by (unfold Rsqr; lra). replace (c00 * c00 + c10 * c10) with (1 - Rsqr c20) in * by (unfold Rsqr; lra).
  set (r := sqrt (1 - Rsqr c20)) in *. assert (R0 : 0 < r) by (apply sqrt_lt_R0; unfold Rsqr; lra). assert (RR : r * r = 1 - c20 * c20) by (apply sqrt_sqrt; unfold Rsqr; lra).
  pose proof (sc1 z) as Z1.
  (* the remaining four entries from the orthogonality relations and cofactors *)
  assert (P1 : cos z * c11 - sin z * c01 = cos x). { apply Rmult_eq_reg_l with r; [|lra]. rewrite CX. transitivity ((r * cos z) * c11 - (r * sin z) * c01); [ring|]. rewrite CZ, SZ. lra. }
  assert (P2 : cos z * c01 + sin z * c11 = - c20 * sin x). { apply Rmult_eq_reg_l with r; [|lra]. transitivity ((r * cos z) * c01 + (r * sin z) * c11); [ring|]. rewrite CZ, SZ. transitivity (- c20 * (r * sin x)); [|ring]. rewrite SX. lra. }
  assert (P3 : sin z * c02 - cos z * c12 = sin x). { apply Rmult_eq_reg_l with r; [|lra]. rewrite SX. transitivity ((r * sin z) * c02 - (r * cos z) * c12); [ring|]. rewrite CZ, SZ. lra. }
  assert (P4 : cos z * c02 + sin z * c12 = - c20 * cos x). { apply Rmult_eq_reg_l with r; [|lra]. transitivity ((r * cos z) * c02 + (r * sin z) * c12); [ring|]. rewrite CZ, SZ. transitivity (- c20 * (r * cos x)); [|ring]. rewrite CX. lra. }
  assert (Solve : forall u v, (cos z * (cos z * u - sin z * v) + sin z * (cos z * v + sin z * u)) = u) by (intros; transitivity ((sin z * sin z + cos z * cos z) * u); [ring|rewrite Z1; ring]).
  veq; try lra.
  - transitivity (cos z * (cos z * c01 + sin z * c11) - sin z * (cos z * c11 - sin z * c01)). rewrite P1, P2; ring. transitivity ((sin z * sin z + cos z * cos z) * c01); [ring|rewrite Z1; ring].
  - transitivity (cos z * (cos z * c02 + sin z * c12) + sin z * (sin z * c02 - cos z * c12)). rewrite P3, P4; ring. transitivity ((sin z * sin z + cos z * cos z) * c02); [ring|rewrite Z1; ring].
  - transitivity (cos z * (cos z * c11 - sin z * c01) + sin z * (cos z * c01 + sin z * c11)). rewrite P1, P2; ring. transitivity ((sin z * sin z + cos z * cos z) * c11); [ring|rewrite Z1; ring].
  - transitivity (- cos z * (sin z * c02 - cos z * c12) + sin z * (cos z * c02 + sin z * c12)). rewrite P3, P4; ring. transitivity ((sin z * sin z + cos z * cos z) * c12); [ring|rewrite Z1; ring].
Qed.

(** ** C72 *)
Lemma aa_turned e a v : mv3 (aa_entries (vx e) (vy e) (vz e) (sin a) (cos a)) v = turned e (- a) v.
Proof. unfold turned, aa_entries. rewrite cos_neg, sin_neg. destruct e, v. vunfold. veq; ring. Qed.
Lemma aa_quat e a : unit3 e -> aa_entries (vx e) (vy e) (vz e) (sin a) (cos a) = quat2r (cons4 (scale3 (sin (a / 2)) e) (cos (a / 2))).
Proof.
  intros U. unfold unit3 in U. destruct e as [x y z]. unfold aa_entries. replace a with (2 * (a / 2)) at 1 2 3 4 5 6 7 8 9 10 11 12 13 14 15 by lra. rewrite sin_2a, cos_2a.
  set (s := sin (a / 2)). set (c := cos (a / 2)). assert (Q : s * s + c * c = 1) by apply sc1. qunfold. cbn [vx vy vz] in *.
  assert (XX : x * x = 1 - y * y - z * z) by lra. assert (CC : c * c = 1 - s * s) by lra.
  veq; try (ring [XX CC]).
Qed.
Lemma normalised x : 0 < norm3 x -> unit3 (V3 (vx x * (1 / norm3 x)) (vy x * (1 / norm3 x)) (vz x * (1 / norm3 x))).
Proof. intros H. unfold unit3, dot3. cbn [vx vy vz]. pose proof (norm3_sq x) as S. unfold dot3 in S. set (n := norm3 x) in *. transitivity ((vx x * vx x + vy x * vy x + vz x * vz x) / (n * n)); [field; lra|]. rewrite <- S. field; lra. Qed.
Lemma aa_rotation e a : unit3 e -> is_rotation (aa_entries (vx e) (vy e) (vz e) (sin a) (cos a)).
Proof.
  intros U. rewrite aa_quat by auto. apply quat2r_rotation. unfold unit4. transitivity (sin (a / 2) * sin (a / 2) * dot3 e e + cos (a / 2) * cos (a / 2)); [vring|]. rewrite U. pose proof (sc1 (a / 2)). lra.
Qed.
(** the (angle, axis) form turns by -angle (the library's matrices are passive) ... *)
Theorem axisAngle2R4_turns a e v : / 10 ^ 12 <= a -> mv3 (axisAngle2R4 a e) v = turned e (- a) v.
Proof. intros H. unfold axisAngle2R4. destruct (Rlt_dec a (/ 10 ^ 12)); [lra|]. apply aa_turned. Qed.
(** ... but not for negative angles, for which it returns the identity. *)
Theorem axisAngle2R4_negative_refuted : exists a e v, unit3 e /\ a < 0 /\ mv3 (axisAngle2R4 a e) v = v /\ turned e (- a) v = opp3 v /\ v <> opp3 v.
Proof.
  exists (- PI), ex, ey. pose proof PI_RGT_0. unfold axisAngle2R4. destruct (Rlt_dec (- PI) (/ 10 ^ 12)) as [L|L]; [|exfalso; apply L; assert (0 < / 10 ^ 12) by (apply Rinv_0_lt_compat; lra); lra].
  unfold turned. rewrite Ropp_involutive, sin_PI, cos_PI. repeat split; unfold unit3, ex, ey in *; vunfold; try (veq; lra); try lra. intros E. injection E as E. lra.
Qed.
Lemma p12 : 0 < / 10 ^ 12. Proof. apply Rinv_0_lt_compat. lra. Qed.
Lemma p14 : 0 < / 10 ^ 14. Proof. apply Rinv_0_lt_compat. lra. Qed.
Lemma axisAngle2R_big x : / 10 ^ 12 <= norm3 x ->
  axisAngle2R x = aa_entries (vx x * (1 / norm3 x)) (vy x * (1 / norm3 x)) (vz x * (1 / norm3 x)) (sin (norm3 x)) (cos (norm3 x)).
Proof. intros H. unfold axisAngle2R, axisAngle2R4. destruct (Rlt_dec (norm3 x) (/ 10 ^ 12)); [lra|]. auto. Qed.
Theorem axisAngle2R_turns x v :
  (/ 10 ^ 12 <= norm3 x -> mv3 (axisAngle2R x) v = turned (scale3 (1 / norm3 x) x) (- norm3 x) v) /\ (norm3 x < / 10 ^ 12 -> axisAngle2R x = I3).
Proof.
  split; intros H.
  - rewrite axisAngle2R_big by auto. rewrite <- aa_turned. f_equal. unfold scale3. cbn [vx vy vz]. rewrite !(Rmult_comm _ (1 / norm3 x)). auto.
  - unfold axisAngle2R. destruct (Rlt_dec _ _); auto; lra.
Qed.
Theorem axisAngle2R_rotation x : is_rotation (axisAngle2R x).
Proof.
  destruct (Rlt_dec (norm3 x) (/ 10 ^ 12)) as [L|L]; [rewrite (proj2 (axisAngle2R_turns x zero3) L); apply rotation_I|].
  pose proof p12. rewrite axisAngle2R_big by lra. apply (aa_rotation (V3 _ _ _)), normalised. lra.
Qed.
Theorem axisAngle2R_quaternion x : eps4 <= norm3 x \/ x = zero3 -> axisAngle2R x = quat2r (axisAngle2quat x).
Proof.
  intros [H| ->].
  - assert (L : / 10 ^ 12 <= norm3 x). { eapply Rle_trans; [|apply H]. unfold eps4. apply Rinv_le_contravar; lra. } pose proof eps4_pos.
    rewrite axisAngle2R_big by auto. rewrite axisAngle2quat_big by auto. pose proof (aa_quat _ (norm3 x) (normalised x ltac:(lra))) as E. cbn [vx vy vz] in E. rewrite E. f_equal. clear E. destruct x as [a b c]. set (n := norm3 (V3 a b c)) in *. unfold scale3, cons4. cbn [vx vy vz]. f_equal; field; lra.
  - rewrite (proj2 (axisAngle2R_turns zero3 zero3)) by (rewrite norm3_0; apply p12). destruct (axisAngle2quat_exact zero3 (or_intror eq_refl)) as [(_ & X)|(X & _)]. rewrite X, quat2r_identity. auto. rewrite norm3_0 in X; lra.
Qed.
(** In the small-angle branch the quaternion's matrix is not even a rotation matrix. *)
Theorem axisAngle2R_quaternion_small_refuted : exists x, norm3 x < eps4 /\ axisAngle2R x <> quat2r (axisAngle2quat x).
Proof.
  set (t := / 16384). assert (N : norm3 (V3 t 0 0) = t) by (apply norm3_x; unfold t; lra). exists (V3 t 0 0). rewrite N. split; [unfold t, eps4; lra|].
  rewrite axisAngle2R_big. 2: { rewrite N. unfold t. apply Rinv_le_contravar; lra. } rewrite N. unfold axisAngle2quat. rewrite N, small_true by (unfold t, eps4; lra). unfold aa_entries, scale3, cons4. qunfold. intros E. injection E as E _ _ _ _ _ _ _ _.
  assert (T : t = / 16384) by reflexivity. destruct (sin_cubic (t / 2)) as (_ & U); [lra|]. pose proof (sc1 (t / 2)) as S. replace (t * (1 / 2)) with (t / 2) in E by lra. assert (0 <= sin (t / 2)) by (apply sin_ge_0; pose proof PI2_1; lra).
  replace (t * (1 / t)) with 1 in E by (field; lra). assert (X : sin (t / 2) < (1 / 2 + t * t * (1 / 48)) * t) by (clearbody t; subst t; lra). nra.
Qed.
Theorem rotationVector_matrix x : / 10 ^ 12 <= norm3 x \/ norm3 x < / 10 ^ 14 -> rv_C x = axisAngle2R x.
Proof.
  intros [H|H].
  - rewrite axisAngle2R_big by auto. unfold rv_C. destruct (Rlt_dec _ _) as [L|L]; auto. exfalso. assert (/ 10 ^ 14 < / 10 ^ 12) by (apply Rinv_lt_contravar; lra). lra.
  - rewrite (proj2 (axisAngle2R_turns x zero3)). unfold rv_C. destruct (Rlt_dec _ _); auto; lra. assert (/ 10 ^ 14 < / 10 ^ 12) by (apply Rinv_lt_contravar; lra). lra.
Qed.
Theorem rotationVector_rotation x : is_rotation (rv_C x).
Proof.
  unfold rv_C. destruct (Rlt_dec _ _) as [L|L]; [apply rotation_I|]. pose proof p14. apply (aa_rotation (V3 _ _ _)), normalised. lra.
Qed.

(** ** C81 *)
(** the parameters are those of the quaternion (p, 1)/sqrt(1 + |p|^2), i.e. tan(angle/2) times the axis *)
Theorem er_quaternion p : er_C p = quat2r (scale4 (1 / sqrt (1 + dot3 p p)) (cons4 p 1)) /\ unit4 (scale4 (1 / sqrt (1 + dot3 p p)) (cons4 p 1)).
Proof.
  assert (N : 0 < 1 + dot3 p p) by (unfold dot3; nra). set (m := 1 + dot3 p p) in *. assert (S0 : 0 < sqrt m) by (apply sqrt_lt_R0; auto). assert (S : 1 / sqrt m * (1 / sqrt m) = / m) by (rewrite <- (sqrt_sqrt m) at 3 by lra; field; lra).
  set (k := 1 / sqrt m) in *. split.
  - assert (E : forall q, quat2r (scale4 k q) = mscale3 (k * k) (quat2r q)) by (intros; qring). rewrite E, S. unfold er_C. fold m. assert (M : m = 1 + dot3 p p) by reflexivity.
    assert (I : / m * m = 1) by (apply Rinv_l; lra). replace (2 / m) with (2 * / m) by (field; lra). set (i := / m) in *. clearbody i k m. destruct p as [a b c]. unfold crossMx. qunfold.
    assert (J : 1 = i * (1 + (a * a + b * b + c * c))) by (rewrite <- M; lra). veq; lra.
  - unfold unit4. transitivity (k * k * m). unfold m. vring. rewrite S. field. lra.
Qed.
Theorem er_rotation p : is_rotation (er_C p).
Proof. destruct (er_quaternion p) as (E & U). rewrite E. apply quat2r_rotation, U. Qed.
Lemma cos_2atan m : cos (2 * atan m) = (1 - m * m) / (1 + m * m) /\ sin (2 * atan m) = 2 * m / (1 + m * m).
Proof.
  pose proof (atan_bound m) as B. set (t := atan m) in *. assert (T : tan t = m) by apply tan_atan. clearbody t. assert (C : 0 < cos t) by (apply cos_gt_0; lra). pose proof (sc1 t) as S.
  assert (E : sin t = m * cos t). { rewrite <- T. unfold tan. field; lra. } assert (K : cos t * cos t = / (1 + m * m)). { apply Rmult_eq_reg_l with (1 + m * m); [|nra]. rewrite Rinv_r by nra. rewrite E in S. lra. }
  rewrite cos_2a, sin_2a, E. split. transitivity ((1 - m * m) * (cos t * cos t)); [ring|]. rewrite K. reflexivity. transitivity (2 * m * (cos t * cos t)); [ring|]. rewrite K. reflexivity.
Qed.
Lemma er_entries p : let n := dot3 p p in let C := er_C p in
  (vx (r30 C) + vy (r31 C) + vz (r32 C) - 1) * (1 / 2) = (1 - n) / (1 + n) /\
  V3 (vy (r32 C) - vz (r31 C)) (vz (r30 C) - vx (r32 C)) (vx (r31 C) - vy (r30 C)) = scale3 (- 4 / (1 + n)) p.
Proof.
  intros n C. assert (N : 1 + n <> 0) by (unfold n, dot3; nra). unfold C, er_C, crossMx. fold n. assert (M : n = dot3 p p) by reflexivity. clearbody n. clear C. destruct p as [a b c]. vunfold. split.
  - transitivity (1 + - (2 / (1 + n)) * (a * a + b * b + c * c)); [field; auto|]. rewrite <- M. field; auto.
  - f_equal; field; auto.
Qed.
Lemma neg_scale k v : scale3 (-4 / k) v = opp3 (scale3 (4 / k) v).
Proof. destruct v as [a b c]. unfold opp3, scale3, Rdiv. cbn [vx vy vz]. f_equal; ring. Qed.
Theorem er_recovered_partial p : / 10 ^ 14 <= norm3 p <= 10 ^ 14 -> er_params (er_C p) = p.
Proof.
  intros [H1 H2]. pose proof p14 as P14. set (m := norm3 p) in *. assert (MM : m * m = dot3 p p) by apply norm3_sq. destruct (er_entries p) as (E1 & E2). unfold er_params. rewrite E1, E2, <- MM.
  destruct (cos_2atan m) as (C & S). rewrite <- C. pose proof (atan_bound m) as B. assert (A0 : 0 < atan m) by (rewrite <- atan_0; apply atan_increasing; lra).
  rewrite acos_cos by lra. rewrite (Rabs_pos_eq (2 * atan m)) by lra.
  assert (Q : / 10 ^ 14 <= 2 * m / (1 + m * m)).
  { apply Rmult_le_reg_r with (1 + m * m); [nra|]. replace (2 * m / (1 + m * m) * (1 + m * m)) with (2 * m) by (field; nra).
    assert (K : / 10 ^ 14 * (m * m) <= m). { apply Rmult_le_reg_l with (10 ^ 14); [lra|]. rewrite <- Rmult_assoc, Rinv_r by lra. nra. } lra. }
  assert (SL : sin (2 * atan m) < 2 * atan m) by (apply sin_lt_x; lra). destruct (Rlt_dec _ _) as [L|L]; [exfalso; lra|]. clear L.
  assert (NN : norm3 (scale3 (-4 / (1 + m * m)) p) = 2 * (2 * m / (1 + m * m))).
  { rewrite neg_scale.
    assert (O : forall v, norm3 (opp3 v) = norm3 v) by (intros; unfold norm3; f_equal; vring). rewrite O, norm3_scale. fold m. field; nra. apply Rlt_le, Rdiv_lt_0_compat; nra. }
  rewrite NN. destruct (Rlt_dec _ _) as [L|L]; [exfalso; lra|]. replace (1 / 2 * (2 * atan m)) with (atan m) by lra. rewrite tan_atan, scale3_scale, scale3_1; auto. field. split; nra.
Qed.
(** For very large parameters (rotations by almost pi) the result is zero. *)
Theorem er_recovered_refuted : exists p, er_params (er_C p) = zero3 /\ p <> zero3.
Proof.
  set (m := 10 ^ 15). exists (V3 m 0 0). split; [|unfold zero3, m; intros E; injection E; lra]. assert (N : norm3 (V3 m 0 0) = m) by (apply norm3_x; unfold m; lra).
  destruct (er_entries (V3 m 0 0)) as (_ & E2). unfold er_params. rewrite E2. destruct (Rlt_dec _ _); auto. rewrite <- norm3_sq, N.
  destruct (Rlt_dec (norm3 _) _) as [|G]; auto. exfalso. apply G.
  rewrite neg_scale.
  assert (O : forall v, norm3 (opp3 v) = norm3 v) by (intros; unfold norm3; f_equal; vring). rewrite O, norm3_scale, N by (apply Rlt_le, Rdiv_lt_0_compat; unfold m; lra).
  unfold m. lra.
Qed.

(** ** C82 *)
Lemma aa_params e a : unit3 e -> let C := aa_entries (vx e) (vy e) (vz e) (sin a) (cos a) in
  (vx (r30 C) + vy (r31 C) + vz (r32 C) - 1) * (1 / 2) = cos a /\
  V3 (vy (r32 C) - vz (r31 C)) (vz (r30 C) - vx (r32 C)) (vx (r31 C) - vy (r30 C)) = scale3 (- 2 * sin a) e.
Proof.
  intros U C. unfold C, aa_entries. destruct e as [x y z]. unfold unit3 in U. vunfold. split. replace ((_ - 1) * _) with (1 / 2 * ((x * x + y * y + z * z) * (1 - cos a) + 3 * cos a - 1)) by field. rewrite U. field. f_equal; ring.
Qed.
Lemma clamp_id x : -1 <= x <= 1 -> Rmax (-1) (Rmin x 1) = x.
Proof. intros H. rewrite Rmin_left by lra. apply Rmax_right. lra. Qed.
Lemma rv_params_aa p : / 10 ^ 14 <= norm3 p <= PI ->
  rv_params (rv_C p) = if Rlt_dec (2 * sin (norm3 p)) (/ 10 ^ 14) then zero3 else p.
Proof.
  intros [H1 H2]. pose proof p14 as P14. set (m := norm3 p) in *. unfold rv_C. fold m. destruct (Rlt_dec m (/ 10 ^ 14)) as [L|L]; [exfalso; lra|]. clear L.
  destruct (aa_params _ m (normalised p ltac:(fold m; lra))) as (E1 & E2). fold m in E1, E2. unfold rv_params. cbv zeta. cbn [vx vy vz] in E1, E2.
  rewrite E1, E2. rewrite clamp_id by apply COS_bound. rewrite acos_cos by lra. rewrite (Rabs_pos_eq m) by lra. destruct (Rlt_dec m (/ 10 ^ 14)) as [L|L]; [exfalso; lra|]. clear L.
  assert (S : 0 <= sin m) by (apply sin_ge_0; lra). set (e := V3 (vx p * (1 / m)) (vy p * (1 / m)) (vz p * (1 / m))).
  assert (NN : norm3 (scale3 (-2 * sin m) e) = 2 * sin m).
  { replace (scale3 (-2 * sin m) e) with (opp3 (scale3 (2 * sin m) e)) by vring. assert (O : forall v, norm3 (opp3 v) = norm3 v) by (intros; unfold norm3; f_equal; vring).
    rewrite O, norm3_scale by lra. unfold norm3. assert (UE : dot3 e e = 1) by (apply (normalised p); fold m; lra). rewrite UE, sqrt_1. ring. }
  rewrite NN. rewrite (Rabs_pos_eq (2 * sin m)) by lra. destruct (Rlt_dec _ _) as [L|L]; auto. rewrite scale3_scale. unfold e. destruct p as [a b c]. cbn [vx vy vz]. unfold scale3. cbn [vx vy vz]. assert (sin m <> 0) by lra. f_equal; field; split; lra.
Qed.
Theorem rv_recovered_partial p : / 10 ^ 14 <= norm3 p < PI -> / 10 ^ 14 <= 2 * sin (norm3 p) -> rv_params (rv_C p) = p.
Proof. intros H S. rewrite rv_params_aa by lra. destruct (Rlt_dec _ _); auto; lra. Qed.
Theorem rv_recovered_tiny p : norm3 p < / 10 ^ 14 -> rv_params (rv_C p) = zero3.
Proof.
  intros H. unfold rv_C. destruct (Rlt_dec _ _); [|lra]. unfold rv_params, I3. vunfold. rewrite clamp_id by lra. replace ((1 + 1 + 1 - 1) * (1 / 2)) with 1 by lra. rewrite acos_1, Rabs_R0.
  destruct (Rlt_dec _ _) as [|G]; auto. exfalso. apply G, p14.
Qed.
Lemma PI_301 : 301 / 100 < PI.
Proof. destruct (PI_ineq 5) as (L & _). unfold tg_alt, PI_tg in L. cbn in L. lra. Qed.
(** Near and at pi the parameters are lost: the result is the identity rotation although the matrix is a half turn. *)
Theorem rv_recovered_refuted :
  (exists p, norm3 p = PI /\ rv_params (rv_C p) = zero3 /\ rv_C (rv_params (rv_C p)) <> rv_C p) /\ (exists p, 3 < norm3 p < PI /\ rv_params (rv_C p) = zero3).
Proof.
  pose proof PI_RGT_0 as PP. pose proof p14 as P14. pose proof PI_301 as P3. split.
  - exists (V3 PI 0 0). assert (N : norm3 (V3 PI 0 0) = PI) by (apply norm3_x; lra). split; auto. assert (Z : rv_params (rv_C (V3 PI 0 0)) = zero3).
    { rewrite rv_params_aa; rewrite N; [|split; [assert (/ 10 ^ 14 < 1) by (rewrite <- Rinv_1; apply Rinv_lt_contravar; lra); lra|lra]]. rewrite sin_PI. destruct (Rlt_dec _ _); auto. exfalso; lra. }
    split; auto. rewrite Z. unfold rv_C. rewrite norm3_0, N. destruct (Rlt_dec 0 (/ 10 ^ 14)) as [_|G]; [|exfalso; lra]. assert (T : / 10 ^ 14 < 1) by (rewrite <- Rinv_1; apply Rinv_lt_contravar; lra).
    destruct (Rlt_dec PI (/ 10 ^ 14)) as [G|_]; [exfalso; lra|]. unfold aa_entries, I3. rewrite cos_PI. vunfold. intros E. injection E as _ _ _ _ E _ _ _ _. lra.
  - set (d := / 10 ^ 15). assert (D : 0 < d) by (apply Rinv_0_lt_compat; lra). assert (D1 : d < PI - 3). { unfold d. assert (/ 10 ^ 15 < / 10 ^ 2) by (apply Rinv_lt_contravar; lra). lra. }
    exists (V3 (PI - d) 0 0). assert (N : norm3 (V3 (PI - d) 0 0) = PI - d) by (apply norm3_x; lra). rewrite rv_params_aa; rewrite N.
    2: { split; [assert (/ 10 ^ 14 < 1) by (rewrite <- Rinv_1; apply Rinv_lt_contravar; lra); lra|lra]. }
    split; [lra|]. rewrite sin_PI_x. destruct (Rlt_dec _ _) as [|G]; auto. exfalso. apply G. assert (sin d < d) by (apply sin_lt_x; auto). assert (2 * d < / 10 ^ 14) by (unfold d; lra). lra.
Qed.

(** ** C84 *)
Theorem angleMod_spec r : (exists k : Z, r - angleMod r = IZR k * (2 * PI)) /\ - PI <= angleMod r <= PI.
Proof.
  pose proof PI_RGT_0 as PP. unfold angleMod, round_away. set (x := r / (2 * PI)). assert (X : r = x * (2 * PI)) by (unfold x; field; lra). clearbody x. subst r.
  destruct (Rle_dec 0 x).
  - destruct (base_Int_part (x + 1 / 2)) as (A & B). set (k := Int_part (x + 1 / 2)) in *. split. exists k. ring. nra.
  - destruct (base_Int_part (- x + 1 / 2)) as (A & B). set (k := Int_part (- x + 1 / 2)) in *. split. exists (- k)%Z. rewrite opp_IZR. ring. nra.
Qed.
(** an angle already in (-pi, pi) is unchanged *)
Theorem angleMod_id r : - PI < r < PI -> angleMod r = r.
Proof.
  intros H. pose proof PI_RGT_0 as PP. unfold angleMod, round_away. set (x := r / (2 * PI)). assert (X : - (1 / 2) < x < 1 / 2). { unfold x. split; apply Rmult_lt_reg_r with (2 * PI); try lra; replace (r / (2 * PI) * (2 * PI)) with r by (field; lra); lra. }
  assert (K : forall y, 0 <= y < 1 / 2 -> Int_part (y + 1 / 2) = 0%Z). { intros y Y. destruct (base_Int_part (y + 1 / 2)) as (A & B). assert (Int_part (y + 1 / 2) < 1)%Z by (apply lt_IZR; lra). assert (-1 < Int_part (y + 1 / 2))%Z by (apply lt_IZR; lra). lia. }
  destruct (Rle_dec 0 x); rewrite K by lra; lra.
Qed.

(** ** Non-vacuity *)
Example ex_euler : euler_range 1 (-1) 3.
Proof. pose proof PI_301. unfold euler_range. lra. Qed.
Example ex_rot_not_singular : is_rotation (rph2R 1 (1 / 2) 2) /\ -1 < vx (r32 (rph2R 1 (1 / 2) 2)) < 1.
Proof. split; [apply rph2R_rotation|]. unfold rph2R, zyx_entries. vunfold. destruct (sin_cubic (1 / 2)); lra. Qed.
Example ex_rv : / 10 ^ 14 <= norm3 (V3 1 0 0) < PI /\ / 10 ^ 14 <= 2 * sin (norm3 (V3 1 0 0)).
Proof. rewrite norm3_x by lra. pose proof PI_301. destruct (sin_cubic 1); lra. Qed.
Example ex_er : / 10 ^ 14 <= norm3 (V3 1 0 0) <= 10 ^ 14.
Proof. rewrite norm3_x by lra. lra. Qed.
Print Assumptions rph2R_R2rph.
Print Assumptions axisAngle2R_quaternion.
Print Assumptions er_recovered_partial.
Print Assumptions rv_recovered_refuted.
