(** C147, C148: distances on the unit sphere of quaternions: turns about axes, exponential and logarithm. *)
From Coq Require Import Reals Psatz Lia.
From Verif Require Import PiBound Float64 LinAlg Kin_Quat_Props Kin_Trans_Model Kin_Trans_Props Kin_Rot_Props Kin_Angle_Props Kin_Interp_Props Kin_Float_Geom Kin_FloatParam_Props Kin_Quat_Model.
Open Scope R_scope.

(** ** angles from their sines and cosines *)
Lemma cos_close x y s : 0 <= x <= PI -> 0 <= y <= PI -> s <= sin x -> s <= sin y -> s * Rabs (x - y) <= Rabs (cos x - cos y).
Proof.
  intros X Y SX SY. destruct (MVT_abs cos (fun c => - sin c) y x) as (c & E & C). { intros c _. apply derivable_pt_lim_cos. }
  rewrite E, Rabs_Ropp. apply Rmult_le_compat_r; [apply Rabs_pos|].
  assert (LC : 0 <= c <= PI). { destruct C as [C1 C2]. unfold Rmin in C1. unfold Rmax in C2. destruct (Rle_dec y x); lra. }
  assert (M : s <= sin c).
  { destruct (Rle_dec c (PI / 2)) as [H|H].
    - apply Rle_trans with (sin (Rmin y x)).
      + unfold Rmin. destruct (Rle_dec y x); assumption.
      + apply sin_incr_1; try lra. all: unfold Rmin in *; destruct (Rle_dec y x); lra.
    - apply Rle_trans with (sin (Rmax y x)).
      + unfold Rmax. destruct (Rle_dec y x); assumption.
      + apply sin_decr_1; try lra. all: unfold Rmax in *; destruct (Rle_dec y x); lra. }
  apply Rle_trans with (1 := M). apply RRle_abs.
Qed.
Lemma sin_close x y s : Rabs x <= PI / 2 -> Rabs y <= PI / 2 -> s <= cos x -> s <= cos y -> s * Rabs (x - y) <= Rabs (sin x - sin y).
Proof.
  intros X Y CX CY. apply Rabs_le_inv in X, Y. pose proof (cos_close (PI / 2 - x) (PI / 2 - y) s) as K. rewrite !cos_shift, !sin_shift in K.
  replace (PI / 2 - x - (PI / 2 - y)) with (- (x - y)) in K by ring. rewrite Rabs_Ropp in K. apply K; lra.
Qed.

(** ** the sphere *)
(** half of the angle of the turn is a *)
Definition qv (e : vec3) (a : R) : vec4 := cons4 (scale3 (sin a) e) (cos a).
Lemma qv_turn e a : qv e a = turn_quat e (2 * a). Proof. unfold qv, turn_quat. replace (2 * a / 2) with a by field. reflexivity. Qed.
Lemma qv_unit e a : unit3 e -> unit4 (qv e a). Proof. rewrite qv_turn. apply turn_unit. Qed.
Lemma qv_dist e f a b : unit3 e -> unit3 f ->
  dot4 (sub4 (qv e a) (qv f b)) (sub4 (qv e a) (qv f b)) = 2 * (1 - cos (a - b)) + 2 * (sin a * sin b * (1 - dot3 e f)).
Proof.
  unfold unit3, qv. intros E F. rewrite cos_minus. pose proof (sc1 a) as SA. pose proof (sc1 b) as SB. set (sa := sin a) in *. set (sb := sin b) in *. set (ca := cos a) in *. set (cb := cos b) in *. clearbody sa sb ca cb.
  replace (dot4 _ _) with (sa * sa * dot3 e e + sb * sb * dot3 f f - 2 * (sa * sb * dot3 e f) + (ca - cb) * (ca - cb)) by (destruct e, f; vring).
  rewrite E, F. transitivity ((sa * sa + ca * ca) + (sb * sb + cb * cb) - 2 * (sa * sb * dot3 e f) - 2 * (ca * cb)); [ring|]. rewrite SA, SB. ring.
Qed.
Lemma dot3_le_1 e f : unit3 e -> unit3 f -> -1 <= dot3 e f <= 1.
Proof.
  unfold unit3. intros E F. apply Rabs_le_inv. pose proof (cauchy3 e f) as C. unfold norm3 in C. rewrite E, F, sqrt_1, Rmult_1_l in C. exact C.
Qed.
Lemma cos_ge x : 1 - x * x / 2 <= cos x.
Proof.
  replace (cos x) with (1 - 2 * (sin (x / 2) * sin (x / 2))) by (rewrite <- Rmult_assoc, <- cos_2a_sin; f_equal; field).
  assert (H : sin (x / 2) * sin (x / 2) <= x / 2 * (x / 2)); [|lra]. apply (Rsqr_le_abs_1 (sin (x / 2)) (x / 2)), sin_abs.
Qed.
(** the exponential shortens distances *)
Lemma qv_lipschitz e f a b : unit3 e -> unit3 f -> 0 <= a -> 0 <= b -> dist4 (qv e a) (qv f b) <= dist3 (scale3 a e) (scale3 b f).
Proof.
  intros E F A B. unfold dist4, dist3. apply Rsq_le'; [apply norm3_pos|]. rewrite norm4_sq, norm3_sq, qv_dist by assumption.
  replace (dot3 (sub3 (scale3 a e) (scale3 b f)) (sub3 (scale3 a e) (scale3 b f))) with (a * a * dot3 e e + b * b * dot3 f f - 2 * (a * b * dot3 e f)) by vring.
  rewrite E, F. pose proof (dot3_le_1 e f E F) as D. pose proof (cos_ge (a - b)) as C.
  assert (S : sin a * sin b <= a * b).
  { apply Rle_trans with (1 := RRle_abs _). rewrite Rabs_mult. pose proof (sin_abs a) as SA. pose proof (sin_abs b) as SB. rewrite (Rabs_pos_eq a A) in SA; rewrite (Rabs_pos_eq b B) in SB.
    apply Rmult_le_compat; auto using Rabs_pos. }
  assert (K : sin a * sin b * (1 - dot3 e f) <= a * b * (1 - dot3 e f)) by (apply Rmult_le_compat_r; lra). lra.
Qed.
(** points at the fraction t of two arcs from the identity, neither much longer than a quarter circle, are no further apart than their ends (times 1001/1000) *)
Definition quarter (p : R) : Prop := 0 <= p <= PI / 2 + 1 / 100.
Lemma sin_fraction p t : quarter p -> 0 <= t <= 1 -> 0 <= sin (t * p) <= 1001 / 1000 * sin p.
Proof.
  intros [P0 P1] T. pose proof PI2_1 as P21. pose proof PI_decimal as PD. assert (TP : 0 <= t * p <= p) by (split; [apply Rmult_le_pos; lra|rewrite <- (Rmult_1_l p) at 2; apply Rmult_le_compat_r; lra]).
  split; [apply sin_ge_0; lra|]. destruct (Rle_dec p (PI / 2)) as [H|H].
  - assert (sin (t * p) <= sin p) by (apply sin_incr_1; lra). assert (0 <= sin p) by (apply sin_ge_0; lra). lra.
  - assert (S : 9999 / 10000 <= sin p). { rewrite <- cos_shift. pose proof (cos_ge (PI / 2 - p)) as C. assert (Q : (PI / 2 - p) * (PI / 2 - p) <= 1 / 100 * (1 / 100)) by (apply Rsqr_le_abs_1 with (x := PI / 2 - p); rewrite (Rabs_pos_eq (1 / 100)) by lra; apply Rabs_le; lra). lra. }
    pose proof (SIN_bound (t * p)). lra.
Qed.
Lemma cos_fraction x t : Rabs x <= PI -> 0 <= t <= 1 -> cos x <= cos (t * x).
Proof.
  intros X T. rewrite <- (cos_Rabs x), <- (cos_Rabs (t * x)), Rabs_mult, (Rabs_pos_eq t) by lra. pose proof (Rabs_pos x) as P.
  assert (t * Rabs x <= 1 * Rabs x) by (apply Rmult_le_compat_r; lra). assert (0 <= t * Rabs x) by (apply Rmult_le_pos; lra). apply cos_decr_1; lra.
Qed.
Lemma slerp_lipschitz e f p q t : unit3 e -> unit3 f -> quarter p -> quarter q -> 0 <= t <= 1 ->
  dist4 (qv e (t * p)) (qv f (t * q)) <= 1001 / 1000 * dist4 (qv e p) (qv f q).
Proof.
  intros E F P Q T. pose proof PI_decimal as PD. unfold dist4. apply Rsq_le'; [pose proof (norm4_pos (sub4 (qv e p) (qv f q))); lra|].
  replace (1001 / 1000 * norm4 (sub4 (qv e p) (qv f q)) * (1001 / 1000 * norm4 (sub4 (qv e p) (qv f q)))) with (1001 / 1000 * (1001 / 1000) * (norm4 (sub4 (qv e p) (qv f q)) * norm4 (sub4 (qv e p) (qv f q)))) by ring.
  rewrite !norm4_sq, !qv_dist by assumption. pose proof (dot3_le_1 e f E F) as D. destruct (sin_fraction p t P T) as [A0 A1]. destruct (sin_fraction q t Q T) as [B0 B1].
  assert (C : cos (p - q) <= cos (t * p - t * q)). { rewrite <- Rmult_minus_distr_l. apply cos_fraction; [|exact T]. destruct P, Q. apply Rabs_le. lra. }
  pose proof (COS_bound (p - q)) as CB.
  assert (S : sin (t * p) * sin (t * q) <= 1001 / 1000 * (1001 / 1000) * (sin p * sin q)).
  { apply Rle_trans with (1001 / 1000 * sin p * (1001 / 1000 * sin q)); [apply Rmult_le_compat; assumption|]. apply Req_le. ring. }
  assert (K : sin (t * p) * sin (t * q) * (1 - dot3 e f) <= 1001 / 1000 * (1001 / 1000) * (sin p * sin q) * (1 - dot3 e f)) by (apply Rmult_le_compat_r; lra).
  set (X := sin p * sin q * (1 - dot3 e f)) in *. replace (1001 / 1000 * (1001 / 1000) * (sin p * sin q) * (1 - dot3 e f)) with (1001 / 1000 * (1001 / 1000) * X) in K by (unfold X; ring).
  lra.
Qed.
(** along one arc *)
Lemma qv_along e a b : unit3 e -> dist4 (qv e a) (qv e b) <= Rabs (a - b).
Proof.
  intros E. unfold dist4. apply Rsq_le'; [apply Rabs_pos|]. rewrite norm4_sq, qv_dist by assumption. unfold unit3 in E. rewrite E. pose proof (cos_ge (a - b)) as C.
  rewrite <- Rabs_mult, Rabs_pos_eq by apply Rle_0_sqr. lra.
Qed.

(** ** every unit quaternion is a turn about an axis by at most a full circle *)
Lemma unit_is_qv q : unit4 q -> exists e p, unit3 e /\ 0 <= p <= PI /\ q = qv e p.
Proof.
  intros U. pose proof (unit4_parts q U) as Q. set (n := norm3 (head3 q)) in *. pose proof (norm3_pos (head3 q) : 0 <= n) as N0.
  assert (B : -1 <= e3 q <= 1) by (apply Rabs_le_inv, Rsq_le; [lra|nra]). pose proof (acos_bound (e3 q)) as AB. pose proof (cos_acos (e3 q) B) as CA.
  assert (SA : sin (acos (e3 q)) = n).
  { assert (S0 : 0 <= sin (acos (e3 q))) by (apply sin_ge_0; lra). pose proof (sc1 (acos (e3 q))) as S. rewrite CA in S. apply Rsqr_inj; auto. unfold Rsqr. lra. }
  destruct (Req_dec n 0) as [Z|Z].
  - exists (V3 1 0 0), (acos (e3 q)). split; [unfold unit3; vring|]. split; [lra|]. unfold qv. rewrite SA, CA, Z. destruct (comp3 (head3 q)) as (X & Y & W). fold n in X, Y, W. rewrite Z in X, Y, W.
    assert (A0 : forall x, Rabs x <= 0 -> x = 0) by (intros x H; apply Rabs_le_inv in H; lra). destruct q as [a b c d]. unfold head3 in *. cbn [e0 e1 e2 e3 vx vy vz] in *. apply A0 in X, Y, W. subst. clear. vring.
  - exists (scale3 (1 / n) (head3 q)), (acos (e3 q)). split.
    + unfold unit3. replace (dot3 (scale3 (1 / n) (head3 q)) (scale3 (1 / n) (head3 q))) with (1 / n * (1 / n) * dot3 (head3 q) (head3 q)) by (clear; vring). rewrite <- norm3_sq. fold n. field. exact Z.
    + split; [lra|]. unfold qv. rewrite SA, CA, scale3_scale. replace (n * (1 / n)) with 1 by (field; exact Z). destruct q. clear. vring.
Qed.
Lemma rotation_quaternion_qv v q : rotation_quaternion v q -> exists e, unit3 e /\ v = scale3 (norm3 v) e /\ q = qv e (norm3 v / 2).
Proof.
  intros [[-> ->] | [N ->]].
  - exists (V3 1 0 0). rewrite norm3_0. split; [unfold unit3; vring|]. split; [unfold zero3; vring|]. unfold qv. replace (0 / 2) with 0 by field. rewrite sin_0, cos_0. unfold quatIdentity. vring.
  - set (n := norm3 v) in *. exists (scale3 (1 / n) v). split; [|split].
    + unfold unit3. replace (dot3 (scale3 (1 / n) v) (scale3 (1 / n) v)) with (1 / n * (1 / n) * dot3 v v) by (clear; vring). rewrite <- norm3_sq. fold n. field. lra.
    + rewrite scale3_scale. replace (n * (1 / n)) with 1 by (field; lra). destruct v. clear. vring.
    + unfold qv. rewrite scale3_scale. unfold Rdiv. rewrite Rmult_1_l. destruct v. clear. vring.
Qed.
Lemma qv_rotation_quaternion e a : unit3 e -> 0 <= a -> rotation_quaternion (scale3 (2 * a) e) (qv e a).
Proof.
  intros E A. destruct (Req_dec a 0) as [-> | N].
  - left. rewrite Rmult_0_r. split; [unfold zero3; vring|]. unfold qv. rewrite sin_0, cos_0. unfold quatIdentity. vring.
  - right. assert (NN : norm3 (scale3 (2 * a) e) = 2 * a). { rewrite norm3_scale_abs, Rabs_pos_eq by lra. unfold norm3. unfold unit3 in E. rewrite E, sqrt_1. ring. }
    rewrite NN. split; [lra|]. replace (2 * a / 2) with a by field. unfold qv. destruct e as [x y z]. unfold cons4, scale3. cbn [vx vy vz]. f_equal; field; exact N.
Qed.
Lemma exp_lipschitz v w E F : rotation_quaternion v E -> rotation_quaternion w F -> dist4 E F <= dist3 v w / 2.
Proof.
  intros A B. destruct (rotation_quaternion_qv _ _ A) as (e & UE & EV & ->). destruct (rotation_quaternion_qv _ _ B) as (f & UF & EW & ->).
  pose proof (norm3_pos v) as V0. pose proof (norm3_pos w) as W0. pose proof (qv_lipschitz e f (norm3 v / 2) (norm3 w / 2) UE UF ltac:(lra) ltac:(lra)) as L. apply Rle_trans with (1 := L). apply Req_le.
  rewrite EV at 2. rewrite EW at 2. unfold dist3.
  replace (sub3 (scale3 (norm3 v / 2) e) (scale3 (norm3 w / 2) f)) with (scale3 (1 / 2) (sub3 (scale3 (norm3 v) e) (scale3 (norm3 w) f))) by (generalize (norm3 v) (norm3 w); intros; vunfold; veq; field).
  rewrite norm3_scale_abs, Rabs_pos_eq by lra. lra.
Qed.
