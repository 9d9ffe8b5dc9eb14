(** C140: parameters read off rotation matrices in binary64. *)
From Coq Require Import Reals Psatz List Permutation Lia.
From Verif Require GTest_Props.
From Verif Require Import PiBound Float64 Nsec_Proofs TimerTable_Num Round_Proofs Kin_Angle_Props Kin_Float_Model Kin_FloatExp_Model Kin_FloatR_Model Kin_FloatMat_Model Kin_FloatParam_Model.
From Verif Require Import LinAlg Kin_Quat_Props Kin_Trans_Model Kin_Trans_Props Kin_Rot_Model Kin_Rot_Props Kin_Float_Geom Kin_Float_Num Kin_Float_Props Kin_Float_Matrix Kin_FloatR_Props Kin_FloatExp_Props Kin_FloatMat_Props Kin_Quat_Model.
Import ListNotations.
Open Scope R_scope.

(** ** what is assumed of the C library (C99 7.12 and Annex F, errors of at most two roundings) *)
(** the doubles nearest to pi and pi/2 (both below) *)
Definition dPI : R := 884279719003555 / 281474976710656.
Definition dPI2 : R := 884279719003555 / 562949953421312.
Definition accurate_on (D : R -> Prop) (f : f64 -> f64) (g : R -> R) : Prop :=
  forall x, is_finite x = true -> (D (B2R x) -> is_finite (f x) = true /\ Rabs (B2R (f x) - g (B2R x)) <= 2 * u * Rabs (g (B2R x)) + eta) /\ (~ D (B2R x) -> is_nan (f x) = true).
Definition lib2_ok (L : lib2) : Prop :=
  lib_ok (base L) /\
  (forall x, is_finite x = true -> Rabs (B2R (m_sin (base L) x)) <= 1) /\
  accurate_on (fun t => -1 <= t <= 1) (m_asin L) asin /\ accurate_on (fun t => -1 <= t <= 1) (m_acos L) acos /\
  (forall x, is_nan x = true -> is_nan (m_tan L x) = true) /\
  (forall y x, is_finite y = true -> is_finite x = true ->
     is_finite (m_atan2 L y x) = true /\
     (B2R y <> 0 \/ 0 < B2R x -> Rabs (B2R (m_atan2 L y x) - atan2 (B2R y) (B2R x)) <= 2 * u * Rabs (atan2 (B2R y) (B2R x)) + eta)).

(** ** pi *)
Lemma dPI_below : / 10 ^ 16 <= PI - dPI <= / 10 ^ 15.
Proof. pose proof PI_decimal. unfold dPI. lra. Qed.
Lemma dPI2_below : 6 / 10 ^ 17 <= PI / 2 - dPI2 <= / 10 ^ 16.
Proof. pose proof PI_decimal. unfold dPI2. lra. Qed.
Lemma sin_low t : 0 <= t <= PI / 2 -> t / 2 <= sin t.
Proof.
  intros [T0 T1]. pose proof PI_decimal as PD. destruct (Rle_dec t 1) as [H|H].
  - destruct (sin_cubic t ltac:(lra)) as [L _]. assert (T2 : t * t <= 1) by nra. assert (t * t * t <= 1 * t) by (apply Rmult_le_compat_r; lra). lra.
  - assert (sin 1 <= sin t) by (apply sin_incr_1; lra). destruct (sin_cubic 1 ltac:(lra)) as [L _]. lra.
Qed.
Lemma cos_Rabs t : cos (Rabs t) = cos t.
Proof. unfold Rabs. destruct (Rcase_abs t); [apply cos_neg|reflexivity]. Qed.
Lemma sin_Rabs t : Rabs (sin (Rabs t)) = Rabs (sin t).
Proof. unfold Rabs at 2. destruct (Rcase_abs t); [rewrite sin_neg; apply Rabs_Ropp|reflexivity]. Qed.
Lemma cos_low t : Rabs t <= dPI2 -> / 36028797018963968 <= cos t <= 1.
Proof.
  intros H. pose proof dPI2_below as D. split; [|apply COS_bound]. rewrite <- (cos_Rabs t), <- sin_shift.
  pose proof (Rabs_pos t) as P. pose proof (sin_low (PI / 2 - Rabs t)) as L. lra.
Qed.
Lemma sin_far t : PI / 2 < Rabs t <= dPI -> 4 / 10 ^ 17 <= Rabs (sin t).
Proof.
  intros [H1 H2]. pose proof dPI_below as D. pose proof PI_decimal as PD. rewrite <- (sin_Rabs t). rewrite <- sin_PI_x. pose proof (sin_low (PI - Rabs t)) as L. 
  apply Rle_trans with (2 := Rle_abs _). lra.
Qed.
(** small angles from their sine *)
Lemma small_angle d k : 0 <= d <= PI / 2 -> sin d <= k -> k <= 1 / 500 -> d <= 1001 / 1000 * k.
Proof.
  intros D S K. pose proof (sin_low d D) as L. assert (D1 : d <= 1 / 250) by lra. destruct (sin_cubic d ltac:(lra)) as [C _].
  assert (d * d <= 1 / 250 * (1 / 250)) by (apply Rmult_le_compat; lra). assert (d * d * d <= 1 / 250 * (1 / 250) * d) by (apply Rmult_le_compat_r; lra). lra.
Qed.

(** ** atan2 of nearly the right arguments *)
Lemma atan2_near r t y x k : 0 < r -> Rabs t <= dPI -> Rabs (y - r * sin t) + Rabs (x - r * cos t) <= k * r -> k <= 1 / 1000 -> (PI / 2 < Rabs t -> 0 < sin t * y) ->
  Rabs (atan2 y x - t) <= 101 / 100 * k /\ (y <> 0 \/ 0 < x).
Proof.
  intros RP T E K SG. pose proof dPI_below as DP. pose proof PI_decimal as PD. set (ey := y - r * sin t) in *. set (ex := x - r * cos t) in *.
  pose proof (sin1 t) as S1. pose proof (cos1 t) as C1. pose proof (sin2_cos2 t) as SC. unfold Rsqr in SC.
  pose proof (Rabs_pos ey) as EY0. pose proof (Rabs_pos ex) as EX0. assert (KP : 0 <= k) by (apply Rmult_le_reg_r with r; lra).
  assert (A1 : forall a, Rabs a <= 1 -> Rabs (ey * a) <= Rabs ey). { intros a A. rewrite Rabs_mult. rewrite <- (Rmult_1_r (Rabs ey)) at 2. apply Rmult_le_compat_l; lra. }
  assert (A2 : forall a, Rabs a <= 1 -> Rabs (ex * a) <= Rabs ex). { intros a A. rewrite Rabs_mult. rewrite <- (Rmult_1_r (Rabs ex)) at 2. apply Rmult_le_compat_l; lra. }
  assert (KR : k * r <= r / 1000). { replace (r / 1000) with (1 / 1000 * r) by field. apply Rmult_le_compat_r; lra. }
  assert (CC : r - k * r <= y * sin t + x * cos t).
  { replace (y * sin t + x * cos t) with (r * (sin t * sin t + cos t * cos t) + ey * sin t + ex * cos t) by (unfold ey, ex; ring). rewrite SC.
    pose proof (Rabs_le_inv _ _ (A1 _ S1)). pose proof (Rabs_le_inv _ _ (A2 _ C1)). lra. }
  assert (SS : Rabs (y * cos t - x * sin t) <= k * r).
  { replace (y * cos t - x * sin t) with (ey * cos t - ex * sin t) by (unfold ey, ex; ring). apply Rle_trans with (1 := Rabs_triang _ (- (ex * sin t))). rewrite Rabs_Ropp. pose proof (A1 _ C1). pose proof (A2 _ S1). lra. }
  assert (NZ : 0 < x * x + y * y).
  { pose proof (Rle_0_sqr x) as X2. pose proof (Rle_0_sqr y) as Y2. unfold Rsqr in *. destruct (Rle_lt_or_eq_dec 0 (x * x + y * y) ltac:(lra)) as [H|H]; [exact H|exfalso].
    assert (x * x = 0) by lra. assert (y * y = 0) by lra. assert (x = 0) by (apply Rsqr_0_uniq; unfold Rsqr; lra). assert (y = 0) by (apply Rsqr_0_uniq; unfold Rsqr; lra). subst x y. lra. }
  destruct (atan2_sincos y x NZ) as (SA & CA & [AL AH]). set (q := sqrt (x * x + y * y)) in *. assert (QP : 0 < q) by now apply sqrt_lt_R0. set (f := atan2 y x) in *.
  assert (SD : q * sin (f - t) = y * cos t - x * sin t) by (rewrite sin_minus, <- SA, <- CA; ring).
  assert (CD : q * cos (f - t) = y * sin t + x * cos t) by (rewrite cos_minus, <- SA, <- CA; ring).
  assert (CP : 0 < cos (f - t)). { apply Rmult_lt_reg_l with q; [exact QP|]. rewrite CD. lra. }
  assert (Q1 : 999 / 1000 * r <= q). { assert (q * cos (f - t) <= q * 1) by (apply Rmult_le_compat_l; [lra|apply COS_bound]). lra. }
  assert (SB : Rabs (sin (f - t)) <= 1002 / 1000 * k).
  { apply Rmult_le_reg_l with q; [exact QP|]. rewrite <- (Rabs_pos_eq q) at 1 by lra. rewrite <- Rabs_mult, SD. apply Rle_trans with (1 := SS). 
    assert (999 / 1000 * r * k <= q * k) by (apply Rmult_le_compat_r; lra). lra. }
  apply Rabs_le_inv in T.
  assert (DB : Rabs (f - t) <= PI / 2).
  { apply Rnot_lt_le. intros Hd. destruct (Rle_dec 0 (f - t)) as [P|P].
    - rewrite Rabs_pos_eq in Hd by lra. destruct (Rle_dec (f - t) (3 * (PI / 2))) as [H3|H3]; [assert (cos (f - t) <= 0) by (apply cos_le_0; lra); lra|].
      assert (tt : - PI < t < - (PI / 2)) by lra. assert (sin t < 0) by (apply sin_lt_0_var; lra). assert (0 <= sin f) by (apply sin_ge_0; lra).
      assert (0 <= y) by (rewrite <- SA; apply Rmult_le_pos; lra). assert (HT : PI / 2 < Rabs t) by (rewrite Rabs_left; lra). specialize (SG HT). assert (0 <= (- sin t) * y) by (apply Rmult_le_pos; lra). lra.
    - rewrite Rabs_left in Hd by lra. destruct (Rle_dec (- (f - t)) (3 * (PI / 2))) as [H3|H3].
      { assert (cos (- (f - t)) <= 0) by (apply cos_le_0; lra). rewrite cos_neg in H. lra. }
      assert (tt : PI / 2 < t < PI) by lra. assert (0 < sin t) by (apply sin_gt_0; lra). assert (sin f < 0) by (apply sin_lt_0_var; lra).
      assert (0 < q * - sin f) by (apply Rmult_lt_0_compat; lra). assert (y < 0) by lra. assert (HT : PI / 2 < Rabs t) by (rewrite Rabs_pos_eq; lra). specialize (SG HT). assert (0 <= sin t * (- y)) by (apply Rmult_le_pos; lra). lra. }
  split.
  - apply Rle_trans with (1001 / 1000 * (1002 / 1000 * k)); [|lra]. apply small_angle; [split; [apply Rabs_pos|exact DB]| |lra].
    pose proof (Rabs_pos (f - t)) as P. rewrite <- (Rabs_pos_eq (sin (Rabs (f - t)))); [now rewrite sin_Rabs|apply sin_ge_0; lra].
  - destruct (Req_dec y 0) as [Y|Y]; [right|now left]. rewrite Y in CC, SG. apply Rnot_le_lt. intros X.
    assert (PI / 2 < Rabs t).
    { apply Rnot_le_lt. intros Ht. assert (0 <= cos t) by (apply cos_ge_0; apply Rabs_le_inv in Ht; lra). assert (0 <= (- x) * cos t) by (apply Rmult_le_pos; lra). lra. }
    specialize (SG H). lra.
Qed.

(** ** the products in the matrices *)
Lemma lib_err f g x : accurate f g -> is_finite x = true -> is_finite (f x) = true /\ Rabs (B2R (f x) - g (B2R x)) <= 2 * u * Rabs (g (B2R x)) + eta.
Proof. intros A F. exact (A x F). Qed.
Lemma product_err a b x y : is_finite a = true -> is_finite b = true -> Rabs (B2R a - x) <= 2 * u * Rabs x + eta -> Rabs (B2R b - y) <= 2 * u * Rabs y + eta ->
  / 36028797018963968 <= x <= 1 -> Rabs y <= 1 -> forall c, c = fmul a b \/ c = fmul b a \/ (exists b0, is_finite b0 = true /\ b = fneg b0 /\ c = fmul (fneg a) b0) ->
  is_finite c = true /\ Rabs (B2R c - x * y) <= (501 / 100 * Rabs y + / 1000) * (u * x).
Proof.
  intros FA FB EA EB [X0 X1] Y1 c CE. pose proof u53_pos as UP. pose proof u_val as UV. pose proof eta_pos as EP. pose proof (Rabs_pos y) as Y0. rewrite (Rabs_pos_eq x) in EA by lra.
  assert (ET : eta <= u * x / 100000).
  { apply Rle_trans with (u * / 36028797018963968 / 100000).
    - apply Rle_trans with (bpow radix2 (-200)); [apply bpow_le; lia|]. rewrite UV. replace (bpow radix2 (-200)) with (/ 1606938044258990275541962092341162602522202993782792835301376) by (cbn; lra). lra.
    - assert (u * / 36028797018963968 <= u * x) by (apply Rmult_le_compat_l; lra). lra. }
  set (ux := u * x) in *. assert (UX : 0 < ux <= u) by (unfold ux; split; [apply Rmult_lt_0_compat; lra|rewrite <- (Rmult_1_r u) at 2; apply Rmult_le_compat_l; lra]).
  assert (EB' : Rabs (B2R b) <= 1001 / 1000 * Rabs y + eta).
  { replace (B2R b) with ((B2R b - y) + y) by ring. apply Rle_trans with (1 := Rabs_triang _ _). assert (u * Rabs y <= / 10000 * Rabs y) by (apply Rmult_le_compat_r; lra). lra. }
  assert (UY : u * Rabs y <= u * 1) by (apply Rmult_le_compat_l; lra).
  assert (D : Rabs (B2R a * B2R b - x * y) <= (4004 / 1000 * Rabs y + / 10000) * ux).
  { replace (B2R a * B2R b - x * y) with ((B2R a - x) * B2R b + x * (B2R b - y)) by ring. apply Rle_trans with (1 := Rabs_triang _ _). rewrite !Rabs_mult, (Rabs_pos_eq x) by lra.
    assert (P1 : Rabs (B2R a - x) * Rabs (B2R b) <= (2001 / 1000 * ux) * (1001 / 1000 * Rabs y + eta)) by (apply Rmult_le_compat; auto using Rabs_pos; unfold ux in *; lra).
    assert (P2 : x * Rabs (B2R b - y) <= x * (2 * u * Rabs y + eta)) by (apply Rmult_le_compat_l; lra).
    assert (P3 : ux * eta <= ux * / 100000) by (apply Rmult_le_compat_l; [lra|unfold ux in *; lra]).
    assert (P4 : x * eta <= 1 * eta) by (apply Rmult_le_compat_r; lra).
    assert (P5 : 0 <= ux * Rabs y) by (apply Rmult_le_pos; lra). replace (x * (2 * u * Rabs y + eta)) with (2 * (ux * Rabs y) + x * eta) in P2 by (unfold ux; ring). lra. }
  assert (XY : Rabs (x * y) <= 1) by (apply prod1; [rewrite Rabs_pos_eq; lra|lra]).
  assert (P6 : ux * Rabs y <= ux * 1) by (apply Rmult_le_compat_l; lra).
  assert (B8 : Rabs (B2R a * B2R b) <= 2). { replace (B2R a * B2R b) with ((B2R a * B2R b - x * y) + x * y) by ring. apply Rle_trans with (1 := Rabs_triang _ _). lra. }
  assert (EF : B2R c = rnd (B2R a * B2R b) /\ is_finite c = true).
  { destruct CE as [-> | [-> | (b0 & F0 & -> & ->)]]; [apply (fmul_rnd a b 3); auto; [lia|rewrite <- room8; lra]| |].
    - rewrite (Rmult_comm (B2R a)). apply (fmul_rnd b a 3); auto; [lia|rewrite <- room8, Rmult_comm; lra].
    - destruct (fneg_val a FA) as [FN VN]. destruct (fneg_val b0 F0) as [_ V0]. replace (B2R a * B2R (fneg b0)) with (B2R (fneg a) * B2R b0) in * by (rewrite VN, V0; ring).
      apply (fmul_rnd (fneg a) b0 3); auto; [lia|rewrite <- room8; lra]. }
  destruct EF as [E F]. split; [exact F|]. rewrite E.
  pose proof (rnd_err (B2R a * B2R b)) as RE.
  assert (MB : Rabs (B2R a * B2R b) <= x * Rabs y + (4004 / 1000 * Rabs y + / 10000) * ux).
  { replace (B2R a * B2R b) with ((B2R a * B2R b - x * y) + x * y) by ring. apply Rle_trans with (1 := Rabs_triang _ _). rewrite (Rabs_mult x y), (Rabs_pos_eq x) by lra. lra. }
  assert (MU : u * Rabs (B2R a * B2R b) <= u * (x * Rabs y + (4004 / 1000 * Rabs y + / 10000) * ux)) by (apply Rmult_le_compat_l; lra).
  assert (P7 : 0 <= Rabs y * ux) by (apply Rmult_le_pos; lra). assert (U6 : u <= / 10 ^ 6) by (rewrite UV; lra).
  assert (M2 : u * (4004 / 1000 * (Rabs y * ux) + / 10000 * ux) <= / 10 ^ 6 * (4004 / 1000 * (Rabs y * ux) + / 10000 * ux)) by (apply Rmult_le_compat_r; lra).
  replace (rnd (B2R a * B2R b) - x * y) with ((rnd (B2R a * B2R b) - B2R a * B2R b) + (B2R a * B2R b - x * y)) by ring. apply Rle_trans with (1 := Rabs_triang _ _).
  replace (u * (x * Rabs y + (4004 / 1000 * Rabs y + / 10000) * ux)) with (ux * Rabs y + u * (4004 / 1000 * (Rabs y * ux) + / 10000 * ux)) in MU by (unfold ux; ring).
  lra.
Qed.
Lemma sin_plus_cos t : Rabs (sin t) + Rabs (cos t) <= 14143 / 10000.
Proof.
  pose proof (sin2_cos2 t) as H. unfold Rsqr in H. apply Rsqr_incr_0_var; [|lra]. unfold Rsqr. pose proof (Rabs_pos (sin t)). pose proof (Rabs_pos (cos t)).
  assert (Rabs (sin t) * Rabs (sin t) + Rabs (cos t) * Rabs (cos t) = 1) by (rewrite <- !Rabs_mult, !Rabs_pos_eq; [exact H|nra|nra]).
  pose proof (Rle_0_sqr (Rabs (sin t) - Rabs (cos t))) as Q. unfold Rsqr in Q. lra.
Qed.
(** an angle read off two products *)
Lemma angle_recovered L r t fs fc : lib2_ok L -> / 36028797018963968 <= r <= 1 -> Rabs t <= dPI -> is_finite fs = true -> is_finite fc = true ->
  Rabs (B2R fs - r * sin t) <= (501 / 100 * Rabs (sin t) + / 1000) * (u * r) -> Rabs (B2R fc - r * cos t) <= (501 / 100 * Rabs (cos t) + / 1000) * (u * r) ->
  is_finite (m_atan2 L fs fc) = true /\ Rabs (B2R (m_atan2 L fs fc) - t) <= 14 * u.
Proof.
  intros (_ & _ & _ & _ & _ & A2) [R0 R1] T FS FC ES EC. pose proof u53_pos as UP. pose proof u_val as UV. destruct (A2 fs fc FS FC) as (F & ACC). split; [exact F|].
  assert (UR : 0 <= u * r) by (apply Rmult_le_pos; lra). pose proof (sin_plus_cos t) as SC.
  assert (SUM : (501 / 100 * (Rabs (sin t) + Rabs (cos t)) + 2 / 1000) * (u * r) <= (501 / 100 * (14143 / 10000) + 2 / 1000) * (u * r)) by (apply Rmult_le_compat_r; lra).
  destruct (atan2_near r t (B2R fs) (B2R fc) (71 / 10 * u)) as [N OR]; [lra|exact T|lra|rewrite UV; lra| |].
  { intros HT. pose proof (sin_far t (conj HT T)) as SF.
    assert (UU : u * (501 / 100 * Rabs (sin t) + / 1000) < Rabs (sin t)) by (rewrite UV; lra).
    assert (UU' : (501 / 100 * Rabs (sin t) + / 1000) * (u * r) < r * Rabs (sin t)) by (replace ((501 / 100 * Rabs (sin t) + / 1000) * (u * r)) with (r * (u * (501 / 100 * Rabs (sin t) + / 1000))) by ring; apply Rmult_lt_compat_l; lra).
    destruct (Rle_dec 0 (sin t)) as [P|P].
    - rewrite (Rabs_pos_eq (sin t)) in * by lra. apply Rabs_le_inv in ES. apply Rmult_lt_0_compat; lra.
    - rewrite (Rabs_left (sin t)) in * by lra. apply Rabs_le_inv in ES. replace (sin t * B2R fs) with ((- sin t) * (- B2R fs)) by ring. apply Rmult_lt_0_compat; lra. }
  specialize (ACC OR). pose proof dPI_below as DP. pose proof PI_decimal as PD. pose proof eta_small as EE.
  assert (AB : Rabs (atan2 (B2R fs) (B2R fc)) <= 315 / 100).
  { apply Rabs_le_inv in N, T. apply Rabs_le. rewrite UV in N. lra. }
  assert (AU : u * Rabs (atan2 (B2R fs) (B2R fc)) <= u * (315 / 100)) by (apply Rmult_le_compat_l; lra).
  replace (B2R (m_atan2 L fs fc) - t) with ((B2R (m_atan2 L fs fc) - atan2 (B2R fs) (B2R fc)) + (atan2 (B2R fs) (B2R fc) - t)) by ring. apply Rle_trans with (1 := Rabs_triang _ _). lra.
Qed.
(** ** asin of nearly the right argument *)
Lemma arcs_from_sines a b d : Rabs a <= PI / 2 -> Rabs b <= PI / 2 -> Rabs (sin a - sin b) <= d -> 2 * (sin (Rabs (a - b) / 2) * sin (Rabs (a - b) / 2)) <= d /\
  2 * cos ((a + b) / 2) * sin (Rabs (a - b) / 2) <= d.
Proof.
  intros A B H. pose proof PI_RGT_0 as PP. rewrite form4 in H. set (h := Rabs (a - b) / 2).
  assert (HB : 0 <= h <= PI / 2). { unfold h. pose proof (Rabs_pos (a - b)). assert (Rabs (a - b) <= Rabs a + Rabs b) by (unfold Rminus; rewrite <- (Rabs_Ropp b); apply Rabs_triang). lra. }
  assert (SH : 0 <= sin h) by (apply sin_ge_0; lra).
  assert (SE : Rabs (sin ((a - b) / 2)) = sin h).
  { rewrite <- (Rabs_pos_eq (sin h)) by exact SH. replace h with (Rabs ((a - b) / 2)) by (unfold h, Rdiv; rewrite Rabs_mult, (Rabs_pos_eq (/ 2)) by lra; reflexivity). symmetry. apply sin_Rabs. }
  assert (CH : sin h <= cos ((a + b) / 2)).
  { rewrite <- (cos_Rabs ((a + b) / 2)), <- cos_shift. assert (Rabs ((a + b) / 2) <= PI / 2 - h).
    { unfold h. apply Rabs_le_inv in A, B. unfold Rabs at 2. destruct (Rcase_abs (a - b)); apply Rabs_le; lra. }
    apply cos_decr_1; pose proof (Rabs_pos ((a + b) / 2)); lra. }
  rewrite !Rabs_mult, SE, (Rabs_pos_eq 2), (Rabs_pos_eq (cos ((a + b) / 2))) in H by lra. fold h. split; [|exact H].
  assert (sin h * sin h <= cos ((a + b) / 2) * sin h) by (apply Rmult_le_compat_r; lra). lra.
Qed.
Lemma pitch_recovered L t s : lib2_ok L -> Rabs t <= dPI2 -> is_finite s = true -> Rabs (B2R s) <= 1 -> Rabs (B2R s - sin t) <= 2 * u * Rabs (sin t) + eta ->
  is_finite (m_asin L s) = true /\ Rabs (B2R (m_asin L s) - t) <= 22 / 10 ^ 9 /\ (/ 10 ^ 6 <= cos t -> Rabs (B2R (m_asin L s) - t) <= (21 / 10 / cos t + 32 / 10) * u).
Proof.
  intros (_ & _ & AS & _) T F S1 E. pose proof u53_pos as UP. pose proof u_val as UV. pose proof eta_small as ES. apply Rabs_le_inv in S1. destruct (proj1 (AS s F) S1) as [FA EA]. split; [exact FA|].
  pose proof dPI2_below as DP. pose proof PI_decimal as PD. pose proof (asin_bound (B2R s)) as AB. set (a := asin (B2R s)) in *. assert (SA : sin a = B2R s) by (apply sin_asin; exact S1).
  assert (SU : u * Rabs (sin t) <= u * 1) by (apply Rmult_le_compat_l; [lra|apply sin1]).
  assert (A1 : Rabs a <= PI / 2) by (apply Rabs_le; lra). assert (T1 : Rabs t <= PI / 2) by lra.
  destruct (arcs_from_sines a t (201 / 100 * u) A1 T1 ltac:(rewrite SA; lra)) as [Q1 Q2]. set (h := Rabs (a - t) / 2) in *.
  assert (HB : 0 <= h <= PI / 2). { unfold h. pose proof (Rabs_pos (a - t)). assert (Rabs (a - t) <= Rabs a + Rabs t) by (unfold Rminus; rewrite <- (Rabs_Ropp t); apply Rabs_triang). lra. }
  assert (SH : 0 <= sin h) by (apply sin_ge_0; lra).
  assert (H8 : sin h <= 1057 / 10 ^ 11). { apply Rsqr_incr_0_var; [|lra]. unfold Rsqr. rewrite UV in Q1. lra. }
  pose proof (small_angle h _ HB H8 ltac:(lra)) as HS.
  assert (AU : u * Rabs a <= u * (1571 / 1000)) by (apply Rmult_le_compat_l; lra).
  assert (TOT : Rabs (B2R (m_asin L s) - t) <= 2 * h + 315 / 100 * u).
  { replace (B2R (m_asin L s) - t) with ((B2R (m_asin L s) - a) + (a - t)) by ring. apply Rle_trans with (1 := Rabs_triang _ _). unfold h. lra. }
  split; [rewrite UV in TOT; lra|]. intros C6.
  assert (CM : 98 / 100 * cos t <= cos ((a + t) / 2)).
  { pose proof (cos_dist ((a + t) / 2) t) as D. replace ((a + t) / 2 - t) with ((a - t) * / 2) in D by field. rewrite Rabs_mult, (Rabs_pos_eq (/ 2)) in D by lra. apply Rabs_le_inv in D. unfold h in HS. lra. }
  assert (Q3 : 98 / 100 * cos t * sin h <= cos ((a + t) / 2) * sin h) by (apply Rmult_le_compat_r; lra).
  assert (SB : sin h <= 103 / 100 * (u / cos t)).
  { apply Rmult_le_reg_l with (cos t); [lra|]. replace (cos t * (103 / 100 * (u / cos t))) with (103 / 100 * u) by (field; lra). lra. }
  destruct (Rle_dec (103 / 100 * (u / cos t)) (1 / 500)) as [K|K].
  - pose proof (small_angle h _ HB SB K) as HT. replace ((21 / 10 / cos t + 32 / 10) * u) with (21 / 10 * (u / cos t) + 32 / 10 * u) by (field; lra).
    assert (0 <= u / cos t) by (apply Rmult_le_pos; [lra|left; apply Rinv_0_lt_compat; lra]). lra.
  - exfalso. apply K. assert (u / cos t <= u / (/ 10 ^ 6)) by (apply Rmult_le_compat_l; [lra|apply Rinv_le; lra]). rewrite UV in *. lra.
Qed.

(** ** from the angles to the matrix and back *)
Definition in_range (p : F3) : Prop := finite3 p /\ Rabs (B2R (fx p)) <= dPI /\ Rabs (B2R (fy p)) <= dPI2 /\ Rabs (B2R (fz p)) <= dPI.
Definition recovered (p q : F3) : Prop :=
  finite3 q /\ Rabs (B2R (fx q) - B2R (fx p)) <= 14 * u /\ Rabs (B2R (fz q) - B2R (fz p)) <= 14 * u /\ Rabs (B2R (fy q) - B2R (fy p)) <= 22 / 10 ^ 9 /\
  (/ 10 ^ 6 <= cos (B2R (fy p)) -> Rabs (B2R (fy q) - B2R (fy p)) <= (21 / 10 / cos (B2R (fy p)) + 32 / 10) * u).
Lemma neg_close (x : f64) (a b : R) : is_finite x = true -> Rabs (B2R x - a) <= b -> is_finite (fneg x) = true /\ Rabs (B2R (fneg x) - - a) <= b.
Proof. intros F H. destruct (fneg_val x F) as [FN V]. split; [exact FN|]. rewrite V. replace (- B2R x - - a) with (- (B2R x - a)) by ring. now rewrite Rabs_Ropp. Qed.
Lemma zyx_read L (x y z : f64) : lib2_ok L -> is_finite x = true -> is_finite y = true -> is_finite z = true -> Rabs (B2R x) <= dPI -> Rabs (B2R y) <= dPI2 -> Rabs (B2R z) <= dPI ->
  let M := fzyx_entries (m_cos (base L) x) (m_sin (base L) x) (m_cos (base L) y) (m_sin (base L) y) (m_cos (base L) z) (m_sin (base L) z) in
  (is_finite (fent M 2 0) = true /\ Rabs (B2R (fent M 2 0)) <= 1 /\ Rabs (B2R (fent M 2 0) - sin (- B2R y)) <= 2 * u * Rabs (sin (- B2R y)) + eta) /\
  (exists r, / 36028797018963968 <= r <= 1 /\
    (is_finite (fent M 2 1) = true /\ Rabs (B2R (fent M 2 1) - r * sin (B2R x)) <= (501 / 100 * Rabs (sin (B2R x)) + / 1000) * (u * r)) /\
    (is_finite (fent M 2 2) = true /\ Rabs (B2R (fent M 2 2) - r * cos (B2R x)) <= (501 / 100 * Rabs (cos (B2R x)) + / 1000) * (u * r)) /\
    (is_finite (fent M 1 0) = true /\ Rabs (B2R (fent M 1 0) - r * sin (B2R z)) <= (501 / 100 * Rabs (sin (B2R z)) + / 1000) * (u * r)) /\
    (is_finite (fent M 0 0) = true /\ Rabs (B2R (fent M 0 0) - r * cos (B2R z)) <= (501 / 100 * Rabs (cos (B2R z)) + / 1000) * (u * r))).
Proof.
  intros OK FX FY FZ BX BY BZ M. destruct OK as ((SO & CO & _) & S1 & _). subst M. unfold fzyx_entries, fm3, fent. cbn [fat3 fr0 fr1 fr2 fx fy fz].
  destruct (lib_err _ _ y SO FY) as [Fs Es]. destruct (lib_err _ _ y CO FY) as [Fc Ec]. pose proof (cos_low _ BY) as CL.
  destruct (lib_err _ _ x SO FX) as [Fsx Esx]. destruct (lib_err _ _ x CO FX) as [Fcx Ecx]. destruct (lib_err _ _ z SO FZ) as [Fsz Esz]. destruct (lib_err _ _ z CO FZ) as [Fcz Ecz]. split.
  - rewrite sin_neg, Rabs_Ropp. destruct (neg_close _ _ _ Fs Es) as [FN EN]. split; [exact FN|split; [|exact EN]]. destruct (fneg_val _ Fs) as [_ V]. rewrite V, Rabs_Ropp. now apply S1.
  - exists (cos (B2R y)). split; [exact CL|]. split; [|split; [|split]].
    + apply (product_err _ _ _ _ Fc Fsx Ec Esx CL (sin1 _)). now left.
    + apply (product_err _ _ _ _ Fc Fcx Ec Ecx CL (cos1 _)). now left.
    + apply (product_err _ _ _ _ Fc Fsz Ec Esz CL (sin1 _)). right. now left.
    + apply (product_err _ _ _ _ Fc Fcz Ec Ecz CL (cos1 _)). right. now left.
Qed.
Lemma neg_recovered L r t fs fc : lib2_ok L -> / 36028797018963968 <= r <= 1 -> Rabs t <= dPI -> is_finite fs = true -> is_finite fc = true ->
  Rabs (B2R fs - r * sin (- t)) <= (501 / 100 * Rabs (sin (- t)) + / 1000) * (u * r) -> Rabs (B2R fc - r * cos (- t)) <= (501 / 100 * Rabs (cos (- t)) + / 1000) * (u * r) ->
  (is_finite (fneg (m_atan2 L fs fc)) = true /\ Rabs (B2R (fneg (m_atan2 L fs fc)) - t) <= 14 * u) /\ (is_finite (m_atan2 L (fneg fs) fc) = true /\ Rabs (B2R (m_atan2 L (fneg fs) fc) - t) <= 14 * u).
Proof.
  intros OK RB T FS FC ES EC. split.
  - destruct (angle_recovered L r (- t) fs fc OK RB) as [F E]; try assumption; [now rewrite Rabs_Ropp|]. destruct (neg_close _ _ _ F E) as [FN EN]. rewrite Ropp_involutive in EN. now split.
  - destruct (neg_close _ _ _ FS ES) as [FN EN]. apply (angle_recovered L r t); try assumption.
    + rewrite sin_neg, Rabs_Ropp in EN. replace (- (r * - sin t)) with (r * sin t) in EN by ring. exact EN.
    + rewrite cos_neg in EC. exact EC.
Qed.
Theorem float_euler_round_trip L p : lib2_ok L -> in_range p ->
  recovered p (fR2rph L (frph2R (base L) (fx p) (fy p) (fz p))) /\ recovered p (fC2rph L (frph2C (base L) (fx p) (fy p) (fz p))) /\
  recovered p (fzyx_params L (fzyx_C (base L) p)) /\ recovered p (fypr_params L (fypr_C (base L) p)) /\ recovered p (fzxy_params L (fzxy_C (base L) p)).
Proof.
  intros OK ((FX & FY & FZ) & BX & BY & BZ). destruct (fneg_val _ FX) as [NX VX]. destruct (fneg_val _ FY) as [NY VY]. destruct (fneg_val _ FZ) as [NZ VZ].
  assert (BX' : Rabs (B2R (fneg (fx p))) <= dPI) by (rewrite VX, Rabs_Ropp; exact BX). assert (BY' : Rabs (B2R (fneg (fy p))) <= dPI2) by (rewrite VY, Rabs_Ropp; exact BY).
  assert (BZ' : Rabs (B2R (fneg (fz p))) <= dPI) by (rewrite VZ, Rabs_Ropp; exact BZ).
  assert (PN : forall s t, Rabs t <= dPI2 -> is_finite s = true -> Rabs (B2R s) <= 1 -> Rabs (B2R s - sin (- t)) <= 2 * u * Rabs (sin (- t)) + eta ->
    (is_finite (fneg (m_asin L s)) = true /\ Rabs (B2R (fneg (m_asin L s)) - t) <= 22 / 10 ^ 9 /\ (/ 10 ^ 6 <= cos t -> Rabs (B2R (fneg (m_asin L s)) - t) <= (21 / 10 / cos t + 32 / 10) * u)) /\
    (is_finite (m_asin L (fneg s)) = true /\ Rabs (B2R (m_asin L (fneg s)) - t) <= 22 / 10 ^ 9 /\ (/ 10 ^ 6 <= cos t -> Rabs (B2R (m_asin L (fneg s)) - t) <= (21 / 10 / cos t + 32 / 10) * u))).
  { intros s t T F S1 E. split.
    - destruct (pitch_recovered L (- t) s OK ltac:(now rewrite Rabs_Ropp) F S1 E) as (FA & E1 & E2). destruct (neg_close _ _ _ FA E1) as [FN EN]. rewrite Ropp_involutive in EN. split; [exact FN|split; [exact EN|]].
      intros C. rewrite cos_neg in E2. destruct (neg_close _ _ _ FA (E2 C)) as [_ EN2]. now rewrite Ropp_involutive in EN2.
    - destruct (fneg_val s F) as [FN V]. apply (pitch_recovered L t (fneg s) OK T FN); rewrite V; [now rewrite Rabs_Ropp|].
      rewrite sin_neg, Rabs_Ropp in E. replace (- B2R s - sin t) with (- (B2R s - - sin t)) by ring. now rewrite Rabs_Ropp. }
  refine (conj _ (conj _ (conj _ (conj _ _)))).
  - destruct (zyx_read L (fx p) (fy p) (fz p) OK FX FY FZ BX BY BZ) as [(F0 & A0 & E0) (r & RB & (F1 & E1) & (F2 & E2) & (F3 & E3) & (F4 & E4))]. 
    fold (frph2R (base L) (fx p) (fy p) (fz p)) in *. set (M := frph2R _ _ _ _) in *. clearbody M. unfold recovered, fR2rph, finite3. cbn [fx fy fz].
    destruct (angle_recovered L r _ _ _ OK RB BX F1 F2 E1 E2) as [G1 H1]. destruct (angle_recovered L r _ _ _ OK RB BZ F3 F4 E3 E4) as [G2 H2]. destruct (PN _ _ BY F0 A0 E0) as [(G3 & H3 & H4) _]. auto 8.
  - destruct (zyx_read L (fneg (fx p)) (fneg (fy p)) (fneg (fz p)) OK NX NY NZ BX' BY' BZ') as [(F0 & A0 & E0) (r & RB & (F1 & E1) & (F2 & E2) & (F3 & E3) & (F4 & E4))].
    fold (frph2R (base L) (fneg (fx p)) (fneg (fy p)) (fneg (fz p))) in *. fold (frph2C (base L) (fx p) (fy p) (fz p)) in *. set (M := frph2C _ _ _ _) in *. clearbody M. unfold recovered, fC2rph, finite3. cbn [fx fy fz].
    rewrite VX in E1, E2. rewrite VZ in E3, E4. rewrite VY, Ropp_involutive in E0.
    destruct (neg_recovered L r _ _ _ OK RB BX F1 F2 E1 E2) as [_ [G1 H1]]. destruct (neg_recovered L r _ _ _ OK RB BZ F3 F4 E3 E4) as [_ [G2 H2]]. destruct (pitch_recovered L _ _ OK BY F0 A0 E0) as (G3 & H3 & H4). auto 8.
  - destruct (zyx_read L (fneg (fz p)) (fneg (fy p)) (fneg (fx p)) OK NZ NY NX BZ' BY' BX') as [(F0 & A0 & E0) (r & RB & (F1 & E1) & (F2 & E2) & (F3 & E3) & (F4 & E4))].
    fold (fzyx_C (base L) p) in *. set (M := fzyx_C _ _) in *. clearbody M. unfold recovered, fzyx_params, finite3. cbn [fx fy fz].
    rewrite VZ in E1, E2. rewrite VX in E3, E4. rewrite VY, Ropp_involutive in E0.
    destruct (neg_recovered L r _ _ _ OK RB BZ F1 F2 E1 E2) as [[G1 H1] _]. destruct (neg_recovered L r _ _ _ OK RB BX F3 F4 E3 E4) as [[G2 H2] _]. destruct (pitch_recovered L _ _ OK BY F0 A0 E0) as (G3 & H3 & H4). auto 8.
  - destruct (zyx_read L (fz p) (fy p) (fx p) OK FZ FY FX BZ BY BX) as [(F0 & A0 & E0) (r & RB & (F1 & E1) & (F2 & E2) & (F3 & E3) & (F4 & E4))].
    fold (fypr_C (base L) p) in *. set (M := fypr_C _ _) in *. clearbody M. unfold recovered, fypr_params, finite3. cbn [fx fy fz].
    destruct (angle_recovered L r _ _ _ OK RB BZ F1 F2 E1 E2) as [G1 H1]. destruct (angle_recovered L r _ _ _ OK RB BX F3 F4 E3 E4) as [G2 H2]. destruct (PN _ _ BY F0 A0 E0) as [_ (G3 & H3 & H4)]. auto 8.
  - pose proof OK as ((SO & CO & _) & S1 & _). unfold recovered, fzxy_params, fzxy_C, fm3, fent, finite3. cbn [fat3 fr0 fr1 fr2 fx fy fz].
    set (x := fx p) in *. set (y := fy p) in *. set (z := fz p) in *. clearbody x y z.
    destruct (lib_err _ _ y SO FY) as [Fs Es]. destruct (lib_err _ _ y CO FY) as [Fc Ec]. pose proof (cos_low _ BY) as CL.
    destruct (lib_err _ _ x SO FX) as [Fsx Esx]. destruct (lib_err _ _ x CO FX) as [Fcx Ecx]. destruct (lib_err _ _ z SO FZ) as [Fsz Esz]. destruct (lib_err _ _ z CO FZ) as [Fcz Ecz].
    destruct (pitch_recovered L _ _ OK BY Fs (S1 _ FY) Es) as (G3 & H3 & H4).
    destruct (neg_close _ _ _ Fsx Esx) as [Fnx Enx]. destruct (neg_close _ _ _ Fc Ec) as [Fnc Enc].
    rewrite <- (Rabs_Ropp (sin (B2R x))) in Enx. rewrite <- sin_neg in Enx.
    destruct (product_err _ _ _ _ Fc Fnx Ec Enx CL (sin1 _) _ (or_intror (or_introl eq_refl))) as [F1 E1]. destruct (product_err _ _ _ _ Fc Fcx Ec Ecx CL (cos1 _) _ (or_intror (or_introl eq_refl))) as [F2 E2].
    rewrite <- (cos_neg (B2R x)) in E2. destruct (neg_recovered L _ _ _ _ OK CL BX F1 F2 E1 E2) as [_ [G1 H1]].
    assert (W : is_finite (fmul (fneg (m_cos (base L) y)) (m_sin (base L) z)) = true /\ Rabs (B2R (fmul (fneg (m_cos (base L) y)) (m_sin (base L) z)) - cos (B2R y) * sin (- B2R z)) <= (501 / 100 * Rabs (sin (- B2R z)) + / 1000) * (u * cos (B2R y))).
    { destruct (neg_close _ _ _ Fsz Esz) as [Fnz Enz]. rewrite <- (Rabs_Ropp (sin (B2R z))) in Enz. rewrite <- sin_neg in Enz.
      apply (product_err _ _ _ _ Fc Fnz Ec Enz CL (sin1 _)). right. right. exists (m_sin (base L) z). auto. }
    destruct W as [F3 E3]. destruct (product_err _ _ _ _ Fc Fcz Ec Ecz CL (cos1 _) _ (or_introl eq_refl)) as [F4 E4].
    rewrite <- (cos_neg (B2R z)) in E4. destruct (neg_recovered L _ _ _ _ OK CL BZ F3 F4 E3 E4) as [_ [G2 H2]]. auto 8.
Qed.

(** ** when there are angles at all *)
Definition finite33 (C : FM3) : Prop := finite3 (fr0 C) /\ finite3 (fr1 C) /\ finite3 (fr2 C).
Lemma fent_finite C i j : finite33 C -> is_finite (fent C i j) = true.
Proof. intros ((A & B & D) & (E & F & G) & (H & I & J)). unfold fent, fat3. destruct i as [|[|i]], j as [|[|j]]; assumption. Qed.
Lemma is_nan_fneg (x : f64) : is_nan (fneg x) = is_nan x. Proof. destruct x; reflexivity. Qed.
(** the outer angles always exist; the middle one exactly if the entry it is read from is at most 1 in size *)
Definition readable (c : f64) (p : F3) : Prop :=
  is_finite (fx p) = true /\ is_finite (fz p) = true /\ (is_finite (fy p) = true <-> Rabs (B2R c) <= 1) /\ (is_nan (fy p) = true <-> 1 < Rabs (B2R c)).
Theorem float_euler_params_exact L C : lib2_ok L -> finite33 C ->
  readable (fent C 2 0) (fR2rph L C) /\ readable (fent C 2 0) (fC2rph L C) /\ readable (fent C 2 0) (fzyx_params L C) /\ readable (fent C 2 0) (fypr_params L C) /\ readable (fent C 2 1) (fzxy_params L C).
Proof.
  intros (_ & _ & AS & _ & _ & A2) FC. pose proof (fun i j => fent_finite C i j FC) as FE.
  assert (FN : forall i j, is_finite (fneg (fent C i j)) = true) by (intros; apply fneg_val, FE).
  assert (AT : forall y x, is_finite y = true -> is_finite x = true -> is_finite (m_atan2 L y x) = true) by (intros y x FY FX; now apply A2).
  assert (P : forall c, is_finite c = true -> (is_finite (m_asin L c) = true <-> Rabs (B2R c) <= 1) /\ (is_nan (m_asin L c) = true <-> 1 < Rabs (B2R c))).
  { intros c F. destruct (AS c F) as [A B]. destruct (Rle_dec (Rabs (B2R c)) 1) as [H|H].
    - destruct (A (Rabs_le_inv _ _ H)) as [FF _]. pose proof (is_nan_finite _ FF) as NN. split; split; try tauto; [congruence|lra].
    - assert (N : ~ -1 <= B2R c <= 1) by (intros X; apply H, Rabs_le; exact X). specialize (B N). split; split; try tauto; [|intros _; lra]. intros X. apply is_nan_finite in X. congruence. }
  assert (PN : forall c, is_finite c = true -> (is_finite (m_asin L (fneg c)) = true <-> Rabs (B2R c) <= 1) /\ (is_nan (m_asin L (fneg c)) = true <-> 1 < Rabs (B2R c))).
  { intros c F. destruct (fneg_val c F) as [G V]. rewrite <- (Rabs_Ropp (B2R c)), <- V. now apply P. }
  unfold readable, fR2rph, fC2rph, fzyx_params, fypr_params, fzxy_params. cbn [fx fy fz].
  assert (FG : forall a : f64, is_finite (fneg a) = is_finite a) by (intros a; unfold fneg; apply is_finite_Bopp). rewrite !FG, is_nan_fneg. rewrite !AT by auto.
  destruct (P _ (FE 2%nat 0%nat)) as [P1 P2]. destruct (P _ (FE 2%nat 1%nat)) as [P3 P4]. destruct (PN _ (FE 2%nat 0%nat)) as [P5 P6].
  tauto.
Qed.
(** A transformation pitched by a right angle has no Euler angles: with q = (0, sqrt(1/2), 0, sqrt(1/2)) the entry C(2,0) is 1.0000000000000002 and asin of
    it is NaN, whatever the library, for each of the orders Eigen uses; likewise EulerAnglesZXY for q = (sqrt(1/2), 0, 0, sqrt(1/2)). *)
Definition half_root : f64 := flit 6369051672525773 (-53).
Definition right_pitch : F4 := mkF4 fzero half_root fzero half_root.
Definition right_roll : F4 := mkF4 (fneg half_root) fzero fzero half_root.
Definition orders_in_use : list eigen := [mkEigen by_halves true; mkEigen by_halves false; mkEigen by_packets true; mkEigen by_packets false; mkEigen by_loop true; mkEigen by_loop false].
Definition finite33b (C : FM3) : bool := forallb (fun i => forallb (fun j => is_finite (fent C i j)) [0; 1; 2]%nat) [0; 1; 2]%nat.
Lemma finite33b_ok C : finite33b C = true -> finite33 C.
Proof. unfold finite33b. cbn [forallb]. rewrite !Bool.andb_true_iff. intros ((A & B & D & _) & (E & F & G & _) & (H & I & J & _) & _). unfold finite33, finite3. auto 10. Qed.
Lemma right_pitch_computed : forallb (fun E => fltb fone (fent (fquat2r (fnormalize E right_pitch)) 2 0) && fltb fone (fent (fquat2r (fnormalize E right_roll)) 2 1)
  && finite33b (fquat2r (fnormalize E right_pitch)) && finite33b (fquat2r (fnormalize E right_roll)))%bool orders_in_use = true.
Proof. vm_compute. reflexivity. Qed.
Lemma half_root_val : is_finite half_root = true /\ B2R half_root = 6369051672525773 / 9007199254740992.
Proof. split; [reflexivity|]. vm_compute. lra. Qed.
Lemma nearly_unit q : val4 q = val4 right_pitch \/ val4 q = val4 right_roll -> Rabs (norm4 (val4 q) - 1) <= 2 * u.
Proof.
  destruct half_root_val as [F V]. destruct (fneg_val _ F) as [_ VN]. pose proof u_val as UV. intros H. assert (S : norm4 (val4 q) = sqrt (2 * (6369051672525773 / 9007199254740992 * (6369051672525773 / 9007199254740992)))).
  { unfold norm4. f_equal. destruct H as [-> | ->]; unfold dot4, val4, right_pitch, right_roll; cbn [f0 f1 f2 f3 e0 e1 e2 e3]; rewrite ?VN, V; change (B2R fzero) with 0; field. }
  rewrite S. apply Rabs_le. split.
  - assert (1 <= sqrt (2 * (6369051672525773 / 9007199254740992 * (6369051672525773 / 9007199254740992)))) by (rewrite <- sqrt_1 at 1; apply sqrt_le_1_alt; lra). lra.
  - assert (sqrt (2 * (6369051672525773 / 9007199254740992 * (6369051672525773 / 9007199254740992))) <= 1 + 2 * u) by (rewrite <- (sqrt_square (1 + 2 * u)) by lra; apply sqrt_le_1_alt; rewrite UV; lra). lra.
Qed.
Theorem float_euler_params_refuted : exists q r, finite4 q /\ finite4 r /\ Rabs (norm4 (val4 q) - 1) <= 2 * u /\ Rabs (norm4 (val4 r) - 1) <= 2 * u /\
  forall E t L, In E orders_in_use -> lib2_ok L ->
    (let C := ft_C (ft_make E q t) in finite33 C /\ is_nan (fy (fR2rph L C)) = true /\ is_nan (fy (fC2rph L C)) = true /\ is_nan (fy (fzyx_params L C)) = true /\ is_nan (fy (fypr_params L C)) = true) /\
    (let C := ft_C (ft_make E r t) in finite33 C /\ is_nan (fy (fzxy_params L C)) = true).
Proof.
  destruct half_root_val as [F V]. destruct (fneg_val _ F) as [FN _]. exists right_pitch, right_roll. 
  split; [unfold finite4, right_pitch; cbn [f0 f1 f2 f3]; auto|]. split; [unfold finite4, right_roll; cbn [f0 f1 f2 f3]; auto|].
  split; [apply nearly_unit; now left|]. split; [apply nearly_unit; now right|]. intros E t L I OK.
  pose proof right_pitch_computed as RP. rewrite forallb_forall in RP. specialize (RP E I). rewrite !Bool.andb_true_iff in RP. destruct RP as (((P1 & P2) & P3) & P4). unfold ft_C, ft_make. cbn [fq].
  apply finite33b_ok in P3, P4. set (C := fquat2r (fnormalize E right_pitch)) in *. set (D := fquat2r (fnormalize E right_roll)) in *. clearbody C D.
  assert (BIG1 : forall c, is_finite c = true -> fltb fone c = true -> 1 < Rabs (B2R c)).
  { intros c Fc LT. destruct (fofZ_correct 1 ltac:(lia)) as [V1 F1]. apply (fltb_val fone c F1 Fc) in LT. unfold fone in LT. rewrite V1 in LT. apply Rlt_le_trans with (1 := LT). apply Rle_abs. }
  destruct (float_euler_params_exact L C OK P3) as ((_ & _ & _ & N1) & (_ & _ & _ & N2) & (_ & _ & _ & N3) & (_ & _ & _ & N4) & _).
  destruct (float_euler_params_exact L D OK P4) as (_ & _ & _ & _ & (_ & _ & _ & N5)).
  pose proof (BIG1 _ (fent_finite C 2 0 P3) P1) as X. pose proof (BIG1 _ (fent_finite D 2 1 P4) P2) as Y.
  split; [split; [exact P3|]; split; [now apply N1|split; [now apply N2|split; [now apply N3|now apply N4]]]|split; [exact P4|now apply N5]].
Qed.
