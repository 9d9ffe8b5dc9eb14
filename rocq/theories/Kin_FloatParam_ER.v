(** C140, continued: Euler-Rodriguez parameters read off matrices, where EulerRodriguez::rotationMatrixToParameters does not fail: rotations by 1e-3 up to 1e-3 short
    of a half turn. *)
From Coq Require Import Reals Psatz List Lia.
From Verif Require Import PiBound Float64 Nsec_Proofs TimerTable_Num Round_Proofs Kin_Angle_Props Kin_Float_Model Kin_FloatExp_Model Kin_FloatR_Model Kin_FloatMat_Model Kin_FloatParam_Model.
From Verif Require Import LinAlg Kin_Quat_Props Kin_Trans_Model Kin_Trans_Props Kin_Rot_Model Kin_Rot_Props Kin_Float_Geom Kin_Float_Num Kin_Float_Props Kin_Float_Matrix Kin_FloatR_Props Kin_FloatExp_Props Kin_FloatMat_Props Kin_FloatParam_Props Kin_FloatParam_RV Kin_Quat_Model.
Import ListNotations.
Open Scope R_scope.

(** the C library's tan between the right angles, within two roundings *)
Definition tan_ok (L : lib2) : Prop := forall x, is_finite x = true -> Rabs (B2R x) <= 15704 / 10000 ->
  is_finite (m_tan L x) = true /\ Rabs (B2R (m_tan L x) - tan (B2R x)) <= 2 * u * Rabs (tan (B2R x)) + eta.

Lemma not_truncated t : is_finite t = true -> -1 < B2R t < 1 -> fmax (fneg fone) (fmin t fone) = t.
Proof.
  intros F [L H]. destruct fone_val as [F1 V1]. destruct (fneg_val _ F1) as [FN VN]. rewrite V1 in VN. unfold fmin.
  assert (A : fltb fone t = false) by (destruct (fltb fone t) eqn:B; [apply (fltb_val _ _ F1 F) in B; lra|reflexivity]). rewrite A. unfold fmax.
  assert (B : fltb (fneg fone) t = true) by (destruct (fltb (fneg fone) t) eqn:B; [reflexivity|apply (fltb_val _ _ FN F) in B; lra]). now rewrite B.
Qed.

(** ** the component -T * (X / M) in floats *)
Lemma comp_value_big (a m x : f64) : is_finite a = true -> is_finite m = true -> is_finite x = true -> / 10 ^ 4 <= B2R m <= 3 -> Rabs (B2R a) <= 10 ^ 4 -> Rabs (B2R x) <= 1001 / 1000 * B2R m ->
  is_finite (fmul (fdiv (fneg a) m) x) = true /\ Rabs (B2R (fmul (fdiv (fneg a) m) x) - - B2R a * (B2R x / B2R m)) <= (21 / 10 * Rabs (B2R a) + / 10) * u.
Proof.
  intros FA FM FX [M0 M3] A3 XM. pose proof u53_pos as UP. pose proof u_val as UV. pose proof eta_small as ES. pose proof eta_pos as EP. destruct (fneg_val a FA) as [FN VN].
  set (A := B2R a) in *. set (M := B2R m) in *. set (X := B2R x) in *. assert (MP : 0 < M) by lra. assert (IM : 0 < / M) by now apply Rinv_0_lt_compat.
  assert (IM2 : / M <= 10 ^ 4) by (apply Rle_trans with (/ / 10 ^ 4); [apply Rinv_le; lra|rewrite Rinv_inv; lra]). pose proof (Rabs_pos A) as A0.
  assert (QB : Rabs (- A / M) <= bpow radix2 60).
  { unfold Rdiv. rewrite Rabs_mult, Rabs_Ropp, (Rabs_pos_eq (/ M)) by lra. change (bpow radix2 60) with 1152921504606846976. apply Rle_trans with (10 ^ 4 * 10 ^ 4); [apply Rmult_le_compat; auto using Rabs_pos; lra|lra]. }
  destruct (fdiv_rnd (fneg a) m 60 FN ltac:(fold M; lra) ltac:(lia)) as [VD FD]; [rewrite VN; exact QB|]. rewrite VN in VD. fold A M in VD. set (s := fdiv (fneg a) m) in *. clearbody s.
  pose proof (rnd_err (- A / M)) as RD. rewrite <- VD in RD.
  assert (XQ : Rabs X * / M <= 1001 / 1000). { apply Rmult_le_reg_r with M; [exact MP|]. rewrite Rmult_assoc, Rinv_l, Rmult_1_r by lra. lra. }
  assert (QX : Rabs (- A / M) * Rabs X <= Rabs A * (1001 / 1000)).
  { unfold Rdiv. rewrite Rabs_mult, Rabs_Ropp, (Rabs_pos_eq (/ M)) by lra. rewrite Rmult_assoc. apply Rmult_le_compat_l; [lra|lra]. }
  assert (X4 : Rabs X <= 4) by lra.
  assert (UA : 0 <= u * Rabs A <= u * 10 ^ 4) by (split; [apply Rmult_le_pos; lra|apply Rmult_le_compat_l; lra]).
  assert (D : Rabs (B2R s * X - - A * (X / M)) <= (1001 / 1000 * Rabs A + / 100) * u).
  { replace (B2R s * X - - A * (X / M)) with ((B2R s - - A / M) * X) by (field; lra). rewrite Rabs_mult.
    apply Rle_trans with ((u * Rabs (- A / M) + eta) * Rabs X); [apply Rmult_le_compat_r; [apply Rabs_pos|exact RD]|].
    assert (u * (Rabs (- A / M) * Rabs X) <= u * (Rabs A * (1001 / 1000))) by (apply Rmult_le_compat_l; lra). assert (eta * Rabs X <= eta * 4) by (apply Rmult_le_compat_l; lra). lra. }
  assert (QV : Rabs (- A * (X / M)) <= Rabs A * (1001 / 1000)). { replace (- A * (X / M)) with (- A / M * X) by (field; lra). rewrite Rabs_mult. lra. }
  assert (B : Rabs (B2R s * X) <= 1002 / 1000 * Rabs A + / 100).
  { assert (UA2 : u * Rabs A <= / 10 ^ 4 * Rabs A) by (apply Rmult_le_compat_r; rewrite ?UV; lra). apply Rabs_le_inv in D, QV. apply Rabs_le. rewrite UV in *. lra. }
  destruct (fmul_rnd s x 60 FD FX ltac:(lia)) as [VM FF]; [fold X; change (bpow radix2 60) with 1152921504606846976; lra|]. split; [exact FF|]. rewrite VM. fold X.
  pose proof (rnd_err (B2R s * X)) as RE. replace (rnd (B2R s * X) - - A * (X / M)) with ((rnd (B2R s * X) - B2R s * X) + (B2R s * X - - A * (X / M))) by ring.
  apply Rle_trans with (1 := Rabs_triang _ _). assert (u * Rabs (B2R s * X) <= u * (1002 / 1000 * Rabs A + / 100)) by (apply Rmult_le_compat_l; lra). lra.
Qed.
Lemma comp_close_big (a m x : f64) e n s K d : is_finite a = true -> is_finite m = true -> is_finite x = true -> / 10 ^ 4 <= B2R m <= 3 -> Rabs (B2R a) <= 10 ^ 4 -> Rabs (B2R x) <= 1001 / 1000 * B2R m ->
  Rabs (B2R x - - 2 * s * e) <= 403 * u -> Rabs (B2R m - 2 * s) <= 820 * u -> Rabs e <= 1 -> Rabs (B2R a - n) <= d -> Rabs (B2R a) <= K * B2R m ->
  is_finite (fmul (fdiv (fneg a) m) x) = true /\ Rabs (B2R (fmul (fdiv (fneg a) m) x) - n * e) <= d + (K * 1223 + 21 / 10 * Rabs (B2R a) + / 10) * u.
Proof.
  intros FA FM FX MB A3 XM EX EM E1 AN AK. destruct (comp_value_big a m x FA FM FX MB A3 XM) as [F V]. split; [exact F|]. pose proof u53_pos as UP.
  set (A := B2R a) in *. set (M := B2R m) in *. set (X := B2R x) in *. set (r := B2R (fmul (fdiv (fneg a) m) x)) in *. assert (MP : 0 < M) by lra.
  assert (XE : Rabs (X + M * e) <= 1223 * u).
  { replace (X + M * e) with ((X - - 2 * s * e) + (M - 2 * s) * e) by ring. apply Rle_trans with (1 := Rabs_triang _ _). rewrite Rabs_mult.
    assert (Rabs (M - 2 * s) * Rabs e <= 820 * u * 1) by (apply Rmult_le_compat; auto using Rabs_pos). lra. }
  replace (r - n * e) with ((r - - A * (X / M)) + (- (A / M) * (X + M * e)) + (A - n) * e) by (field; lra).
  assert (T1 : Rabs (- (A / M) * (X + M * e)) <= K * (1223 * u)).
  { rewrite Rabs_mult, Rabs_Ropp. apply Rmult_le_compat; auto using Rabs_pos. unfold Rdiv. rewrite Rabs_mult, Rabs_inv, (Rabs_pos_eq M) by lra.
    apply Rmult_le_reg_r with M; [exact MP|]. rewrite Rmult_assoc, Rinv_l, Rmult_1_r by lra. exact AK. }
  assert (T2 : Rabs ((A - n) * e) <= d). { rewrite Rabs_mult. assert (Rabs (A - n) * Rabs e <= Rabs (A - n) * 1) by (apply Rmult_le_compat_l; [apply Rabs_pos|exact E1]). lra. }
  apply Rle_trans with (1 := Rabs_triang _ _). apply Rle_trans with (Rabs (r - - A * (X / M)) + Rabs (- (A / M) * (X + M * e)) + d); [apply Rplus_le_compat; [apply Rabs_triang|exact T2]|]. lra.
Qed.

(** ** the tangent of the half angle *)
Lemma half_cos n : 0 <= n <= PI - / 10 ^ 3 -> 25 / 10 ^ 5 <= cos (n / 2) <= 1.
Proof. intros N. pose proof PI_decimal. split; [|apply COS_bound]. rewrite <- sin_shift. pose proof (sin_low (PI / 2 - n / 2) ltac:(lra)). lra. Qed.
Lemma half_tan n : / 10 ^ 3 <= n <= PI - / 10 ^ 3 -> let t := tan (n / 2) in let w := 1 + t * t in
  4 / 10 ^ 4 <= t <= 4000 /\ w = / (cos (n / 2) * cos (n / 2)) /\ sin n * w = 2 * t /\ cos n * w = 1 - t * t.
Proof.
  intros N t w. pose proof PI_decimal as PD. destruct (half_cos n ltac:(lra)) as [C0 C1]. set (c := cos (n / 2)) in *. set (s := sin (n / 2)) in *.
  assert (T : t * c = s) by (unfold t, tan; fold s c; field; lra). assert (SC : s * s + c * c = 1) by (pose proof (sin2_cos2 (n / 2)) as H; unfold Rsqr in H; exact H).
  assert (W : w * (c * c) = 1) by (unfold w; replace ((1 + t * t) * (c * c)) with (c * c + (t * c) * (t * c)) by ring; rewrite T; lra).
  assert (S0 : 0 <= s) by (apply sin_ge_0; lra). assert (T0 : 0 <= t) by (unfold t, tan; fold s c; apply Rmult_le_pos; [exact S0|apply Rlt_le, Rinv_0_lt_compat; lra]).
  assert (S1 : s <= 1) by apply SIN_bound.
  split; [split|].
  - destruct (Rle_dec (n / 2) 1) as [H|H].
    + destruct (sin_cubic (n / 2) ltac:(lra)) as [SA _]. fold s in SA. set (y := n / 2) in *. assert (Y : 5 / 10 ^ 4 <= y) by (unfold y; lra). assert (y * y * y <= 1 * y) by (apply Rmult_le_compat_r; [lra|]; assert (y * y <= 1 * 1) by (apply Rmult_le_compat; lra); lra).
      assert (t * c <= t * 1) by (apply Rmult_le_compat_l; lra). lra.
    + assert (2 / 5 <= s) by (pose proof (sin_low (n / 2) ltac:(lra)); fold s in H0; lra). assert (t * c <= t * 1) by (apply Rmult_le_compat_l; lra). lra.
  - apply Rmult_le_reg_r with c; [lra|]. rewrite T. lra.
  - assert (CC : c * c <> 0) by (intros H; rewrite H in W; lra).
    split; [apply Rmult_eq_reg_r with (c * c); [rewrite W; field; lra|exact CC]|].
    split; apply Rmult_eq_reg_r with (c * c); try exact CC; rewrite Rmult_assoc, W, Rmult_1_r.
    + replace n with (2 * (n / 2)) by field. rewrite sin_2a. fold s c. rewrite <- T. ring.
    + replace n with (2 * (n / 2)) by field. rewrite cos_2a. fold s c. rewrite <- T. ring.
Qed.

Lemma tan_read L C e n : lib2_ok L -> tan_ok L -> unit3 e -> / 10 ^ 3 <= n <= PI - / 10 ^ 3 -> close33 C (matrix_about e n) (200 * u) ->
  let a := m_acos L (ftrace C) in let t := tan (n / 2) in let w := 1 + t * t in
  is_finite a = true /\ 9 / 10 ^ 4 <= B2R a /\ is_finite (m_tan L (fmul fhalf a)) = true /\ Rabs (B2R (m_tan L (fmul fhalf a)) - t) <= 43 / 10 ^ 12 * w.
Proof.
  intros OK TK UE N CL. pose proof u53_pos as UP. pose proof u_val as UV. pose proof eta_small as ES. pose proof PI_decimal as PD. destruct (angle_read L C e n OK UE ltac:(lra) CL) as (FA & A0 & _ & AE). specialize (AE N).
  destruct (trace_err C e n UE CL) as [FT ET].
  assert (CN : -1 + 4 / 10 ^ 7 <= cos n <= 1 - 4 / 10 ^ 7).
  { assert (M : cos (PI - / 10 ^ 3) <= cos n <= cos (/ 10 ^ 3)) by (split; apply cos_decr_1; lra). destruct (cos_quartic (/ 10 ^ 3) ltac:(lra)) as [_ Q].
    replace (cos (PI - / 10 ^ 3)) with (- cos (/ 10 ^ 3)) in M by (rewrite Rtrigo_facts.cos_pi_minus; reflexivity). lra. }
  rewrite (not_truncated _ FT) in FA, A0, AE by (apply Rabs_le_inv in ET; rewrite UV in ET; lra). cbv zeta. set (a := m_acos L (ftrace C)) in *. clearbody a. clear ET FT CL.
  destruct (half_tan n N) as (TB & W & _ & _). cbv zeta in *. set (t := tan (n / 2)) in *. set (w := 1 + t * t) in *. set (A := B2R a) in *. apply Rabs_le_inv in AE.
  split; [exact FA|]. split; [lra|]. destruct half_val as [VH FH].
  assert (X2 : Rabs (B2R fhalf * A) <= 16 / 10) by (rewrite VH; apply Rabs_le; lra).
  destruct (fmul_rnd fhalf a 3 FH FA ltac:(lia)) as [VX FX]; [fold A; rewrite <- room8; lra|]. fold A in VX. set (x := fmul fhalf a) in *. clearbody x.
  assert (XE : Rabs (B2R x - n / 2) <= 401 / 10 ^ 13).
  { rewrite VX. assert (X3 : Rabs (B2R fhalf * A - n / 2) <= 4 / 10 ^ 11) by (rewrite VH; apply Rabs_le; lra). apply Rle_trans with (1 := ap_rnd _ _ _ _ X3 X2). rewrite UV in *. lra. }
  assert (X1 : Rabs (B2R x) <= 15704 / 10000). { apply Rabs_le_inv in XE. apply Rabs_le. lra. }
  destruct (TK x FX X1) as [FTn ETn]. split; [exact FTn|]. set (X := B2R x) in *. destruct (half_cos n ltac:(lra)) as [C0 C1]. set (c := cos (n / 2)) in *.
  assert (CX : 999 / 1000 * c <= cos X). { assert (H := cos_dist X (n / 2)). fold c in H. apply Rabs_le_inv in H. apply Rabs_le_inv in XE. assert (Rabs (X - n / 2) <= 401 / 10 ^ 13) by (apply Rabs_le; lra). lra. }
  assert (CP : 0 < c) by lra. assert (CXP : 0 < cos X) by lra. assert (WP : 1 <= w) by (unfold w; assert (0 <= t * t) by (apply Rmult_le_pos; lra); lra).
  assert (TD : Rabs (tan X - t) <= 402 / 10 ^ 13 * w).
  { assert (E : tan X - t = sin (X - n / 2) * (/ cos X * / c)) by (unfold t, tan; fold c; rewrite sin_minus; fold c; field; lra). rewrite E, Rabs_mult.
    assert (P : 0 < / cos X * / c) by (apply Rmult_lt_0_compat; now apply Rinv_0_lt_compat). rewrite (Rabs_pos_eq (/ cos X * / c)) by lra.
    assert (Q : / cos X * / c <= 10011 / 10000 * w).
    { rewrite W, Rinv_mult. replace (10011 / 10000 * (/ c * / c)) with (10011 / 10000 * / c * / c) by ring. apply Rmult_le_compat_r; [apply Rlt_le, Rinv_0_lt_compat; exact CP|].
      apply Rmult_le_reg_r with (cos X); [exact CXP|]. rewrite Rinv_l by lra. apply Rmult_le_reg_l with c; [exact CP|]. replace (c * (10011 / 10000 * / c * cos X)) with (10011 / 10000 * cos X) by (field; lra). lra. }
    pose proof (sin_abs (X - n / 2)) as SA. apply Rle_trans with (401 / 10 ^ 13 * (10011 / 10000 * w)); [apply Rmult_le_compat; auto using Rabs_pos; lra|lra]. }
  assert (TW : 2 * t <= w). { unfold w. assert (0 <= (t - 1) * (t - 1)) by apply Rle_0_sqr. lra. }
  assert (TA : Rabs (tan X) <= w). { apply Rabs_le_inv in TD. apply Rabs_le. lra. }
  assert (UT : u * Rabs (tan X) <= u * w) by (apply Rmult_le_compat_l; lra). assert (UW : u * w <= / 10 ^ 15 * w) by (apply Rmult_le_compat_r; rewrite ?UV; lra). assert (UW1 : u * 1 <= u * w) by (apply Rmult_le_compat_l; lra).
  replace (B2R (m_tan L x) - t) with ((B2R (m_tan L x) - tan X) + (tan X - t)) by ring. apply Rle_trans with (1 := Rabs_triang _ _). lra.
Qed.

Lemma er_read_close L C e n : lib2_ok L -> tan_ok L -> unit3 e -> / 10 ^ 3 <= n <= PI - / 10 ^ 3 -> close33 C (matrix_about e n) (200 * u) ->
  close3 (fer_params L C) (scale3 (tan (n / 2)) e) (/ 10 ^ 10 * (1 + tan (n / 2) * tan (n / 2))).
Proof.
  intros OK TK UE N CL. pose proof u53_pos as UP. pose proof u_val as UV. pose proof PI_decimal as PD.
  destruct (tan_read L C e n OK TK UE N CL) as (FA & A0 & FT & TE). destruct (norm_read L C e n OK UE ltac:(lra) CL) as (FN & N0 & NE & NX). destruct (skew_err C e n UE CL) as ((FX & EX) & (FY & EY) & (FZ & EZ)).
  destruct (unit_comp e UE) as (UX & UY & UZ). destruct (threshold 14 ltac:(lia)) as (F14 & TH). assert (X14 : IZR (10 ^ 14) = 10 ^ 14) by (rewrite pow_IZR; reflexivity). rewrite X14 in TH. clear X14.
  destruct (half_tan n N) as (TB & _ & SN & _). cbv zeta in *. unfold fer_params, f1em14. set (t14 := fdec 1 14) in *. clearbody t14. cbv zeta. set (a := m_acos L (ftrace C)) in *. set (T := m_tan L (fmul fhalf a)) in *. clearbody T.
  clearbody a. set (m := fnorm3 (base L) (fskew C)) in *. set (p := fskew C) in *. clearbody m p. set (t := tan (n / 2)) in *. set (w := 1 + t * t) in *.
  assert (FAB : is_finite (fabs a) = true /\ B2R (fabs a) = Rabs (B2R a)) by (unfold fabs; now rewrite is_finite_Babs, B2R_Babs). destruct FAB as [FAa VAa]. rewrite (Rabs_pos_eq (B2R a)) in VAa by lra.
  assert (B1 : fltb (fabs a) t14 = false). { destruct (fltb (fabs a) t14) eqn:B; [|reflexivity]. apply (fltb_val _ _ FAa F14) in B. lra. }
  assert (SL : 49 / 10 ^ 5 <= sin n). { destruct (Rle_dec n (PI / 2)) as [H|H]; [pose proof (sin_low n ltac:(lra)); lra|]. rewrite <- sin_PI_x. pose proof (sin_low (PI - n) ltac:(lra)). lra. }
  assert (MV : 1999 / 1000 * sin n <= B2R m <= 3). { apply Rabs_le_inv in NE. pose proof (SIN_bound n). rewrite UV in NE. lra. }
  assert (B2 : fltb m t14 = false). { destruct (fltb m t14) eqn:B; [|reflexivity]. apply (fltb_val _ _ FN F14) in B. lra. }
  rewrite B1, B2. specialize (NX ltac:(lra)). destruct (comp3 (val3 p)) as (CX & CY & CZ). unfold val3 in CX, CY, CZ. cbn [vx vy vz] in CX, CY, CZ.
  assert (W1 : 1 <= w) by (unfold w; assert (0 <= t * t) by (apply Rmult_le_pos; lra); lra). assert (W6 : w <= 6500 * t) by (unfold w; assert (t * t <= 4000 * t) by (apply Rmult_le_compat_r; lra); lra).
  assert (TA : Rabs (B2R T) <= 1001 / 1000 * t). { apply Rabs_le_inv in TE. apply Rabs_le. lra. }
  assert (KB : Rabs (B2R T) <= w / 3 * B2R m).
  { apply Rle_trans with (w / 3 * (1999 / 1000 * sin n)); [|apply Rmult_le_compat_l; lra]. replace (w / 3 * (1999 / 1000 * sin n)) with (1999 / 3000 * (sin n * w)) by field. rewrite SN. lra. }
  assert (TW : 2 * t <= w). { unfold w. assert (0 <= (t - 1) * (t - 1)) by apply Rle_0_sqr. lra. }
  assert (UT : u * Rabs (B2R T) <= u * w) by (apply Rmult_le_compat_l; lra). assert (UW : u * w <= 12 / 10 ^ 17 * w) by (apply Rmult_le_compat_r; rewrite ?UV; lra). assert (UW1 : u * 1 <= u * w) by (apply Rmult_le_compat_l; lra).
  assert (MB : / 10 ^ 4 <= B2R m <= 3) by lra. assert (T4 : Rabs (B2R T) <= 10 ^ 4) by lra.
  assert (G : forall x c, is_finite x = true -> Rabs (B2R x) <= norm3 (val3 p) -> Rabs (B2R x - - 2 * sin n * c) <= 403 * u -> Rabs c <= 1 ->
    is_finite (fmul (fdiv (fneg T) m) x) = true /\ Rabs (B2R (fmul (fdiv (fneg T) m) x) - t * c) <= / 10 ^ 10 * w).
  { intros x c Fx BX EC C1. destruct (comp_close_big T m x c t (sin n) (w / 3) (43 / 10 ^ 12 * w) FT FN Fx MB T4 ltac:(lra) EC NE C1 TE KB) as [F V]. split; [exact F|]. apply Rle_trans with (1 := V). lra. }
  destruct (G _ _ FX CX EX UX) as [G1 H1]. destruct (G _ _ FY CY EY UY) as [G2 H2]. destruct (G _ _ FZ CZ EZ UZ) as [G3 H3]. unfold close3, fscale3, scale3, finite3. cbn [fx fy fz vx vy vz]. auto 8.
Qed.

(** ** Theorems *)
(** A matrix within 200 roundings of the rotation about e by n, 1e-3 <= n <= pi - 1e-3, gives the parameters tan(n/2) e to within 1e-10 (1 + tan(n/2)^2). *)
Theorem float_rodrigues_read_partial L C M e n : lib2_ok L -> tan_ok L -> unit3 e -> / 10 ^ 3 <= n <= PI - / 10 ^ 3 ->
  (forall v, mv3 M v = Kin_Rot_Props.turned e (- n) v) -> close33 C M (200 * u) ->
  close3 (fer_params L C) (scale3 (tan (n / 2)) e) (/ 10 ^ 10 * (1 + tan (n / 2) * tan (n / 2))).
Proof. intros OK TK UE NB TM CL. apply er_read_close; auto. unfold matrix_about. now rewrite <- (turning_matrix M e n TM). Qed.
Lemma er_about e n : unit3 e -> / 10 ^ 3 <= n <= PI - / 10 ^ 3 -> er_C (scale3 (tan (n / 2)) e) = matrix_about e n.
Proof.
  intros UE N. destruct (half_tan n N) as (_ & _ & SN & CN). cbv zeta in *. set (t := tan (n / 2)) in *. assert (W0 : 0 < 1 + t * t) by (pose proof (Rle_0_sqr t) as H; unfold Rsqr in H; lra).
  assert (S1 : sin n = 2 * t / (1 + t * t)) by (rewrite <- SN; field; lra). assert (C1 : cos n = (1 - t * t) / (1 + t * t)) by (rewrite <- CN; field; lra).
  unfold er_C, matrix_about, aa_entries. cbv zeta. unfold unit3 in UE. assert (D : dot3 (scale3 t e) (scale3 t e) = t * t) by (replace (dot3 (scale3 t e) (scale3 t e)) with (t * t * dot3 e e) by (unfold dot3, scale3; cbn [vx vy vz]; ring); rewrite UE; ring).
  rewrite D, S1, C1. unfold dot3 in UE. destruct e as [x y z]. cbn [vx vy vz] in *.
  assert (Z2 : z * z = 1 - x * x - y * y) by lra. set (i := / (1 + t * t)). assert (I : i * (1 + t * t) = 1) by (apply Rinv_l; lra). unfold Rdiv. fold i.
  assert (I2 : t * t * i = 1 - i) by (replace (t * t * i) with (i * (1 + t * t) - i) by ring; rewrite I; ring). 
  unfold crossMx. vunfold. cbv [vx vy vz r30 r31 r32].
  replace ((1 - t * t) * i) with (2 * i - 1) by (replace ((1 - t * t) * i) with (i - t * t * i) by ring; rewrite I2; ring).
  assert (TT : forall q, 2 * i * (t * t * q) = 2 * (1 - i) * q) by (intros q; replace (2 * i * (t * t * q)) with (2 * (t * t * i) * q) by ring; rewrite I2; ring).
  pose proof (TT (x * x)) as TX. pose proof (TT (y * y)) as TY. pose proof (TT (x * y)) as TXY. pose proof (TT (x * z)) as TXZ. pose proof (TT (y * z)) as TYZ. pose proof (TT (z * z)) as TZ. rewrite Z2 in TZ.
  veq; nra.
Qed.
Theorem float_rodrigues_round_trip_partial L p : lib2_ok L -> tan_ok L -> finite3 p -> / 10 ^ 3 <= norm3 (val3 p) <= 10 ^ 3 ->
  close3 (fer_params L (fer_C (base L) p)) (val3 p) (/ 10 ^ 10 * (1 + dot3 (val3 p) (val3 p))).
Proof.
  intros OK TK FP [NL NH]. set (r := norm3 (val3 p)) in *. set (n := 2 * atan r). set (e := scale3 (/ r) (val3 p)).
  assert (RR : r * r = dot3 (val3 p) (val3 p)) by (apply sqrt_sqrt; unfold dot3; pose proof (Rle_0_sqr (vx (val3 p))); pose proof (Rle_0_sqr (vy (val3 p))); pose proof (Rle_0_sqr (vz (val3 p))); unfold Rsqr in *; lra).
  assert (UE : unit3 e). { unfold unit3, e. replace (dot3 (scale3 (/ r) (val3 p)) (scale3 (/ r) (val3 p))) with (/ r * / r * dot3 (val3 p) (val3 p)) by (unfold dot3, scale3; cbn [vx vy vz]; ring). rewrite <- RR. field. lra. }
  assert (TN : tan (n / 2) = r) by (unfold n; replace (2 * atan r / 2) with (atan r) by field; apply tan_atan).
  assert (PE : val3 p = scale3 r e) by (unfold e; destruct (val3 p) as [x y z]; unfold scale3; cbn [vx vy vz]; f_equal; field; lra).
  pose proof PI_decimal as PD. assert (N : / 10 ^ 3 <= n <= PI - / 10 ^ 3).
  { assert (TS : tan (5 / 10 ^ 4) < / 10 ^ 3). 
    { unfold tan. destruct (sin_cubic (5 / 10 ^ 4) ltac:(lra)) as [_ S]. destruct (cos_quartic (5 / 10 ^ 4) ltac:(lra)) as [Q _]. apply Rmult_lt_reg_r with (cos (5 / 10 ^ 4)); [lra|]. unfold Rdiv. rewrite Rmult_assoc, Rinv_l by lra. lra. }
    pose proof (atan_bound r) as AB. split.
    - assert (atan (tan (5 / 10 ^ 4)) < atan r) by (apply atan_increasing; lra). rewrite atan_tan in H by lra. unfold n. lra.
    - assert (0 < tan (5 / 10 ^ 4)) by (apply tan_gt_0; lra). assert (TI : 10 ^ 3 < / tan (5 / 10 ^ 4)) by (rewrite <- (Rinv_inv (10 ^ 3)); apply Rinv_lt_contravar; [apply Rmult_lt_0_compat; lra|lra]).
      assert (atan r < atan (/ tan (5 / 10 ^ 4))) by (apply atan_increasing; lra). rewrite <- Ropp_involutive in H0 at 1. rewrite Ropp_involutive in H0.
      assert (K : atan (/ tan (5 / 10 ^ 4)) = PI / 2 - 5 / 10 ^ 4). { rewrite <- (atan_tan (PI / 2 - 5 / 10 ^ 4)) by lra. f_equal. unfold tan. rewrite sin_shift, cos_shift. rewrite Rinv_div. reflexivity. }
      rewrite K in H0. unfold n. lra. }
  assert (CL : close33 (fer_C (base L) p) (matrix_about e n) (200 * u)).
  { rewrite <- er_about, TN, <- PE by auto. eapply close33_weaken; [apply (er_close (base L) p (proj1 OK) FP)|pose proof u53_pos; lra]. fold r.
    apply Rle_trans with (1 := NH). apply Rle_trans with (bpow radix2 10); [change (bpow radix2 10) with 1024; lra|apply bpow_le; lia]. }
  pose proof (er_read_close L _ e n OK TK UE N CL) as Q. rewrite TN, <- PE, RR in Q. exact Q.
Qed.

(** *** the hypotheses are met *)
Lemma to_f64_val60 x : Rabs x <= bpow radix2 60 -> is_finite (to_f64 x) = true /\ B2R (to_f64 x) = rnd x.
Proof.
  intros X. unfold to_f64. pose proof (binary_normalize_correct 53 1024 (eq_refl _) (eq_refl _) mode_NE (Ztrunc (scaled_mantissa radix2 (SpecFloat.fexp 53 1024) (rnd x))) (cexp radix2 (SpecFloat.fexp 53 1024) (rnd x)) false) as K.
  assert (G : generic_format radix2 (SpecFloat.fexp 53 1024) (rnd x)) by (apply generic_format_round; [apply fexp_correct; reflexivity|apply valid_rnd_N]).
  rewrite <- G in K. cbn [round_mode] in K. assert (ID : rnd (rnd x) = rnd x) by (apply rnd_id; exact G).
  assert (B : Rabs (rnd x) <= bpow radix2 60) by (apply rnd_abs_le; [lia|exact X]).
  rewrite ID in K. rewrite Rlt_bool_true in K. { tauto. }
  apply Rle_lt_trans with (1 := B). apply bpow_lt. lia.
Qed.
Example rounded_tan_ok : tan_ok rounded_lib2.
Proof.
  intros x F X. pose proof PI_decimal as PD. assert (NX : is_nan x = false) by now apply is_nan_finite. cbn [rounded_lib2 m_tan]. rewrite NX.
  assert (C : / 10 ^ 4 <= cos (B2R x)). { rewrite <- cos_Rabs, <- sin_shift. pose proof (Rabs_pos (B2R x)). pose proof (sin_low (PI / 2 - Rabs (B2R x)) ltac:(lra)). lra. }
  assert (T : Rabs (tan (B2R x)) <= 10 ^ 4).
  { unfold tan, Rdiv. rewrite Rabs_mult, Rabs_inv, (Rabs_pos_eq (cos (B2R x))) by lra. apply Rle_trans with (1 * / / 10 ^ 4); [apply Rmult_le_compat; auto using Rabs_pos, sin1; [apply Rlt_le, Rinv_0_lt_compat; lra|apply Rinv_le; lra]|rewrite Rinv_inv; lra]. }
  assert (T60 : Rabs (tan (B2R x)) <= bpow radix2 60) by (change (bpow radix2 60) with 1152921504606846976; lra).
  destruct (to_f64_val60 _ T60) as [FF V]. split; [exact FF|]. rewrite V. pose proof (rnd_err (tan (B2R x))). pose proof u53_pos. pose proof (Rmult_le_pos u (Rabs (tan (B2R x))) ltac:(lra) (Rabs_pos _)). lra.
Qed.
