(** C140, continued: rotation vectors read off matrices. *)
From Coq Require Import Reals Psatz List Permutation Lia.
From Verif Require GTest_Props.
From Verif Require Import PiBound Float64 Nsec_Proofs TimerTable_Num Round_Proofs Kin_Angle_Props Kin_Float_Model Kin_FloatExp_Model Kin_FloatR_Model Kin_FloatMat_Model Kin_FloatParam_Model.
From Verif Require Import LinAlg Kin_Quat_Props Kin_Trans_Model Kin_Trans_Props Kin_Rot_Model Kin_Rot_Props Kin_Float_Geom Kin_Float_Num Kin_Float_Props Kin_Float_Matrix Kin_FloatR_Props Kin_FloatExp_Props Kin_FloatMat_Props Kin_FloatParam_Props Kin_Quat_Model.
Import ListNotations.
Open Scope R_scope.

(** ** the truncation *)
Lemma truncated t : is_finite t = true -> let c := fmax (fneg fone) (fmin t fone) in
  is_finite c = true /\ -1 <= B2R c <= 1 /\ forall a, -1 <= a <= 1 -> Rabs (B2R c - a) <= Rabs (B2R t - a).
Proof.
  intros F. destruct (fofZ_correct 1 ltac:(lia)) as [V1 F1]. destruct (fneg_val _ F1) as [FN VN]. fold fone in *. rewrite V1 in VN. unfold fmax, fmin.
  assert (M : forall b, b = fltb fone t -> let m := if b then fone else t in is_finite m = true /\ B2R m <= 1 /\ forall a, -1 <= a <= 1 -> Rabs (B2R m - a) <= Rabs (B2R t - a)).
  { intros [] E; symmetry in E; apply (fltb_val fone t F1 F) in E; rewrite V1 in E.
    - cbv zeta. rewrite V1. split; [exact F1|]. split; [lra|]. intros a A. rewrite !Rabs_pos_eq by lra. lra.
    - cbv zeta. split; [exact F|]. split; [lra|]. intros; lra. }
  specialize (M _ eq_refl). set (m := if fltb fone t then fone else t) in *. clearbody m. destruct M as (FM & M1 & MC). cbv zeta.
  assert (M2 : forall b, b = fltb (fneg fone) m -> is_finite (if b then m else fneg fone) = true /\ -1 <= B2R (if b then m else fneg fone) <= 1 /\ forall a, -1 <= a <= 1 -> Rabs (B2R (if b then m else fneg fone) - a) <= Rabs (B2R m - a)).
  { intros [] E; symmetry in E; apply (fltb_val (fneg fone) m FN FM) in E; rewrite VN in E.
    - split; [exact FM|]. split; [lra|]. intros; lra.
    - rewrite VN. split; [exact FN|]. split; [lra|]. intros a A. rewrite !Rabs_left1 by lra. lra. }
  destruct (M2 _ eq_refl) as (FR & BR & CR). split; [exact FR|]. split; [exact BR|]. intros a A. apply Rle_trans with (1 := CR a A). now apply MC.
Qed.

(** ** trace and skew part *)
Definition matrix_about (e : vec3) (n : R) : mat3 := aa_entries (vx e) (vy e) (vz e) (sin n) (cos n).
Lemma entries_ak C e n : close33 C (matrix_about e n) (200 * u) ->
  (ak (fent C 0 0) (vx e * vx e + cos n * (1 - vx e * vx e)) 200 /\ ak (fent C 1 1) (vy e * vy e + cos n * (1 - vy e * vy e)) 200 /\ ak (fent C 2 2) (vz e * vz e + cos n * (1 - vz e * vz e)) 200) /\
  (ak (fent C 2 1) (vy e * vz e - cos n * vy e * vz e - sin n * vx e) 200 /\ ak (fent C 1 2) (vy e * vz e - cos n * vy e * vz e + sin n * vx e) 200) /\
  (ak (fent C 0 2) (vx e * vz e - cos n * vx e * vz e - sin n * vy e) 200 /\ ak (fent C 2 0) (vx e * vz e - cos n * vx e * vz e + sin n * vy e) 200) /\
  (ak (fent C 1 0) (vx e * vy e - cos n * vx e * vy e - sin n * vz e) 200 /\ ak (fent C 0 1) (vx e * vy e - cos n * vx e * vy e + sin n * vz e) 200).
Proof.
  intros (((A1 & A2 & A3) & A4 & A5 & A6) & ((B1 & B2 & B3) & B4 & B5 & B6) & ((D1 & D2 & D3) & D4 & D5 & D6)). unfold matrix_about, aa_entries, m3 in *. cbn [r30 r31 r32 vx vy vz] in *. unfold fent, fat3, ak. auto 20.
Qed.
Lemma rotation_entries e n : unit3 e -> let M := matrix_about e n in
  (Rabs (vx (r30 M)) <= 1 /\ Rabs (vy (r30 M)) <= 1 /\ Rabs (vz (r30 M)) <= 1) /\ (Rabs (vx (r31 M)) <= 1 /\ Rabs (vy (r31 M)) <= 1 /\ Rabs (vz (r31 M)) <= 1) /\ (Rabs (vx (r32 M)) <= 1 /\ Rabs (vy (r32 M)) <= 1 /\ Rabs (vz (r32 M)) <= 1).
Proof.
  intros UE M. assert (RM : is_rotation M) by (apply aa_rotation; exact UE). pose proof (rotation_rows M RM) as RR. cbv zeta in RR.
  pose proof (RR 0%nat 0%nat ltac:(lia) ltac:(lia)) as R0. pose proof (RR 1%nat 1%nat ltac:(lia) ltac:(lia)) as R1. pose proof (RR 2%nat 2%nat ltac:(lia) ltac:(lia)) as R2. cbn [Nat.eqb] in *.
  split; [|split]; now apply unit_comp.
Qed.
Lemma trace_err C e n : unit3 e -> close33 C (matrix_about e n) (200 * u) -> ak (ftrace C) (cos n) 306.
Proof.
  intros UE CL. destruct (entries_ak _ _ _ CL) as ((A & B & D) & _). destruct (rotation_entries e n UE) as ((M0 & _) & (_ & M1 & _) & (_ & _ & M2)).
  unfold matrix_about, aa_entries, m3 in M0, M1, M2. cbn [r30 r31 r32 vx vy vz] in M0, M1, M2. unfold unit3, dot3 in UE. unfold ftrace.
  set (a := vx e * vx e + cos n * (1 - vx e * vx e)) in *. set (b := vy e * vy e + cos n * (1 - vy e * vy e)) in *. set (d := vz e * vz e + cos n * (1 - vz e * vz e)) in *.
  assert (T : a + b + d = 1 + 2 * cos n) by (unfold a, b, d; replace (vx e * vx e + cos n * (1 - vx e * vx e) + (vy e * vy e + cos n * (1 - vy e * vy e)) + (vz e * vz e + cos n * (1 - vz e * vz e))) with ((vx e * vx e + vy e * vy e + vz e * vz e) * (1 - cos n) + 3 * cos n) by ring; rewrite UE; ring).
  pose proof (ak_add _ _ _ _ _ _ 2 A B ltac:(lra) ltac:(lra) ltac:(apply small_k; lra) ltac:(apply small_k; lra)) as S1.
  assert (AB : Rabs (a + b) <= 2) by (apply Rle_trans with (1 := Rabs_triang _ _); lra).
  pose proof (ak_add _ _ _ _ _ _ 3 S1 D ltac:(lra) ltac:(lra) ltac:(apply small_k; lra) ltac:(apply small_k; lra)) as S2. rewrite T in S2.
  pose proof (cos1 n) as C1. assert (T3 : Rabs (1 + 2 * cos n) <= 3) by (apply Rabs_le_inv in C1; apply Rabs_le; lra).
  pose proof (ak_sub _ _ _ _ _ _ 4 S2 ak_one ltac:(rewrite (Rabs_pos_eq 1) by lra; lra) ltac:(lra) ltac:(apply small_k; lra) ltac:(apply small_k; lra)) as S3.
  set (s := fsub _ fone) in *. clearbody s. destruct S3 as [FS ES]. destruct half_val as [VH FH]. pose proof u53_pos as UP. pose proof u_val as UV. pose proof eta_small as EE.
  assert (E2 : Rabs (B2R s * B2R fhalf - cos n) <= 3046 / 10 * u).
  { rewrite VH. replace (B2R s * (1 / 2) - cos n) with ((B2R s - (1 + 2 * cos n - 1)) * / 2) by field. rewrite Rabs_mult, (Rabs_pos_eq (/ 2)) by lra. lra. }
  assert (B2 : Rabs (B2R s * B2R fhalf) <= 101 / 100). { apply Rabs_le_inv in E2, C1. apply Rabs_le. rewrite UV in E2. lra. }
  destruct (fmul_rnd s fhalf 3 FS FH ltac:(lia)) as [V F]; [rewrite <- room8; lra|]. split; [exact F|]. rewrite V. apply Rle_trans with (1 := ap_rnd _ _ _ _ E2 B2). lra.
Qed.
Lemma skew_err C e n : unit3 e -> close33 C (matrix_about e n) (200 * u) ->
  ak (fx (fskew C)) (- 2 * sin n * vx e) 403 /\ ak (fy (fskew C)) (- 2 * sin n * vy e) 403 /\ ak (fz (fskew C)) (- 2 * sin n * vz e) 403.
Proof.
  intros UE CL. destruct (entries_ak _ _ _ CL) as (_ & (A1 & A2) & (B1 & B2) & (D1 & D2)). destruct (rotation_entries e n UE) as ((_ & M01 & M02) & (M10 & _ & M12) & (M20 & M21 & _)).
  unfold matrix_about, aa_entries, m3 in M01, M02, M10, M12, M20, M21. cbn [r30 r31 r32 vx vy vz] in M01, M02, M10, M12, M20, M21. unfold fskew. cbn [fx fy fz].
  assert (G : forall x y a c, ak x a 200 -> ak y c 200 -> Rabs a <= 1 -> Rabs c <= 1 -> ak (fsub x y) (a - c) 403).
  { intros x y a c X Y A B. eapply ak_weaken; [apply (ak_sub _ _ _ _ _ _ 2 X Y); [lra|lra|apply small_k; lra|apply small_k; lra]|lra]. }
  split; [|split].
  - eapply ak_eq; [apply (G _ _ _ _ A1 A2); assumption|ring].
  - eapply ak_eq; [apply (G _ _ _ _ B1 B2); assumption|ring].
  - eapply ak_eq; [apply (G _ _ _ _ D1 D2); assumption|ring].
Qed.

(** ** the angle *)
Lemma angle_read L C e n : lib2_ok L -> unit3 e -> 0 <= n <= PI -> close33 C (matrix_about e n) (200 * u) ->
  let a := m_acos L (fmax (fneg fone) (fmin (ftrace C) fone)) in
  is_finite a = true /\ -1 / 10 ^ 14 <= B2R a /\ Rabs (B2R a - n) <= 27 / 10 ^ 8 /\ (/ 10 ^ 3 <= n <= PI - / 10 ^ 3 -> Rabs (B2R a - n) <= 8 / 10 ^ 11).
Proof.
  intros (_ & _ & _ & AC & _) UE NB CL. pose proof u53_pos as UP. pose proof u_val as UV. pose proof eta_small as ES. pose proof PI_decimal as PD.
  destruct (trace_err C e n UE CL) as [FT ET]. destruct (truncated (ftrace C) FT) as (FC & BC & CC). set (c := fmax (fneg fone) (fmin (ftrace C) fone)) in *. clearbody c. cbv zeta.
  pose proof (COS_bound n) as CB. pose proof (CC (cos n) ltac:(lra)) as EC. destruct (proj1 (AC c FC) BC) as [FA EA]. set (a := acos (B2R c)) in *. pose proof (acos_bound (B2R c)) as AB. fold a in AB.
  assert (CA : cos a = B2R c) by (apply cos_acos; lra).
  assert (A1 : Rabs (PI / 2 - a) <= PI / 2) by (apply Rabs_le; lra). assert (N1 : Rabs (PI / 2 - n) <= PI / 2) by (apply Rabs_le; lra).
  destruct (arcs_from_sines (PI / 2 - a) (PI / 2 - n) (306 * u) A1 N1) as [Q1 Q2]. { rewrite !sin_shift, CA. lra. }
  replace (PI / 2 - a - (PI / 2 - n)) with (- (a - n)) in Q1, Q2 by ring. rewrite Rabs_Ropp in Q1, Q2. set (h := Rabs (a - n) / 2) in *.
  assert (HB : 0 <= h <= PI / 2). { unfold h. split; [pose proof (Rabs_pos (a - n)); lra|]. assert (Rabs (a - n) <= PI) by (apply Rabs_le; lra). lra. }
  assert (SH : 0 <= sin h) by (apply sin_ge_0; lra).
  assert (H8 : sin h <= 1305 / 10 ^ 10). { apply Rsqr_incr_0_var; [|lra]. unfold Rsqr. rewrite UV in Q1. lra. }
  pose proof (small_angle h _ HB H8 ltac:(lra)) as HS.
  rewrite (Rabs_pos_eq a) in EA by lra. assert (UA : u * a <= u * (32 / 10)) by (apply Rmult_le_compat_l; lra).
  assert (TOT : Rabs (B2R (m_acos L c) - n) <= 2 * h + 65 / 10 * u).
  { replace (B2R (m_acos L c) - n) with ((B2R (m_acos L c) - a) + (a - n)) by ring. apply Rle_trans with (1 := Rabs_triang _ _). unfold h. lra. }
  split; [exact FA|]. split; [apply Rabs_le_inv in EA; rewrite UV in *; lra|]. split; [rewrite UV in TOT; lra|]. intros [N2 N3].
  assert (SN : 49 / 10 ^ 5 <= sin ((a + n) / 2)).
  { assert (HA : Rabs (a - n) <= 3 / 10 ^ 7) by (unfold h in HS; lra). apply Rabs_le_inv in HA. destruct (Rle_dec ((a + n) / 2) (PI / 2)) as [X|X].
    - apply Rle_trans with ((a + n) / 2 / 2); [lra|apply sin_low; lra].
    - rewrite <- sin_PI_x. apply Rle_trans with ((PI - (a + n) / 2) / 2); [lra|apply sin_low; lra]. }
  replace ((PI / 2 - a + (PI / 2 - n)) / 2) with (PI / 2 - (a + n) / 2) in Q2 by field. rewrite cos_shift in Q2.
  assert (Q3 : 49 / 10 ^ 5 * sin h <= sin ((a + n) / 2) * sin h) by (apply Rmult_le_compat_r; lra).
  assert (H11 : sin h <= 35 / 10 ^ 12) by (rewrite UV in Q2; lra). pose proof (small_angle h _ HB H11 ltac:(lra)). rewrite UV in TOT. lra.
Qed.
(** ** its axis *)
Lemma norm_read L C e n : lib2_ok L -> unit3 e -> 0 <= n <= PI -> close33 C (matrix_about e n) (200 * u) ->
  is_finite (fnorm3 (base L) (fskew C)) = true /\ 0 <= B2R (fnorm3 (base L) (fskew C)) /\ Rabs (B2R (fnorm3 (base L) (fskew C)) - 2 * sin n) <= 820 * u /\
  (/ 10 ^ 15 <= B2R (fnorm3 (base L) (fskew C)) -> norm3 (val3 (fskew C)) <= 1001 / 1000 * B2R (fnorm3 (base L) (fskew C))).
Proof.
  intros (LO & _) UE NB CL. pose proof u53_pos as UP. pose proof u_val as UV. pose proof PI_decimal as PD. destruct (skew_err C e n UE CL) as ((FX & EX) & (FY & EY) & (FZ & EZ)). set (p := fskew C) in *. clearbody p.
  assert (SN : 0 <= sin n <= 1) by (split; [apply sin_ge_0; lra|apply SIN_bound]).
  assert (DB : dist3 (val3 p) (scale3 (- 2 * sin n) e) <= 806 * u).
  { replace (806 * u) with (2 * (403 * u)) by ring. unfold dist3. apply norm3_le; [lra| | |]; unfold sub3, val3, scale3; cbn [vx vy vz]; assumption. }
  assert (NE : norm3 (scale3 (- 2 * sin n) e) = 2 * sin n).
  { rewrite norm3_scale_abs. assert (norm3 e = 1) by (unfold norm3; rewrite UE; apply sqrt_1). rewrite H, Rmult_1_r, Rabs_left1 by lra. ring. }
  pose proof (dist3_norm (val3 p) (scale3 (- 2 * sin n) e)) as D1. pose proof (dist3_norm (scale3 (- 2 * sin n) e) (val3 p)) as D2. rewrite dist3_sym in D2. rewrite NE in D1, D2.
  set (m := norm3 (val3 p)) in *. assert (M0 : 0 <= m) by apply norm3_pos. assert (M3 : m <= 3) by (rewrite UV in DB; lra).
  destruct (fnorm3_err (base L) p LO (conj FX (conj FY FZ))) as (FN & N0 & NN & NT). { fold m. apply Rle_trans with (bpow radix2 2); [change (bpow radix2 2) with 4; lra|apply bpow_le; lia]. }
  fold m in NN, NT. assert (TB : tiny400 <= u / 1000).
  { unfold tiny400. apply Rle_trans with (bpow radix2 (-100)); [apply bpow_le; lia|]. rewrite UV. replace (bpow radix2 (-100)) with (/ 1267650600228229401496703205376) by (cbn; lra). lra. }
  assert (T3 : bpow radix2 (-300) <= u / 1000).
  { apply Rle_trans with (bpow radix2 (-100)); [apply bpow_le; lia|]. rewrite UV. replace (bpow radix2 (-100)) with (/ 1267650600228229401496703205376) by (cbn; lra). lra. }
  split; [exact FN|]. split; [exact N0|]. destruct (Rle_dec tiny400 m) as [H|H].
  - specialize (NN H). assert (UM : 0 <= u * m <= u * 3) by (split; [apply Rmult_le_pos; lra|apply Rmult_le_compat_l; lra]). split.
    + apply Rabs_le_inv in NN. apply Rabs_le. lra.
    + intros _. assert (UM2 : u * m <= / 10000 * m) by (apply Rmult_le_compat_r; [lra|rewrite UV; lra]). apply Rabs_le_inv in NN. lra.
  - specialize (NT ltac:(lra)). split; [apply Rabs_le; lra|]. intros H2. rewrite UV in T3. lra.
Qed.
Lemma comp_value (a m x : f64) : is_finite a = true -> is_finite m = true -> is_finite x = true -> 99 / 10 ^ 16 <= B2R m <= 3 -> Rabs (B2R a) <= 32 / 10 -> Rabs (B2R x) <= 1001 / 1000 * B2R m ->
  is_finite (fmul (fdiv (fneg a) m) x) = true /\ Rabs (B2R (fmul (fdiv (fneg a) m) x) - - B2R a * (B2R x / B2R m)) <= 7 * u.
Proof.
  intros FA FM FX [M0 M3] A3 XM. pose proof u53_pos as UP. pose proof u_val as UV. pose proof eta_small as ES. pose proof eta_pos as EP. destruct (fneg_val a FA) as [FN VN].
  set (A := B2R a) in *. set (M := B2R m) in *. set (X := B2R x) in *. assert (MP : 0 < M) by lra. assert (IM : 0 < / M) by now apply Rinv_0_lt_compat.
  assert (IM2 : / M <= 2 * 10 ^ 14) by (apply Rle_trans with (/ (99 / 10 ^ 16)); [apply Rinv_le; lra|lra]).
  assert (QB : Rabs (- A / M) <= bpow radix2 60).
  { unfold Rdiv. rewrite Rabs_mult, Rabs_Ropp, (Rabs_pos_eq (/ M)) by lra. change (bpow radix2 60) with 1152921504606846976. apply Rle_trans with (32 / 10 * (2 * 10 ^ 14)); [apply Rmult_le_compat; auto using Rabs_pos; lra|lra]. }
  destruct (fdiv_rnd (fneg a) m 60 FN ltac:(fold M; lra) ltac:(lia)) as [VD FD]; [rewrite VN; exact QB|]. rewrite VN in VD. fold A M in VD. set (s := fdiv (fneg a) m) in *. clearbody s.
  pose proof (rnd_err (- A / M)) as RD. rewrite <- VD in RD.
  assert (XQ : Rabs X * / M <= 1001 / 1000). { apply Rmult_le_reg_r with M; [exact MP|]. rewrite Rmult_assoc, Rinv_l, Rmult_1_r by lra. lra. }
  assert (QX : Rabs (- A / M) * Rabs X <= 32 / 10 * (1001 / 1000)).
  { unfold Rdiv. rewrite Rabs_mult, Rabs_Ropp, (Rabs_pos_eq (/ M)) by lra. rewrite Rmult_assoc. apply Rmult_le_compat; auto using Rabs_pos; [apply Rmult_le_pos; [lra|apply Rabs_pos]|lra]. }
  assert (X4 : Rabs X <= 4) by lra.
  assert (D : Rabs (B2R s * X - - A * (X / M)) <= 33 / 10 * u).
  { replace (B2R s * X - - A * (X / M)) with ((B2R s - - A / M) * X) by (field; lra). rewrite Rabs_mult.
    apply Rle_trans with ((u * Rabs (- A / M) + eta) * Rabs X); [apply Rmult_le_compat_r; [apply Rabs_pos|exact RD]|].
    assert (u * (Rabs (- A / M) * Rabs X) <= u * (32 / 10 * (1001 / 1000))) by (apply Rmult_le_compat_l; lra). assert (eta * Rabs X <= eta * 4) by (apply Rmult_le_compat_l; lra). lra. }
  assert (QV : Rabs (- A * (X / M)) <= 33 / 10). { replace (- A * (X / M)) with (- A / M * X) by (field; lra). rewrite Rabs_mult. lra. }
  assert (B : Rabs (B2R s * X) <= 34 / 10). { apply Rabs_le_inv in D, QV. apply Rabs_le. rewrite UV in D. lra. }
  destruct (fmul_rnd s x 3 FD FX ltac:(lia)) as [VM FF]; [fold X; rewrite <- room8; lra|]. split; [exact FF|]. rewrite VM. fold X. apply Rle_trans with (1 := ap_rnd _ _ _ _ D B). lra.
Qed.
Lemma comp_close (a m x : f64) e n s K d : is_finite a = true -> is_finite m = true -> is_finite x = true -> 99 / 10 ^ 16 <= B2R m <= 3 -> Rabs (B2R a) <= 32 / 10 -> Rabs (B2R x) <= 1001 / 1000 * B2R m ->
  Rabs (B2R x - - 2 * s * e) <= 403 * u -> Rabs (B2R m - 2 * s) <= 820 * u -> Rabs e <= 1 -> Rabs (B2R a - n) <= d -> Rabs (B2R a) <= K * B2R m ->
  is_finite (fmul (fdiv (fneg a) m) x) = true /\ Rabs (B2R (fmul (fdiv (fneg a) m) x) - n * e) <= d + (K * 1223 + 7) * u.
Proof.
  intros FA FM FX MB A3 XM EX EM E1 AN AK. destruct (comp_value a m x FA FM FX MB A3 XM) as [F V]. split; [exact F|]. pose proof u53_pos as UP.
  set (A := B2R a) in *. set (M := B2R m) in *. set (X := B2R x) in *. set (r := B2R (fmul (fdiv (fneg a) m) x)) in *. assert (MP : 0 < M) by lra.
  assert (XE : Rabs (X + M * e) <= 1223 * u).
  { replace (X + M * e) with ((X - - 2 * s * e) + (M - 2 * s) * e) by ring. apply Rle_trans with (1 := Rabs_triang _ _). rewrite Rabs_mult.
    assert (Rabs (M - 2 * s) * Rabs e <= 820 * u * 1) by (apply Rmult_le_compat; auto using Rabs_pos). lra. }
  replace (r - n * e) with ((r - - A * (X / M)) + (- (A / M) * (X + M * e)) + (A - n) * e) by (field; lra).
  assert (T1 : Rabs (- (A / M) * (X + M * e)) <= K * (1223 * u)).
  { rewrite Rabs_mult, Rabs_Ropp. apply Rmult_le_compat; auto using Rabs_pos. unfold Rdiv. rewrite Rabs_mult, Rabs_inv, (Rabs_pos_eq M) by lra.
    apply Rmult_le_reg_r with M; [exact MP|]. rewrite Rmult_assoc, Rinv_l, Rmult_1_r by lra. exact AK. }
  assert (T2 : Rabs ((A - n) * e) <= d). { rewrite Rabs_mult. assert (Rabs (A - n) * Rabs e <= Rabs (A - n) * 1) by (apply Rmult_le_compat_l; [apply Rabs_pos|exact E1]). lra. }
  apply Rle_trans with (1 := Rabs_triang _ _). apply Rle_trans with (Rabs (r - - A * (X / M)) + Rabs (- (A / M) * (X + M * e)) + d); [apply Rplus_le_compat; [apply Rabs_triang|exact T2]|]. lra.
Qed.
Lemma zero_close e n b : unit3 e -> 0 <= n <= b -> close3 fzero3 (scale3 n e) b.
Proof.
  intros UE [N0 NB]. destruct (unit_comp e UE) as (X & Y & Z). unfold close3, fzero3, scale3, finite3. cbn [fx fy fz vx vy vz]. change (B2R fzero) with 0.
  assert (G : forall x, Rabs x <= 1 -> Rabs (0 - n * x) <= b). { intros x H. rewrite Rminus_0_l, Rabs_Ropp, Rabs_mult, (Rabs_pos_eq n) by lra. assert (n * Rabs x <= n * 1) by (apply Rmult_le_compat_l; lra). lra. }
  repeat split; auto.
Qed.
Lemma read_close L C e n : lib2_ok L -> unit3 e -> 0 <= n <= PI - / 10 ^ 3 -> close33 C (matrix_about e n) (200 * u) ->
  close3 (frv_params L C) (scale3 n e) (5 / 10 ^ 7) /\ (/ 10 ^ 3 <= n -> close3 (frv_params L C) (scale3 n e) (/ 10 ^ 9)).
Proof.
  intros OK UE NB CL. pose proof u53_pos as UP. pose proof u_val as UV. pose proof PI_decimal as PD. assert (NB' : 0 <= n <= PI) by lra.
  destruct (angle_read L C e n OK UE NB' CL) as (FA & A0 & AE & AE2). destruct (norm_read L C e n OK UE NB' CL) as (FN & N0 & NE & NX). destruct (skew_err C e n UE CL) as ((FX & EX) & (FY & EY) & (FZ & EZ)).
  destruct (unit_comp e UE) as (UX & UY & UZ). destruct (threshold 14 ltac:(lia)) as (FT & TH). assert (X14 : IZR (10 ^ 14) = 10 ^ 14) by (rewrite pow_IZR; reflexivity). rewrite X14 in TH. clear X14.
  unfold frv_params, f1em14. set (t14 := fdec 1 14) in *. clearbody t14. cbv zeta. set (a := m_acos L (fmax (fneg fone) (fmin (ftrace C) fone))) in *. clearbody a. set (m := fnorm3 (base L) (fskew C)) in *. set (p := fskew C) in *. clearbody m p.
  assert (FAB : is_finite (fabs a) = true /\ B2R (fabs a) = Rabs (B2R a)) by (unfold fabs; now rewrite is_finite_Babs, B2R_Babs). destruct FAB as [FAa VAa].
  assert (FMB : is_finite (fabs m) = true /\ B2R (fabs m) = Rabs (B2R m)) by (unfold fabs; now rewrite is_finite_Babs, B2R_Babs). destruct FMB as [FMa VMa]. rewrite (Rabs_pos_eq (B2R m)) in VMa by exact N0.
  destruct (fltb (fabs a) t14) eqn:B1.
  { apply (fltb_val _ _ FAa FT) in B1. rewrite VAa in B1. apply Rabs_le_inv in AE. assert (B1' : Rabs (B2R a) <= 2 / 10 ^ 14) by lra. apply Rabs_le_inv in B1'. split; [apply zero_close; auto; lra|]. intros N3. exfalso. lra. }
  destruct (fltb (fabs m) t14) eqn:B2.
  { apply (fltb_val _ _ FMa FT) in B2. rewrite VMa in B2. apply Rabs_le_inv in NE. assert (SN : sin n <= / 10 ^ 12) by (rewrite UV in NE; lra).
    assert (NS : n <= 2 / 10 ^ 12). { destruct (Rle_dec n (PI / 2)) as [H|H]; [pose proof (sin_low n ltac:(lra)); lra|]. exfalso. rewrite <- sin_PI_x in SN. pose proof (sin_low (PI - n) ltac:(lra)). lra. }
    split; [apply zero_close; auto; lra|]. intros N3. exfalso. lra. }
  apply (fltb_val _ _ FMa FT) in B2. rewrite VMa in B2. specialize (NX ltac:(lra)). destruct (comp3 (val3 p)) as (CX & CY & CZ). unfold val3 in CX, CY, CZ. cbn [vx vy vz] in CX, CY, CZ.
  assert (MB : 99 / 10 ^ 16 <= B2R m <= 3). { split; [lra|]. apply Rabs_le_inv in NE. pose proof (SIN_bound n). rewrite UV in NE. lra. }
  assert (A3 : Rabs (B2R a) <= 32 / 10) by (apply Rabs_le_inv in AE; apply Rabs_le; lra).
  assert (SC : forall d K, Rabs (B2R a - n) <= d -> Rabs (B2R a) <= K * B2R m -> close3 (fscale3 (fdiv (fneg a) m) p) (scale3 n e) (d + (K * 1223 + 7) * u)).
  { intros d K HD HK. pose proof (comp_close a m (fx p) (vx e) n (sin n) K d FA FN FX MB A3 ltac:(unfold val3 in NX; lra) EX NE UX HD HK) as [G1 H1].
    pose proof (comp_close a m (fy p) (vy e) n (sin n) K d FA FN FY MB A3 ltac:(unfold val3 in NX; lra) EY NE UY HD HK) as [G2 H2].
    pose proof (comp_close a m (fz p) (vz e) n (sin n) K d FA FN FZ MB A3 ltac:(unfold val3 in NX; lra) EZ NE UZ HD HK) as [G3 H3].
    unfold close3, fscale3, scale3, finite3. cbn [fx fy fz vx vy vz]. auto 8. }
  assert (W : forall d d', close3 (fscale3 (fdiv (fneg a) m) p) (scale3 n e) d -> d <= d' -> close3 (fscale3 (fdiv (fneg a) m) p) (scale3 n e) d').
  { intros d d' (G & G1 & G2 & G3) LE. split; [exact G|]. split; [lra|split; lra]. }
  assert (KB : / 10 ^ 7 <= n -> Rabs (B2R a) <= 3300 * B2R m).
  { intros N7. apply Rabs_le_inv in AE, NE. assert (Rabs (B2R a) <= n + 27 / 10 ^ 8) by (apply Rabs_le; lra). destruct (Rle_dec n (PI / 2)) as [H'|H'].
    - pose proof (sin_low n ltac:(lra)). rewrite UV in NE. lra.
    - assert (5 / 10 ^ 4 <= sin n) by (rewrite <- sin_PI_x; pose proof (sin_low (PI - n) ltac:(lra)); lra). rewrite UV in NE. lra. }
  split.
  - destruct (Rle_dec (/ 10 ^ 7) n) as [N7|N7]; [eapply W; [apply (SC _ _ AE (KB N7))|rewrite UV; lra]|].
    assert (AB : Rabs (B2R a) <= n + 27 / 10 ^ 8) by (apply Rabs_le_inv in AE; apply Rabs_le; lra).
    assert (G : forall x c, is_finite x = true -> Rabs (B2R x) <= norm3 (val3 p) -> Rabs c <= 1 -> is_finite (fmul (fdiv (fneg a) m) x) = true /\ Rabs (B2R (fmul (fdiv (fneg a) m) x) - n * c) <= 5 / 10 ^ 7).
    { intros x c Fx BX C1. destruct (comp_value a m x FA FN Fx MB A3 ltac:(unfold val3 in *; lra)) as [F V]. split; [exact F|].
      assert (Q : Rabs (- B2R a * (B2R x / B2R m)) <= (n + 27 / 10 ^ 8) * (1001 / 1000)).
      { rewrite Rabs_mult, Rabs_Ropp. apply Rmult_le_compat; auto using Rabs_pos. unfold Rdiv. rewrite Rabs_mult, Rabs_inv, (Rabs_pos_eq (B2R m)) by lra.
        apply Rmult_le_reg_r with (B2R m); [lra|]. rewrite Rmult_assoc, Rinv_l, Rmult_1_r by lra. lra. }
      assert (NC : Rabs (n * c) <= n) by (rewrite Rabs_mult, (Rabs_pos_eq n) by lra; assert (n * Rabs c <= n * 1) by (apply Rmult_le_compat_l; lra); lra).
      apply Rabs_le_inv in V, Q, NC. apply Rabs_le. rewrite UV in V. lra. }
    destruct (G _ _ FX CX UX) as [G1 H1]. destruct (G _ _ FY CY UY) as [G2 H2]. destruct (G _ _ FZ CZ UZ) as [G3 H3]. unfold close3, fscale3, scale3, finite3. cbn [fx fy fz vx vy vz]. auto 8.
  - intros N3. eapply W; [apply (SC _ _ (AE2 ltac:(lra)) (KB ltac:(lra)))|rewrite UV; lra].
Qed.

(** ** Theorems *)
(** A matrix within 200 roundings of the rotation about e by n gives the rotation vector n e within 5e-7, and within 1e-9 unless n is below 1e-3; up to
    1e-3 short of a half turn. *)
Theorem float_rotation_vector_read_partial L C M e n : lib2_ok L -> unit3 e -> 0 <= n <= PI - / 10 ^ 3 ->
  (forall v, mv3 M v = Kin_Rot_Props.turned e (- n) v) -> close33 C M (200 * u) ->
  close3 (frv_params L C) (scale3 n e) (5 / 10 ^ 7) /\ (/ 10 ^ 3 <= n -> close3 (frv_params L C) (scale3 n e) (/ 10 ^ 9)).
Proof. intros OK UE NB TM CL. apply read_close; auto. unfold matrix_about. now rewrite <- (turning_matrix M e n TM). Qed.
Theorem float_rotation_vector_round_trip_partial L p : lib2_ok L -> finite3 p -> norm3 (val3 p) <= PI - / 10 ^ 3 ->
  close3 (frv_params L (frv_C (base L) p)) (val3 p) (5 / 10 ^ 7) /\ (/ 10 ^ 3 <= norm3 (val3 p) -> close3 (frv_params L (frv_C (base L) p)) (val3 p) (/ 10 ^ 9)).
Proof.
  intros OK FP NB. pose proof PI_decimal as PD. pose proof (norm3_pos (val3 p)) as N0. destruct (ex_denotes (val3 p)) as (M & DM). pose proof DM as (e & UE & PE & TM).
  assert (CL : close33 (frv_C (base L) p) M (200 * u)).
  { eapply close33_weaken; [apply (rv_close (base L) p M (proj1 OK) FP); [lra|exact DM]|]. apply Rmult_le_compat_r; [pose proof u53_pos; lra|]. lra. }
  destruct (float_rotation_vector_read_partial L _ M e _ OK UE (conj N0 NB) TM CL) as [A B]. rewrite <- PE in A, B. now split.
Qed.
(** Rotation vectors shorter than 1e-8 or so are lost: the matrix of the rotation by 2^-27 about z, correctly rounded, reads as no rotation; so does the matrix
    of a half turn, diag(1, -1, -1), whatever the library. *)
Definition tiny_turn : FM3 := fm3 fone (flit (-1) (-27)) fzero (flit 1 (-27)) fone fzero fzero fzero fone.
Definition half_turn : FM3 := fm3 fone fzero fzero fzero (fneg fone) fzero fzero fzero (fneg fone).
Lemma fone_val : is_finite fone = true /\ B2R fone = 1. Proof. destruct (fofZ_correct 1 ltac:(lia)) as [V F]. now split. Qed.
Lemma read_zero L C : lib2_ok L -> finite33 C -> ext (ftrace C) = 1 -> is_finite (ftrace C) = true -> frv_params L C = fzero3 /\ fer_params L C = fzero3.
Proof.
  intros (_ & _ & _ & AC & _) FC TR FT. rewrite ext_finite in TR by exact FT. destruct fone_val as [F1 V1]. destruct (fneg_val _ F1) as [FN VN]. destruct (threshold 14 ltac:(lia)) as (F14 & TH).
  assert (X14 : IZR (10 ^ 14) = 10 ^ 14) by (rewrite pow_IZR; reflexivity). rewrite X14 in TH. clear X14. unfold frv_params, fer_params, f1em14. set (t14 := fdec 1 14) in *. clearbody t14. cbv zeta.
  assert (Z : forall c, is_finite c = true -> B2R c = 1 -> fltb (fabs (m_acos L c)) t14 = true).
  { intros c Fc Vc. assert (D : -1 <= B2R c <= 1) by lra. destruct (proj1 (AC c Fc) D) as [FA EA]. rewrite Vc, acos_1, Rminus_0_r, Rabs_R0 in EA. pose proof eta_small as ES. pose proof u_val as UV.
    destruct (fltb (fabs (m_acos L c)) t14) eqn:B; [reflexivity|exfalso]. assert (FB : is_finite (fabs (m_acos L c)) = true) by (unfold fabs; now rewrite is_finite_Babs). apply (fltb_val _ _ FB F14) in B.
    unfold fabs in B. rewrite B2R_Babs in B. rewrite UV in ES. lra. }
  split; [|now rewrite Z].
  destruct (truncated (ftrace C) FT) as (FCc & BC & CC). set (c := fmax _ _) in *. clearbody c. rewrite Z; auto. specialize (CC 1 ltac:(lra)). rewrite TR, (Rminus_diag_eq 1 1), Rabs_R0 in CC by reflexivity.
  apply Rabs_le_inv in CC. lra.
Qed.
Lemma tiny_computed : finite33b tiny_turn = true /\ feqb (ftrace tiny_turn) fone = true /\ is_finite (ftrace tiny_turn) = true.
Proof. split; [|split]; vm_compute; reflexivity. Qed.
Lemma tiny_vals : B2R (flit (-1) (-27)) = - / 134217728 /\ B2R (flit 1 (-27)) = / 134217728 /\ is_finite (flit (-1) (-27)) = true /\ is_finite (flit 1 (-27)) = true.
Proof. split; [vm_compute; lra|]. split; [vm_compute; lra|]. split; reflexivity. Qed.
Lemma tiny_close : close33 tiny_turn (Rz (/ 134217728)) u.
Proof.
  destruct fone_val as [F1 V1]. destruct tiny_vals as (T1 & T2 & T3 & T4). pose proof u_val as UV. pose proof u53_pos as UP.
  destruct (sin_cubic (/ 134217728) ltac:(lra)) as [S1 S2]. assert (C1 : 1 - / 134217728 * / 134217728 / 2 <= cos (/ 134217728) <= 1) by (split; [destruct (cos_quartic (/ 134217728) ltac:(lra)); lra|apply COS_bound]).
  unfold close33, close3, finite3, tiny_turn, fm3, Rz, m3. cbn [fr0 fr1 fr2 fx fy fz r30 r31 r32 vx vy vz]. rewrite !V1, T1, T2. change (B2R fzero) with 0. rewrite !Rminus_0_r, !Rabs_R0.
  repeat match goal with |- _ /\ _ => split end; try assumption; try reflexivity; try lra; rewrite UV; apply Rabs_le; lra.
Qed.
Theorem float_rotation_vector_read_refuted : 
  (exists C, close33 C (Rz (/ 134217728)) u /\ forall L, lib2_ok L -> frv_params L C = fzero3 /\ fer_params L C = fzero3) /\
  (exists C, close33 C (Rx PI) 0 /\ forall L, lib2_ok L -> frv_params L C = fzero3 /\ fer_params L C = fzero3).
Proof.
  destruct fone_val as [F1 V1]. destruct (fneg_val _ F1) as [FN VN]. rewrite V1 in VN. split.
  - exists tiny_turn. split; [exact tiny_close|]. intros L OK. destruct tiny_computed as (FF & TE & FT). refine (read_zero L tiny_turn OK (finite33b_ok _ FF) _ FT).
    assert (N1 : is_nan (ftrace tiny_turn) = false) by now apply is_nan_finite. assert (N2 : is_nan fone = false) by now apply is_nan_finite.
    apply (feqb_ext _ _ N1 N2) in TE. rewrite TE, ext_finite by exact F1. exact V1.
  - exists half_turn. split.
    { unfold close33, close3, finite3, half_turn, fm3, Rx, m3. cbn [fr0 fr1 fr2 fx fy fz r30 r31 r32 vx vy vz]. rewrite !VN, V1, sin_PI, cos_PI. change (B2R fzero) with 0.
      repeat match goal with |- _ /\ _ => split end; try assumption; try reflexivity; apply Rabs_le; lra. }
    intros L OK. destruct OK as (LO & _ & _ & _ & _ & _).
    assert (FS : (feqb (fx (fskew half_turn)) fzero && feqb (fy (fskew half_turn)) fzero && feqb (fz (fskew half_turn)) fzero && is_finite (fx (fskew half_turn)) && is_finite (fy (fskew half_turn)) && is_finite (fz (fskew half_turn)))%bool = true) by (vm_compute; reflexivity).
    rewrite !Bool.andb_true_iff in FS. destruct FS as (((((X & Y) & Z) & FX) & FY) & FZ). 
    assert (G : forall x, is_finite x = true -> feqb x fzero = true -> B2R x = 0). { intros x F E. apply (feqb_ext _ _ (is_nan_finite _ F) (is_nan_finite fzero eq_refl)) in E. rewrite !ext_finite in E by auto. exact E. }
    apply G in X, Y, Z; auto. unfold frv_params, fer_params. set (p := fskew half_turn) in *. clearbody p.
    assert (N0 : norm3 (val3 p) = 0). { unfold val3. rewrite X, Y, Z. apply norm3_0. }
    destruct (fnorm3_err (base L) p LO (conj FX (conj FY FZ))) as (FM & M0 & _ & MT). { rewrite N0. apply bpow_ge_0. }
    specialize (MT ltac:(rewrite N0; apply bpow_gt_0)). destruct (threshold 14 ltac:(lia)) as (F14 & TH). assert (X14 : IZR (10 ^ 14) = 10 ^ 14) by (rewrite pow_IZR; reflexivity). rewrite X14 in TH. clear X14.
    unfold f1em14. set (t14 := fdec 1 14) in *. clearbody t14. cbv zeta. set (m := fnorm3 (base L) p) in *. clearbody m.
    assert (M1 : B2R m < B2R t14).
    { apply Rle_lt_trans with (1 := MT). apply Rle_lt_trans with (bpow radix2 (-100)); [apply bpow_le; lia|]. replace (bpow radix2 (-100)) with (/ 1267650600228229401496703205376) by (cbn; lra). lra. }
    assert (L1 : fltb m t14 = true). { destruct (fltb m t14) eqn:B; [reflexivity|]. apply (fltb_val _ _ FM F14) in B. lra. }
    assert (L2 : fltb (fabs m) t14 = true).
    { destruct (fltb (fabs m) t14) eqn:B; [reflexivity|]. assert (FB : is_finite (fabs m) = true) by (unfold fabs; now rewrite is_finite_Babs). apply (fltb_val _ _ FB F14) in B. unfold fabs in B. rewrite B2R_Babs, Rabs_pos_eq in B by exact M0. lra. }
    rewrite L1, L2. split; match goal with |- (if ?b then _ else _) = _ => destruct b end; reflexivity.
Qed.

(** EulerRodriguez::rotationMatrixToParameters does not truncate: a matrix within five roundings of a rotation makes all three parameters NaN, while
    RotationVector::rotationMatrixToParameters answers. *)
Definition long_turn : FM3 := fm3 (flit 2251799813685249 (-51)) (flit (-1) (-27)) fzero (flit 1 (-27)) fone fzero fzero fzero fone.
Lemma long_computed : (finite33b long_turn && fltb fone (ftrace long_turn) && is_finite (ftrace long_turn) && is_finite (fx (fskew long_turn)) && is_finite (fy (fskew long_turn)) && is_finite (fz (fskew long_turn))
  && feqb (fx (fskew long_turn)) fzero && feqb (fy (fskew long_turn)) fzero && feqb (fz (fskew long_turn)) (flit 1 (-26)))%bool = true.
Proof. vm_compute. reflexivity. Qed.
Lemma nan_mul (x y : f64) : is_nan x = true -> is_nan (fmul x y) = true. Proof. destruct x; try discriminate. destruct y; reflexivity. Qed.
Lemma nan_mul' (x y : f64) : is_nan y = true -> is_nan (fmul x y) = true. Proof. destruct y; try discriminate. destruct x; reflexivity. Qed.
Lemma nan_div (x y : f64) : is_nan x = true -> is_nan (fdiv x y) = true. Proof. destruct x; try discriminate. destruct y; reflexivity. Qed.
Theorem float_rodrigues_read_refuted : exists C, close33 C (Rz (/ 134217728)) (5 * u) /\
  forall L, lib2_ok L -> is_nan (fx (fer_params L C)) = true /\ is_nan (fy (fer_params L C)) = true /\ is_nan (fz (fer_params L C)) = true /\ finite3 (frv_params L C).
Proof.
  destruct fone_val as [F1 V1]. destruct tiny_vals as (T1 & T2 & T3 & T4). pose proof u_val as UV. pose proof u53_pos as UP.
  assert (VL : B2R (flit 2251799813685249 (-51)) = 1 + / 2251799813685248 /\ is_finite (flit 2251799813685249 (-51)) = true) by (split; [vm_compute; lra|reflexivity]). destruct VL as [VL FL].
  assert (CL : close33 long_turn (Rz (/ 134217728)) (5 * u)).
  { destruct (sin_cubic (/ 134217728) ltac:(lra)) as [S1 S2]. assert (C1 : 1 - / 134217728 * / 134217728 / 2 <= cos (/ 134217728) <= 1) by (split; [destruct (cos_quartic (/ 134217728) ltac:(lra)); lra|apply COS_bound]).
    unfold close33, close3, finite3, long_turn, fm3, Rz, m3. cbn [fr0 fr1 fr2 fx fy fz r30 r31 r32 vx vy vz]. rewrite VL, !V1, T1, T2. change (B2R fzero) with 0. rewrite !Rminus_0_r, !Rabs_R0.
    repeat match goal with |- _ /\ _ => split end; try assumption; try reflexivity; try lra; rewrite UV; apply Rabs_le; lra. }
  exists long_turn. split; [exact CL|]. intros L OK. pose proof long_computed as LC. rewrite !Bool.andb_true_iff in LC. destruct LC as ((((((((FF & TG) & FT) & FX) & FY) & FZ) & EX) & EY) & EZ).
  assert (FIN : finite3 (frv_params L long_turn)).
  { assert (TE : Rz (/ 134217728) = matrix_about (V3 0 0 (-1)) (/ 134217728)).
    { unfold matrix_about, aa_entries, Rz, m3. cbn [vx vy vz]. repeat f_equal; ring. }
    assert (UE : unit3 (V3 0 0 (-1))) by (unfold unit3, dot3; cbn [vx vy vz]; ring). rewrite TE in CL. pose proof PI_decimal as PD.
    destruct (read_close L long_turn (V3 0 0 (-1)) (/ 134217728) OK UE ltac:(lra)) as [(FR & _) _]; [|exact FR]. eapply close33_weaken; [exact CL|lra]. }
  destruct OK as (LO & _ & _ & AC & TN & _). apply (fltb_val _ _ F1 FT) in TG. rewrite V1 in TG.
  assert (NA : is_nan (m_acos L (ftrace long_turn)) = true) by (apply (AC _ FT); lra). set (a := m_acos L (ftrace long_turn)) in *.
  assert (NT : is_nan (m_tan L (fmul fhalf a)) = true) by (apply TN, nan_mul'; exact NA).
  unfold fer_params. fold a. cbv zeta. clearbody a.
  assert (B1 : fltb (fabs a) f1em14 = false) by (apply fcmp_nan; left; rewrite is_nan_fabs; exact NA). rewrite B1.
  assert (G : forall x y, is_finite x = true -> is_finite y = true -> feqb x y = true -> B2R x = B2R y). { intros x y Fx Fy E. apply (feqb_ext _ _ (is_nan_finite _ Fx) (is_nan_finite _ Fy)) in E. now rewrite !ext_finite in E by auto. }
  assert (V26 : B2R (flit 1 (-26)) = / 67108864 /\ is_finite (flit 1 (-26)) = true) by (split; [vm_compute; lra|reflexivity]). destruct V26 as [V26 F26].
  apply G in EX, EY, EZ; auto. change (B2R fzero) with 0 in EX, EY. rewrite V26 in EZ. set (p := fskew long_turn) in *. clearbody p.
  assert (N0 : norm3 (val3 p) = / 67108864).
  { unfold val3. rewrite EX, EY, EZ. unfold norm3, dot3. cbn [vx vy vz]. replace (0 * 0 + 0 * 0 + / 67108864 * / 67108864) with (/ 67108864 * / 67108864) by ring. apply sqrt_square. lra. }
  destruct (fnorm3_err (base L) p LO (conj FX (conj FY FZ))) as (FM & M0 & MN & _). { rewrite N0. apply Rle_trans with (bpow radix2 0); [cbn; lra|apply bpow_le; lia]. }
  rewrite N0 in MN. specialize (MN ltac:(unfold tiny400; apply Rle_trans with (bpow radix2 (-26)); [apply bpow_le; lia|replace (bpow radix2 (-26)) with (/ 67108864) by (cbn; lra); lra])).
  destruct (threshold 14 ltac:(lia)) as (F14 & TH). assert (X14 : IZR (10 ^ 14) = 10 ^ 14) by (rewrite pow_IZR; reflexivity). rewrite X14 in TH. clear X14 B1.
  unfold f1em14. set (t14 := fdec 1 14) in *. clearbody t14. set (m := fnorm3 (base L) p) in *. clearbody m. apply Rabs_le_inv in MN. rewrite UV in MN.
  assert (L1 : fltb m t14 = false). { destruct (fltb m t14) eqn:B; [|reflexivity]. apply (fltb_val _ _ FM F14) in B. lra. }
  rewrite L1. assert (NS : is_nan (fdiv (fneg (m_tan L (fmul fhalf a))) m) = true) by (apply nan_div; now rewrite is_nan_fneg). set (s := fdiv _ m) in *. clearbody s.
  unfold fscale3. cbn [fx fy fz]. split; [now apply nan_mul|]. split; [now apply nan_mul|]. split; [now apply nan_mul|exact FIN].
Qed.

(** *** the hypotheses are met *)
Lemma to_f64_val4 x : Rabs x <= 4 -> is_finite (to_f64 x) = true /\ B2R (to_f64 x) = rnd x.
Proof.
  intros X. unfold to_f64. pose proof (binary_normalize_correct 53 1024 (eq_refl _) (eq_refl _) mode_NE (Ztrunc (scaled_mantissa radix2 (SpecFloat.fexp 53 1024) (rnd x))) (cexp radix2 (SpecFloat.fexp 53 1024) (rnd x)) false) as K.
  assert (G : generic_format radix2 (SpecFloat.fexp 53 1024) (rnd x)) by (apply generic_format_round; [apply fexp_correct; reflexivity|apply valid_rnd_N]).
  rewrite <- G in K. cbn [round_mode] in K. assert (ID : rnd (rnd x) = rnd x) by (apply rnd_id; exact G).
  assert (B : Rabs (rnd x) <= bpow radix2 2) by (apply rnd_abs_le; [lia|exact X]).
  rewrite ID in K. rewrite Rlt_bool_true in K. { tauto. }
  apply Rle_lt_trans with (1 := B). apply bpow_lt. lia.
Qed.
Lemma rounded_close x : Rabs x <= 4 -> is_finite (to_f64 x) = true /\ Rabs (B2R (to_f64 x) - x) <= 2 * u * Rabs x + eta.
Proof. intros X. destruct (to_f64_val4 x X) as [F V]. split; [exact F|]. rewrite V. pose proof (rnd_err x). pose proof u53_pos as UP. pose proof (Rmult_le_pos u (Rabs x) ltac:(lra) (Rabs_pos _)). lra. Qed.
Definition inside (x : f64) : bool := if Rle_dec (Rabs (B2R x)) 1 then true else false.
Definition rounded_lib2 : lib2 := mkLib2 rounded_lib (fun x => if inside x then to_f64 (asin (B2R x)) else fnan) (fun x => if inside x then to_f64 (acos (B2R x)) else fnan)
  (fun x => if is_nan x then fnan else to_f64 (tan (B2R x))) (fun y x => to_f64 (atan2 (B2R y) (B2R x))).
Lemma atan2_small y x : Rabs (atan2 y x) <= 4.
Proof.
  pose proof PI_decimal as PD. destruct (Rlt_dec 0 (x * x + y * y)) as [H|H].
  - destruct (atan2_sincos y x H) as (_ & _ & B). apply Rabs_le. lra.
  - assert (X : x = 0) by (apply Rsqr_0_uniq; unfold Rsqr; pose proof (Rle_0_sqr x); pose proof (Rle_0_sqr y); unfold Rsqr in *; lra).
    assert (Y : y = 0) by (apply Rsqr_0_uniq; unfold Rsqr; pose proof (Rle_0_sqr x); pose proof (Rle_0_sqr y); unfold Rsqr in *; lra). subst x y.
    unfold atan2. repeat match goal with |- context [if ?b then _ else _] => destruct b; try lra end; apply Rabs_le; lra.
Qed.
Example rounded_lib2_ok : lib2_ok rounded_lib2.
Proof.
  pose proof PI_decimal as PD. split; [exact rounded_lib_ok|]. split.
  { intros x _. cbn [rounded_lib2 base rounded_lib m_sin]. destruct (to_f64_val (sin (B2R x)) (sin1 _)) as [_ V]. rewrite V. apply (rnd_abs_le _ 0); [lia|apply sin1]. }
  assert (AO : forall g, (forall t, Rabs (g t) <= 4) -> accurate_on (fun t => -1 <= t <= 1) (fun x => if inside x then to_f64 (g (B2R x)) else fnan) g).
  { intros g G x _. unfold inside. destruct (Rle_dec (Rabs (B2R x)) 1) as [H|H]; split; intros D.
    - apply rounded_close, G.
    - exfalso. apply D. apply Rabs_le_inv in H. lra.
    - exfalso. apply H, Rabs_le. lra.
    - reflexivity. }
  split; [apply AO; intros t; pose proof (asin_bound t); apply Rabs_le; lra|]. split; [apply AO; intros t; pose proof (acos_bound t); apply Rabs_le; lra|].
  split; [intros x N; cbn [rounded_lib2 m_tan]; rewrite N; reflexivity|]. intros y x _ _. cbn [rounded_lib2 m_atan2]. destruct (rounded_close _ (atan2_small (B2R y) (B2R x))) as [F E]. auto.
Qed.
Example ex_in_range : in_range (mkF3 (fofZ 3) (fofZ 1) (fofZ (-2))) /\ / 10 ^ 6 <= cos (B2R (fy (mkF3 (fofZ 3) (fofZ 1) (fofZ (-2))))).
Proof.
  destruct (fofZ_correct 3 ltac:(lia)) as [V3' F3']. destruct (fofZ_correct 1 ltac:(lia)) as [V1 F1]. destruct (fofZ_correct (-2) ltac:(lia)) as [V2 F2]. unfold in_range, finite3. cbn [fx fy fz].
  rewrite V3', V1, V2. split; [|destruct (cos_quartic 1 ltac:(lra)); lra]. split; [auto|]. unfold dPI, dPI2. repeat split; apply Rabs_le; lra.
Qed.
Example ex_readable : exists C, finite33 C /\ Rabs (B2R (fent C 2 0)) <= 1 /\ Rabs (B2R (fent C 2 1)) <= 1.
Proof. exists fidentity. split; [apply finite33b_ok; vm_compute; reflexivity|]. split; change (B2R (fent fidentity 2 0)) with 0; try change (B2R (fent fidentity 2 1)) with 0; rewrite Rabs_R0; lra. Qed.
Example ex_vector : exists p, finite3 p /\ / 10 ^ 3 <= norm3 (val3 p) <= PI - / 10 ^ 3.
Proof.
  exists (mkF3 (fofZ 1) fzero fzero). destruct (fofZ_correct 1 ltac:(lia)) as [V1 F1]. split; [unfold finite3; cbn [fx fy fz]; auto|]. unfold val3. cbn [fx fy fz]. rewrite V1. change (B2R fzero) with 0.
  rewrite norm3_x by lra. pose proof PI_decimal. lra.
Qed.
