(** C152: parameter rates and angular velocities in binary64. *)
From Coq Require Import Reals Psatz List Permutation.
From Verif Require GTest_Props DenseN Unc_FloatModel Unc_FloatProps.
From Verif Require Import Float64 Nsec_Proofs TimerTable_Num Round_Proofs Kin_Angle_Props Kin_Float_Model Kin_FloatExp_Model Kin_FloatR_Model Kin_FloatMat_Model Kin_FloatS_Model.
From Verif Require Import LinAlg Kin_Quat_Props Kin_Trans_Model Kin_Trans_Props Kin_Rot_Model Kin_Rot_Props Kin_Float_Geom Kin_Float_Num Kin_Float_Props Kin_Float_Matrix Kin_FloatR_Props Kin_FloatExp_Props Kin_FloatMat_Props Kin_Quat_Model.
Import ListNotations.
Open Scope R_scope.

(** the order of the sums in S * pdot: every term once *)
Definition lib3_ok (L : lib3) : Prop := lib_ok (lbase L) /\ forall i, Permutation (leaves (rows L i)) [0; 1; 2]%nat.

(** ** the S matrices of the Euler angles *)
Lemma trig_err L x : lib_ok L -> is_finite x = true -> ak (m_sin L x) (sin (B2R x)) (201 / 100) /\ ak (m_cos L x) (cos (B2R x)) (201 / 100).
Proof. intros (SO & CO & _) F. split; apply ak_accurate; auto using sin1, cos1. Qed.
Ltac small_ak := first [assumption | (eapply ak_weaken; [first [eassumption | apply ak_zero | apply ak_one | (apply ak_fneg; first [eassumption | apply ak_one])|apply pair_err; first [eassumption|apply ak_fneg; eassumption|apply neg1; assumption]]|lra])].
Lemma zyx_S_entries fsz fcz fsy fcy sz cz sy cy : ak fsz sz (201 / 100) -> ak fcz cz (201 / 100) -> ak fsy sy (201 / 100) -> ak fcy cy (201 / 100) ->
  Rabs sz <= 1 -> Rabs cz <= 1 -> Rabs sy <= 1 -> Rabs cy <= 1 ->
  close33 (fzyx_buildS fsz fcz fsy fcy) (zyx_buildS sz cz sy cy) (6 * u) /\ close33 (fypr_buildS fsz fcz fsy fcy) (ypr_buildS sz cz sy cy) (6 * u).
Proof.
  intros S1 C1 S2 C2 A B C D. split; apply ak_close; unfold fzyx_buildS, zyx_buildS, fypr_buildS, ypr_buildS, fm3, m3; cbn [fr0 fr1 fr2 fx fy fz r30 r31 r32 vx vy vz]; small_ak.
Qed.
Lemma zyx_S_close L p : lib_ok L -> finite3 p -> close33 (fzyx_S L p) (zyx_S (val3 p)) (6 * u).
Proof.
  intros OK (FX & FY & FZ). destruct (fneg_val _ FX) as [NX VX]. destruct (fneg_val _ FY) as [NY VY].
  destruct (trig_err L _ OK NX) as [S1 C1]. destruct (trig_err L _ OK NY) as [S2 C2]. rewrite VX in S1, C1. rewrite VY in S2, C2.
  unfold fzyx_S, zyx_S, val3. cbn [vx vy]. apply zyx_S_entries; auto using sin1, cos1.
Qed.
Lemma ypr_S_close L p : lib_ok L -> finite3 p -> close33 (fypr_S L p) (ypr_S (val3 p)) (6 * u).
Proof.
  intros OK (FX & FY & FZ). destruct (trig_err L _ OK FX) as [S1 C1]. destruct (trig_err L _ OK FY) as [S2 C2].
  unfold fypr_S, ypr_S, val3. cbn [vx vy]. apply zyx_S_entries; auto using sin1, cos1.
Qed.
Lemma zxy_S_close L p : lib_ok L -> finite3 p -> close33 (fzxy_S L p) (zxy_S (val3 p)) (6 * u).
Proof.
  intros OK (FX & FY & FZ). destruct (trig_err L _ OK FX) as [S1 C1]. destruct (trig_err L _ OK FY) as [S2 C2].
  unfold fzxy_S, zxy_S, val3. cbn [vx vy]. pose proof (sin1 (B2R (fx p))) as A. pose proof (cos1 (B2R (fx p))) as B. pose proof (sin1 (B2R (fy p))) as C. pose proof (cos1 (B2R (fy p))) as D.
  revert S1 C1 S2 C2 A B C D. generalize (sin (B2R (fx p))) (cos (B2R (fx p))) (sin (B2R (fy p))) (cos (B2R (fy p))) (m_sin L (fx p)) (m_cos L (fx p)) (m_sin L (fy p)) (m_cos L (fy p)).
  intros sz cz sx cx fsz fcz fsx fcx S1 C1 S2 C2 A B C D.
  apply ak_close; unfold fm3, m3; cbn [fr0 fr1 fr2 fx fy fz r30 r31 r32 vx vy vz]; small_ak.
Qed.

(** ** Rodrigues parameters *)
Lemma er_entries_close f S p kf : 0 <= kf <= 10 -> is_finite f = true -> finite3 p -> 0 <= S <= 2 -> S * (1 + dot3 (val3 p) (val3 p)) = 2 -> Rabs (B2R f - S) <= kf * u * S ->
  close33 (fer_entries f p) (mscale3 S (msub3 I3 (crossMx (val3 p)))) ((2 * kf + 3) * u).
Proof.
  intros KF FF (FX & FY & FZ) [S0 S2] SV SE. pose proof u53_pos as UP. pose proof u_val as UV. pose proof eta_pos as EP. pose proof eta_small as ES.
  assert (E : forall i I c C : f64, True -> forall (a b : R), is_finite i = true -> is_finite c = true -> B2R i = a -> B2R c = b -> (a = 0 \/ b = 0) -> Rabs (a - b) * S <= 2 -> ak (fmul f (fsub i c)) (S * (a - b)) (2 * kf + 3)).
  { intros i _ c _ _ a b FI FC IA CB Z M.
    assert (X : B2R (fsub i c) = a - b /\ is_finite (fsub i c) = true).
    { assert (G : format64 (a - b)).
      { destruct Z as [-> | ->]; [rewrite Rminus_0_l; apply generic_format_opp; rewrite <- CB; apply (generic_format_B2R 53 1024)|rewrite Rminus_0_r, <- IA; apply (generic_format_B2R 53 1024)]. }
      assert (BB : Rabs (a - b) < bpow radix2 1024).
      { destruct Z as [-> | ->]; [rewrite Rminus_0_l, Rabs_Ropp, <- CB; apply abs_B2R_lt_emax|rewrite Rminus_0_r, <- IA; apply abs_B2R_lt_emax]. }
      pose proof (Bminus_correct 53 1024 _ _ mode_NE i c FI FC) as H. rewrite IA, CB in H. rewrite round_generic in H by (try exact G; apply valid_rnd_N).
      rewrite Rlt_bool_true in H by exact BB. destruct H as (V & F & _). now split. }
    destruct X as [XV XF]. set (d := a - b) in *. assert (AD : Rabs (S * d) <= 2) by (rewrite Rabs_mult, (Rabs_pos_eq S) by lra; lra).
    assert (E1 : Rabs (B2R f * B2R (fsub i c) - S * d) <= kf * u * 2).
    { rewrite XV. replace (B2R f * d - S * d) with ((B2R f - S) * d) by ring. rewrite Rabs_mult.
      assert (Rabs (B2R f - S) * Rabs d <= kf * u * S * Rabs d) by (apply Rmult_le_compat_r; [apply Rabs_pos|lra]).
      assert (KU0 : 0 <= kf * u <= 10 * u) by (split; [apply Rmult_le_pos; lra|apply Rmult_le_compat_r; lra]). assert (kf * u * (Rabs d * S) <= kf * u * 2) by (apply Rmult_le_compat_l; lra). lra. }
    assert (B : Rabs (B2R f * B2R (fsub i c)) <= 201 / 100). { apply Rabs_le_inv in E1, AD. apply Rabs_le. assert (KU0 : 0 <= kf * u <= 10 * u) by (split; [apply Rmult_le_pos; lra|apply Rmult_le_compat_r; lra]). rewrite UV in E1, KU0. lra. }
    destruct (fmul_rnd f (fsub i c) 3 FF XF ltac:(lia)) as [VM FM]; [rewrite <- room8; lra|]. split; [exact FM|]. rewrite VM. apply Rle_trans with (1 := ap_rnd _ _ _ _ E1 B). lra. }
  destruct (fofZ_correct 1 ltac:(lia)) as [V1 F1]. assert (Z0 : is_finite fzero = true) by reflexivity. assert (ZV : B2R fzero = 0) by reflexivity.
  destruct (fneg_val _ FX) as [NX VX], (fneg_val _ FY) as [NY VY], (fneg_val _ FZ) as [NZ VZ].
  assert (DV : dot3 (val3 p) (val3 p) = B2R (fx p) * B2R (fx p) + B2R (fy p) * B2R (fy p) + B2R (fz p) * B2R (fz p)) by reflexivity.
  assert (A1 : forall v : R, 2 * Rabs v <= 1 + v * v).
  { intros v. assert (v * v = Rabs v * Rabs v) by (rewrite <- Rabs_mult; symmetry; apply Rabs_pos_eq; nra). pose proof (Rle_0_sqr (Rabs v - 1)) as Z. unfold Rsqr in Z. lra. }
  assert (SQ : forall v : R, 0 <= v * v) by (intros v; nra).
  assert (M : forall v, v * v <= dot3 (val3 p) (val3 p) -> Rabs v * S <= 2).
  { intros v Hv. specialize (A1 v). specialize (SQ v). apply Rle_trans with ((1 + dot3 (val3 p) (val3 p)) * S); [apply Rmult_le_compat_r; lra|lra]. }
  pose proof (SQ (B2R (fx p))) as QX. pose proof (SQ (B2R (fy p))) as QY. pose proof (SQ (B2R (fz p))) as QZ.
  assert (MX : Rabs (B2R (fx p)) * S <= 2) by (apply M; lra). assert (MY : Rabs (B2R (fy p)) * S <= 2) by (apply M; lra). assert (MZ : Rabs (B2R (fz p)) * S <= 2) by (apply M; lra).
  assert (T : forall (i c : f64) a b t, is_finite i = true -> is_finite c = true -> B2R i = a -> B2R c = b -> (a = 0 \/ b = 0) -> Rabs (a - b) * S <= 2 -> t = S * (a - b) -> ak (fmul f (fsub i c)) t (2 * kf + 3)).
  { intros i c a b t Fi Fc Ia Cb Z Hm ->. now apply E. }
  apply ak_close; unfold fer_entries, fm3, mscale3, msub3, I3, crossMx, m3, scale3, sub3, val3; cbn [fr0 fr1 fr2 fx fy fz r30 r31 r32 vx vy vz];
    (eapply T; [first [exact F1|exact Z0]|eassumption|first [exact V1|exact ZV]|first [eassumption|reflexivity]|auto| |try reflexivity; try ring]);
    try (rewrite Rminus_0_r, Rabs_R1; lra); rewrite Rminus_0_l, ?Rabs_Ropp; assumption.
Qed.
Lemma er_S_close L p : lib_ok L -> finite3 p -> norm3 (val3 p) <= bpow radix2 290 -> close33 (fer_S L p) (er_S (val3 p)) (14 * u).
Proof.
  intros OK FP NU. destruct (er_scale L p OK FP NU) as (FS & SE & N0 & NB). cbv zeta in *. unfold fer_S, er_S. set (s := fdiv (fofZ 2) (fadd fone (fdot3 L p))) in *. clearbody s.
  set (n2 := dot3 (val3 p) (val3 p)) in *. assert (SV : 2 / (1 + n2) * (1 + n2) = 2) by (field; lra).
  assert (0 < / (1 + n2)) by (apply Rinv_0_lt_compat; lra).
  assert (S0 : 0 <= 2 / (1 + n2)) by (unfold Rdiv; lra). eapply close33_weaken; [apply (er_entries_close _ _ _ (51 / 10)); auto; [lra|]|pose proof u53_pos; lra]. split; [exact S0|]. assert (0 <= 2 / (1 + n2) * n2) by (apply Rmult_le_pos; lra). lra.
Qed.

(** ** rotation vectors *)
(** the matrix for the rotation vector n e, e a unit vector, n > 0 *)
Definition rv_rates (e : vec3) (n : R) : mat3 :=
  let X := crossMx e in madd3 (madd3 I3 (mscale3 (- (2 * (sin (n / 2) * sin (n / 2)) / n)) X)) (mm3 (mscale3 (1 - sin n / n) X) X).
Lemma rv_S_rates p e : unit3 e -> p = scale3 (norm3 p) e -> / 10 ^ 14 <= norm3 p -> rv_S p = rv_rates e (norm3 p).
Proof.
  intros UE PE N. unfold rv_S, rv_rates. set (n := norm3 p) in *. destruct (Rlt_dec n (/ 10 ^ 14)) as [H|_]; [lra|]. assert (N0 : 0 < n) by lra. cbv zeta.
  replace (V3 (vx p * (1 / n)) (vy p * (1 / n)) (vz p * (1 / n))) with e.
  - replace (n * (1 / 2)) with (n / 2) by field. replace (-2 * sin (n / 2) * sin (n / 2) * (1 / n)) with (- (2 * (sin (n / 2) * sin (n / 2)) / n)) by (field; lra). replace ((n - sin n) * (1 / n)) with (1 - sin n / n) by (field; lra). reflexivity.
  - rewrite PE. unfold scale3. cbn [vx vy vz]. destruct e as [x y z]. cbn [vx vy vz]. f_equal; field; lra.
Qed.
Lemma ak_mul2 x a k y c l : ak x a k -> ak y c l -> Rabs a <= 2 -> Rabs c <= 1 -> k * u <= 1 / 100 -> l * u <= 1 / 100 -> ak (fmul x y) (a * c) (101 / 100 * k + 2 * l + 205 / 100).
Proof.
  intros X Y A C K L. pose proof (ap_abs _ _ _ X) as AX. pose proof (ap_abs _ _ _ Y) as AY. destruct X as [FX X], Y as [FY Y].
  pose proof u53_pos as UP. pose proof eta_small as ES.
  assert (P : Rabs (B2R x * B2R y) <= 2031 / 1000) by (rewrite Rabs_mult; apply Rle_trans with (201 / 100 * (101 / 100)); [apply Rmult_le_compat; auto using Rabs_pos; lra|lra]).
  destruct (fmul_rnd x y 3 FX FY ltac:(lia)) as [E F]; [rewrite <- room8; lra|]. split; [exact F|]. rewrite E.
  assert (D : Rabs (B2R x * B2R y - a * c) <= k * u * (101 / 100) + 2 * (l * u)).
  { replace (B2R x * B2R y - a * c) with ((B2R x - a) * B2R y + a * (B2R y - c)) by ring. apply Rle_trans with (1 := Rabs_triang _ _). rewrite !Rabs_mult.
    assert (Rabs (B2R x - a) * Rabs (B2R y) <= k * u * (101 / 100)) by (apply Rmult_le_compat; auto using Rabs_pos; lra).
    assert (Rabs a * Rabs (B2R y - c) <= 2 * (l * u)) by (apply Rmult_le_compat; auto using Rabs_pos). lra. }
  apply Rle_trans with (1 := ap_rnd _ _ _ _ D P). lra.
Qed.
Section Reciprocal.
  Variables (th : f64) (n : R).
  Hypothesis (FT : is_finite th = true) (NB : / 10 ^ 15 <= n <= 10 ^ 12) (TN : Rabs (B2R th - n) <= 42 / 10 * u * n).
  Lemma length_bounds : 0 < n /\ 0 <= u * n <= n / 1000000 /\ 999 / 1000 * n <= B2R th <= 1001 / 1000 * n /\ eta <= u * n / 1000.
  Proof using NB TN.
    pose proof u53_pos as UP. pose proof u_val as UV. destruct NB as [N0 N1]. assert (N : 0 < n) by lra.
    assert (UN : 0 <= u * n <= n / 1000000) by (split; [apply Rmult_le_pos; lra|]; replace (n / 1000000) with (/ 1000000 * n) by field; apply Rmult_le_compat_r; lra).
    refine (conj N (conj UN (conj _ _))); [apply Rabs_le_inv in TN; lra|].
    apply Rle_trans with (bpow radix2 (-200)); [apply bpow_le; lia|]. replace (bpow radix2 (-200)) with (/ 1606938044258990275541962092341162602522202993782792835301376) by (cbn; lra).
    assert (u * / 10 ^ 15 <= u * n) by (apply Rmult_le_compat_l; lra). rewrite UV in *. lra.
  Qed.
  Lemma recip_near : let ra := fdiv fone th in is_finite ra = true /\ Rabs (n * B2R ra - 1) <= 53 / 10 * u.
  Proof using FT NB TN.
    destruct length_bounds as (N & UN & TB & EN). pose proof u53_pos as UP. pose proof u_val as UV. pose proof eta_pos as EP. destruct NB as [N0 N1]. set (T := B2R th) in *.
    assert (TP : 0 < T) by lra. assert (IT0 : 0 < / T) by now apply Rinv_0_lt_compat.
    assert (NT : n * / T <= 1002 / 1000).
    { apply Rmult_le_reg_r with T; [lra|]. rewrite Rmult_assoc, Rinv_l, Rmult_1_r by lra. lra. }
    assert (IB : / T <= bpow radix2 60).
    { change (bpow radix2 60) with 1152921504606846976. assert (5 / 10 * / 10 ^ 15 <= T) by lra. apply Rle_trans with (/ (5 / 10 * / 10 ^ 15)); [apply Rinv_le; lra|lra]. }
    destruct (fofZ_correct 1 ltac:(lia)) as [V1 F1]. destruct (fdiv_rnd fone th 60 F1 ltac:(fold T; lra) ltac:(lia)) as [VD FD].
    { unfold fone. rewrite V1. fold T. unfold Rdiv. rewrite Rmult_1_l, Rabs_pos_eq by lra. exact IB. }
    unfold fone in VD at 2. rewrite V1 in VD. fold T in VD. unfold Rdiv in VD. rewrite Rmult_1_l in VD. cbv zeta. set (ra := fdiv fone th) in *. split; [exact FD|].
    pose proof (rnd_err (/ T)) as RD. rewrite <- VD, (Rabs_pos_eq (/ T)) in RD by lra.
    assert (NE : n * eta <= u / 1000).
    { rewrite UV. apply Rle_trans with (10 ^ 12 * bpow radix2 (-1075)); [apply Rmult_le_compat_r; lra|]. apply Rle_trans with (10 ^ 12 * bpow radix2 (-200)); [apply Rmult_le_compat_l; [lra|apply bpow_le; lia]|].
      replace (bpow radix2 (-200)) with (/ 1606938044258990275541962092341162602522202993782792835301376) by (cbn; lra). lra. }
    assert (UNT : u * (n * / T) <= u * (1002 / 1000)) by (apply Rmult_le_compat_l; lra).
    replace (n * B2R ra - 1) with (n * (B2R ra - / T) + - (T - n) * / T) by (field; lra). apply Rle_trans with (1 := Rabs_triang _ _). rewrite !Rabs_mult, Rabs_Ropp, (Rabs_pos_eq n), (Rabs_pos_eq (/ T)) by lra.
    assert (n * Rabs (B2R ra - / T) <= n * (u * / T + eta)) by (apply Rmult_le_compat_l; lra).
    assert (Rabs (T - n) * / T <= 42 / 10 * u * n * / T) by (apply Rmult_le_compat_r; lra). lra.
  Qed.
  (** from errors relative to n to errors relative to 1 *)
  Lemma over_length x a k : is_finite x = true -> Rabs (B2R x - n * a) <= k * (u * n) -> Rabs a <= 2 -> 0 <= k <= 100 -> ak (fmul x (fdiv fone th)) a (101 / 100 * k + 127 / 10).
  Proof using FT NB TN.
    intros FX X A K. destruct recip_near as [FR W]. destruct length_bounds as (N & UN & TB & EN). set (ra := fdiv fone th) in *. clearbody ra. pose proof u53_pos as UP. pose proof u_val as UV. pose proof eta_small as ES.
    set (d := n * B2R ra) in *. assert (D : Rabs d <= 1001 / 1000) by (apply Rabs_le_inv in W; apply Rabs_le; rewrite UV in W; lra).
    assert (E : Rabs (B2R x * B2R ra - a) <= (1001 / 1000 * k + 106 / 10) * u).
    { replace (B2R x * B2R ra - a) with ((B2R x - n * a) * / n * d + a * (d - 1)) by (unfold d; field; lra). apply Rle_trans with (1 := Rabs_triang _ _). rewrite !Rabs_mult, (Rabs_pos_eq (/ n)) by (left; now apply Rinv_0_lt_compat).
      assert (Rabs (B2R x - n * a) * / n <= k * u).
      { apply Rmult_le_reg_r with n; [exact N|]. rewrite Rmult_assoc, Rinv_l, Rmult_1_r by lra. lra. }
      assert (Rabs (B2R x - n * a) * / n * Rabs d <= k * u * (1001 / 1000)).
      { apply Rmult_le_compat; auto using Rabs_pos. apply Rmult_le_pos; [apply Rabs_pos|left; now apply Rinv_0_lt_compat]. }
      assert (Rabs a * Rabs (d - 1) <= 2 * (53 / 10 * u)) by (apply Rmult_le_compat; auto using Rabs_pos). lra. }
    assert (KU : (1001 / 1000 * k + 106 / 10) * u <= 1000 * u) by (apply Rmult_le_compat_r; lra).
    assert (B : Rabs (B2R x * B2R ra) <= 201 / 100). { apply Rabs_le_inv in E, A. apply Rabs_le. rewrite UV in *. lra. }
    destruct (fmul_rnd x ra 3 FX FR ltac:(lia)) as [VM FM]; [rewrite <- room8; lra|]. split; [exact FM|]. rewrite VM. apply Rle_trans with (1 := ap_rnd _ _ _ _ E B). assert (0 <= k * u) by (apply Rmult_le_pos; lra). lra.
  Qed.
  (** sin of a computed angle *)
  Lemma sin_relative L (h : f64) (c d : R) : lib_ok L -> is_finite h = true -> 0 <= c <= 1 -> Rabs (B2R h - n * c) <= d * (u * n) -> 0 <= d <= 100 ->
    is_finite (m_sin L h) = true /\ Rabs (B2R (m_sin L h) - sin (n * c)) <= (d + 2 * c + 1 / 100) * (u * n).
  Proof using NB TN.
    intros (SO & _) F C HD D. destruct (SO h F) as [FS SE]. split; [exact FS|]. destruct length_bounds as (N & UN & TB & EN). pose proof u53_pos as UP. pose proof u_val as UV.
    pose proof (sin_dist (B2R h) (n * c)) as SD. pose proof (sin_abs (B2R h)) as SA.
    assert (NC : 0 <= n * c) by (apply Rmult_le_pos; lra).
    assert (HB : Rabs (B2R h) <= n * c + d * (u * n)) by (apply Rabs_le_inv in HD; apply Rabs_le; lra).
    assert (U2 : u * Rabs (sin (B2R h)) <= u * (n * c + d * (u * n))) by (apply Rmult_le_compat_l; lra).
    assert (U3 : u * (d * (u * n)) <= 2 / 1000 * (u * n)).
    { replace (u * (d * (u * n))) with (u * d * (u * n)) by ring. apply Rmult_le_compat_r; [lra|]. assert (u * d <= u * 100) by (apply Rmult_le_compat_l; lra). rewrite UV in *. lra. }
    replace (B2R (m_sin L h) - sin (n * c)) with ((B2R (m_sin L h) - sin (B2R h)) + (sin (B2R h) - sin (n * c))) by ring. apply Rle_trans with (1 := Rabs_triang _ _). lra.
  Qed.
End Reciprocal.
Lemma sinc_bounds n : 0 < n -> 0 <= sin n / n + 1 <= 2 /\ Rabs (sin n / n) <= 1 /\ 0 <= 1 - sin n / n <= 2 /\ 0 <= 2 * (sin (n / 2) * sin (n / 2)) / n <= 1 /\ Rabs (sin (n / 2)) <= n / 2.
Proof.
  intros N. pose proof (sin_abs n) as A. rewrite (Rabs_pos_eq n) in A by lra. assert (IN : 0 < / n) by now apply Rinv_0_lt_compat.
  assert (B : Rabs (sin n / n) <= 1). { unfold Rdiv. rewrite Rabs_mult, (Rabs_pos_eq (/ n)) by lra. apply Rmult_le_reg_r with n; [exact N|]. rewrite Rmult_assoc, Rinv_l by lra. lra. }
  pose proof (Rabs_le_inv _ _ B) as B'. pose proof (sin_abs (n / 2)) as C. rewrite (Rabs_pos_eq (n / 2)) in C by lra.
  assert (D : 0 <= sin (n / 2) * sin (n / 2) <= n / 2).
  { split; [apply Rle_0_sqr|]. replace (sin (n / 2) * sin (n / 2)) with (Rabs (sin (n / 2)) * Rabs (sin (n / 2))) by (rewrite <- Rabs_mult; apply Rabs_pos_eq, Rle_0_sqr).
    apply Rle_trans with (1 * (n / 2)); [apply Rmult_le_compat; auto using Rabs_pos, sin1|lra]. }
  repeat split; try lra; try apply B'.
  - unfold Rdiv. apply Rmult_le_pos; lra.
  - apply Rmult_le_reg_r with n; [exact N|]. unfold Rdiv at 1. rewrite Rmult_assoc, Rinv_l by lra. lra.
Qed.
Lemma rv_coefficients L th n : lib_ok L -> is_finite th = true -> / 10 ^ 15 <= n <= 10 ^ 12 -> Rabs (B2R th - n) <= 42 / 10 * u * n ->
  let ra := fdiv fone th in let st2 := m_sin L (fmul th fhalf) in
  ak (fmul (fmul (fmul (fofZ (-2)) st2) st2) ra) (- (2 * (sin (n / 2) * sin (n / 2)) / n)) 32 /\ ak (fmul (fsub th (m_sin L th)) ra) (1 - sin n / n) 27.
Proof.
  intros OK FT NB TN ra st2. destruct (length_bounds th n NB TN) as (N & UN & TB & EN). destruct (sinc_bounds n N) as (_ & SB & SC & SD & SE).
  pose proof u53_pos as UP. pose proof u_val as UV. pose proof eta_pos as EP.
  assert (R60 : 10 ^ 13 <= bpow radix2 60) by (change (bpow radix2 60) with 1152921504606846976; lra).
  assert (UU : u * (u * n) <= 1 / 1000 * (u * n)) by (apply Rmult_le_compat_r; rewrite ?UV; lra).
  split.
  - destruct half_val as [VH FH].
    destruct (fmul_rnd th fhalf 60 FT FH ltac:(lia)) as [V1 F1]; [rewrite VH; rewrite Rabs_pos_eq by lra; lra|]. set (h := fmul th fhalf) in *.
    assert (H1 : Rabs (B2R h - n * (1 / 2)) <= 3 * (u * n)).
    { rewrite V1, VH. pose proof (rnd_err (B2R th * (1 / 2))) as RE. rewrite (Rabs_pos_eq (B2R th * (1 / 2))) in RE by lra.
      assert (u * (B2R th * (1 / 2)) <= u * (1001 / 1000 * n * (1 / 2))) by (apply Rmult_le_compat_l; lra).
      replace (rnd (B2R th * (1 / 2)) - n * (1 / 2)) with ((rnd (B2R th * (1 / 2)) - B2R th * (1 / 2)) + (B2R th - n) * (1 / 2)) by ring. apply Rle_trans with (1 := Rabs_triang _ _).
      rewrite (Rabs_mult _ (1 / 2)), (Rabs_pos_eq (1 / 2)) by lra. lra. }
    destruct (sin_relative th n NB TN L h (1 / 2) 3 OK F1 ltac:(lra) H1 ltac:(lra)) as [FS S1]. change (m_sin L h) with st2 in FS, S1. clearbody st2. replace (n * (1 / 2)) with (n / 2) in S1 by field. set (s := sin (n / 2)) in *.
    assert (S1' : Rabs (B2R st2 - s) <= 402 / 100 * (u * n)) by lra. clear S1.
    assert (s1 : Rabs s <= 1) by apply sin1. assert (SS : Rabs (B2R st2) <= 1001 / 1000 /\ Rabs (B2R st2) <= 51 / 100 * n).
    { assert (Rabs (B2R st2) <= Rabs s + 402 / 100 * (u * n)) by (replace (B2R st2) with ((B2R st2 - s) + s) by ring; apply Rle_trans with (1 := Rabs_triang _ _); lra).
      assert (u * n <= / 5000) by (apply Rle_trans with (u * 10 ^ 12); [apply Rmult_le_compat_l; lra|rewrite UV; lra]). split; lra. }
    destruct (fofZ_correct (-2) ltac:(lia)) as [V2 F2].
    assert (Q1 : Rabs (-2 * B2R st2) <= 202 / 100 /\ Rabs (-2 * B2R st2) <= 102 / 100 * n) by (rewrite Rabs_mult; replace (Rabs (-2)) with 2 by (rewrite Rabs_left; lra); lra).
    destruct (fmul_rnd (fofZ (-2)) st2 3 F2 FS ltac:(lia)) as [V3 F3]; [rewrite V2, <- room8; lra|]. rewrite V2 in V3. set (m := fmul (fofZ (-2)) st2) in *.
    assert (M1 : Rabs (B2R m - -2 * s) <= 91 / 10 * (u * n)).
    { rewrite V3. pose proof (rnd_err (-2 * B2R st2)) as RE. assert (u * Rabs (-2 * B2R st2) <= u * (102 / 100 * n)) by (apply Rmult_le_compat_l; lra).
      replace (rnd (-2 * B2R st2) - -2 * s) with ((rnd (-2 * B2R st2) - -2 * B2R st2) + -2 * (B2R st2 - s)) by ring. apply Rle_trans with (1 := Rabs_triang _ _).
      rewrite (Rabs_mult (-2)). replace (Rabs (-2)) with 2 by (rewrite Rabs_left; lra). lra. }
    assert (M2 : Rabs (B2R m * B2R st2 - -2 * s * s) <= 173 / 10 * (u * n)).
    { replace (B2R m * B2R st2 - -2 * s * s) with ((B2R m - -2 * s) * B2R st2 + -2 * (s * (B2R st2 - s))) by ring. apply Rle_trans with (1 := Rabs_triang _ _).
      rewrite !Rabs_mult. replace (Rabs (-2)) with 2 by (rewrite Rabs_left; lra).
      assert (Rabs (B2R m - -2 * s) * Rabs (B2R st2) <= 91 / 10 * (u * n) * (1001 / 1000)) by (apply Rmult_le_compat; auto using Rabs_pos; lra).
      assert (Rabs s * Rabs (B2R st2 - s) <= 1 * (402 / 100 * (u * n))) by (apply Rmult_le_compat; auto using Rabs_pos). lra. }
    assert (SQ : Rabs (-2 * s * s) <= n).
    { replace (-2 * s * s) with (- (2 * (s * s))) by ring. rewrite Rabs_Ropp, Rabs_pos_eq by (pose proof (Rle_0_sqr s) as Z; unfold Rsqr in Z; lra). destruct SD as [_ SD].
      apply (Rmult_le_compat_r n) in SD; [|lra]. unfold Rdiv in SD. rewrite Rmult_assoc, Rinv_l in SD by lra. lra. }
    assert (SQ2 : Rabs (-2 * s * s) <= 2). { rewrite !Rabs_mult. replace (Rabs (-2)) with 2 by (rewrite Rabs_left; lra). assert (Rabs s * Rabs s <= 1 * 1) by (apply Rmult_le_compat; auto using Rabs_pos). lra. }
    assert (PB : Rabs (B2R m * B2R st2) <= 1001 / 1000 * n /\ Rabs (B2R m * B2R st2) <= 4).
    { assert (Rabs (B2R m * B2R st2) <= Rabs (-2 * s * s) + 173 / 10 * (u * n)) by (replace (B2R m * B2R st2) with ((B2R m * B2R st2 - -2 * s * s) + -2 * s * s) by ring; apply Rle_trans with (1 := Rabs_triang _ _); lra).
      assert (u * n <= / 5000) by (apply Rle_trans with (u * 10 ^ 12); [apply Rmult_le_compat_l; lra|rewrite UV; lra]). split; lra. }
    destruct (fmul_rnd m st2 3 F3 FS ltac:(lia)) as [V4 F4]; [rewrite <- room8; lra|]. set (m2 := fmul m st2) in *.
    eapply ak_weaken; [apply (over_length th n FT NB TN m2 _ (184 / 10) F4); [|rewrite Rabs_Ropp, Rabs_pos_eq; lra|lra]|lra].
    replace (n * - (2 * (s * s) / n)) with (-2 * s * s) by (field; lra). rewrite V4. pose proof (rnd_err (B2R m * B2R st2)) as RE.
    assert (u * Rabs (B2R m * B2R st2) <= u * (1001 / 1000 * n)) by (apply Rmult_le_compat_l; lra).
    replace (rnd (B2R m * B2R st2) - -2 * s * s) with ((rnd (B2R m * B2R st2) - B2R m * B2R st2) + (B2R m * B2R st2 - -2 * s * s)) by ring. apply Rle_trans with (1 := Rabs_triang _ _). lra.
  - destruct (sin_relative th n NB TN L th 1 (42 / 10) OK FT ltac:(lra) ltac:(rewrite Rmult_1_r; lra) ltac:(lra)) as [FS S1]. rewrite Rmult_1_r in S1. set (st := m_sin L th) in *. set (s := sin n) in *.
    assert (s1 : Rabs s <= n). { pose proof (sin_abs n) as A. rewrite (Rabs_pos_eq n) in A by lra. exact A. }
    assert (D1 : Rabs (B2R th - B2R st - (n - s)) <= 105 / 10 * (u * n)).
    { replace (B2R th - B2R st - (n - s)) with ((B2R th - n) + - (B2R st - s)) by ring. apply Rle_trans with (1 := Rabs_triang _ _). rewrite Rabs_Ropp. lra. }
    assert (D2 : Rabs (B2R th - B2R st) <= 201 / 100 * n). { apply Rabs_le_inv in D1, s1. apply Rabs_le. lra. }
    destruct (fsub_rnd th st 60 FT FS ltac:(lia)) as [V3 F3]; [lra|].
    eapply ak_weaken; [apply (over_length th n FT NB TN (fsub th st) _ (127 / 10) F3); [|rewrite Rabs_pos_eq; lra|lra]|lra].
    replace (n * (1 - s / n)) with (n - s) by (field; lra). rewrite V3. pose proof (rnd_err (B2R th - B2R st)) as RE.
    assert (u * Rabs (B2R th - B2R st) <= u * (201 / 100 * n)) by (apply Rmult_le_compat_l; lra).
    replace (rnd (B2R th - B2R st) - (n - s)) with ((rnd (B2R th - B2R st) - (B2R th - B2R st)) + (B2R th - B2R st - (n - s))) by ring. apply Rle_trans with (1 := Rabs_triang _ _). lra.
Qed.
(** the three coefficients *)
Lemma cross_poly_close fac c1 c2 a C1 C2 e : unit3 e -> ak c1 C1 32 -> ak c2 C2 27 -> Rabs C1 <= 1 -> Rabs C2 <= 2 -> ak (fx a) (vx e) 7 -> ak (fy a) (vy e) 7 -> ak (fz a) (vz e) 7 ->
  close33 (fcross_poly fac c1 c2 a) (let X := crossMx e in madd3 (madd3 I3 (mscale3 C1 X)) (mm3 (mscale3 C2 X) X)) (175 * u).
Proof.
  intros UE K1 K2 B1 B2 X Y Z. destruct (unit_comp e UE) as (X1 & Y1 & Z1).
  assert (PR : forall f g x y, ak f x 7 -> ak g y 7 -> Rabs x <= 1 -> Rabs y <= 1 -> ak (fmul f g) (x * y) (152 / 10)).
  { intros f g x y F G A B. eapply ak_weaken; [apply (ak_mul _ _ _ _ _ _ F G A B); apply small_k; lra|lra]. }
  assert (P2 : forall f x, ak f x 7 -> Rabs x <= 1 -> ak (fmul c2 f) (C2 * x) (434 / 10) /\ Rabs (C2 * x) <= 2).
  { intros f x F A. split; [eapply ak_weaken; [apply (ak_mul2 _ _ _ _ _ _ K2 F B2 A); apply small_k; lra|lra]|]. rewrite Rabs_mult. apply Rle_trans with (2 * 1); [apply Rmult_le_compat; auto using Rabs_pos|lra]. }
  assert (CC : forall f g x y, ak f x 7 -> ak g y 7 -> Rabs x <= 1 -> Rabs y <= 1 -> ak (fcc fac c2 f g) (C2 * x * y) 61 /\ Rabs (C2 * x * y) <= 2).
  { intros f g x y F G A B. destruct (P2 f x F A) as [Q QB]. split.
    - unfold fcc. destruct fac.
      + rewrite Rmult_assoc. eapply ak_weaken; [apply (ak_mul2 _ _ _ _ _ _ K2 (PR _ _ _ _ F G A B) B2 (prod1 _ _ A B)); apply small_k; lra|lra].
      + eapply ak_weaken; [apply (ak_mul2 _ _ _ _ _ _ Q G QB B); apply small_k; lra|lra].
    - rewrite Rabs_mult. apply Rle_trans with (2 * 1); [apply Rmult_le_compat; auto using Rabs_pos|lra]. }
  assert (CS : forall f x, ak f x 7 -> Rabs x <= 1 -> ak (fmul c1 f) (C1 * x) (404 / 10) /\ Rabs (C1 * x) <= 1).
  { intros f x F A. split; [|now apply prod1]. eapply ak_weaken; [apply (ak_mul _ _ _ _ _ _ K1 F B1 A); apply small_k; lra|lra]. }
  assert (OFF : forall s f g x y z, ak s z 7 -> ak f x 7 -> ak g y 7 -> Rabs z <= 1 -> Rabs x <= 1 -> Rabs y <= 1 -> ak (fadd (fadd fzero (fmul c1 s)) (fcc fac c2 f g)) (0 + C1 * z + C2 * x * y) 175).
  { intros s f g x y z SS F G A B C. destruct (CS s z SS A) as [Q QB]. destruct (CC f g x y F G B C) as [P PB].
    assert (Q2 : ak (fadd fzero (fmul c1 s)) (0 + C1 * z) (415 / 10)). { eapply ak_weaken; [apply (ak_add _ _ _ _ _ _ 1 ak_zero Q); try (apply small_k; lra); rewrite ?Rabs_R0; lra|lra]. }
    eapply ak_weaken; [apply (ak_add _ _ _ _ _ _ 3 Q2 P); try (apply small_k; lra); rewrite ?Rplus_0_l; lra|lra]. }
  assert (DG : forall f g x y, ak f x 7 -> ak g y 7 -> Rabs x <= 1 -> Rabs y <= 1 -> x * x + y * y <= 1 -> ak (fadd (fadd fone (fmul c1 fzero)) (fcd fac c2 f g)) (1 + C1 * 0 + (C2 * - x * x + C2 * y * - y)) 175).
  { intros f g x y F G A B N. pose proof (ak_fneg _ _ _ F) as NF. pose proof (ak_fneg _ _ _ G) as NG. pose proof (neg1 _ A) as NA. pose proof (neg1 _ B) as NB.
    assert (SX : 0 <= x * x) by apply Rle_0_sqr. assert (SY : 0 <= y * y) by apply Rle_0_sqr. assert (AN : Rabs (- x * x + y * - y) <= 1) by (apply Rabs_le; lra).
    assert (MB : Rabs (C2 * (- x * x + y * - y)) <= 2) by (rewrite Rabs_mult; apply Rle_trans with (2 * 1); [apply Rmult_le_compat; auto using Rabs_pos|lra]).
    assert (Q : ak (fcd fac c2 f g) (C2 * - x * x + C2 * y * - y) 130).
    { unfold fcd. destruct fac.
      - eapply ak_eq; [|instantiate (1 := C2 * (- x * x + y * - y)); ring].
        assert (S2 : ak (fadd (fmul (fneg f) f) (fmul g (fneg g))) (- x * x + y * - y) (325 / 10)).
        { eapply ak_weaken; [apply (ak_add _ _ _ _ _ _ 2 (PR _ _ _ _ NF F NA A) (PR _ _ _ _ G NG B NB)); try (apply small_k; lra); [|lra]; pose proof (prod1 _ _ NA A); pose proof (prod1 _ _ B NB); lra|lra]. }
        eapply ak_weaken; [apply (ak_mul2 _ _ _ _ _ _ K2 S2 B2 AN); apply small_k; lra|lra].
      - destruct (P2 (fneg f) (- x) NF NA) as [Q1 QB1]. destruct (P2 g y G B) as [Q2 QB2].
        assert (T1 : ak (fmul (fmul c2 (fneg f)) f) (C2 * - x * x) 61) by (eapply ak_weaken; [apply (ak_mul2 _ _ _ _ _ _ Q1 F QB1 A); apply small_k; lra|lra]).
        assert (T2 : ak (fmul (fmul c2 g) (fneg g)) (C2 * y * - y) 61) by (eapply ak_weaken; [apply (ak_mul2 _ _ _ _ _ _ Q2 NG QB2 NB); apply small_k; lra|lra]).
        eapply ak_weaken; [apply (ak_add _ _ _ _ _ _ 4 T1 T2); try (apply small_k; lra); [|lra]|lra].
        assert (Rabs (C2 * - x * x) <= 2) by (rewrite Rabs_mult; apply Rle_trans with (2 * 1); [apply Rmult_le_compat; auto using Rabs_pos|lra]).
        assert (Rabs (C2 * y * - y) <= 2) by (rewrite Rabs_mult; apply Rle_trans with (2 * 1); [apply Rmult_le_compat; auto using Rabs_pos|lra]). lra. }
    assert (ZO : ak (fmul c1 fzero) (C1 * 0) (334 / 10)). { eapply ak_weaken; [apply (ak_mul _ _ _ _ _ _ K1 ak_zero B1); [rewrite Rabs_R0; lra|apply small_k; lra|apply small_k; lra]|lra]. }
    assert (I1 : ak (fadd fone (fmul c1 fzero)) (1 + C1 * 0) (345 / 10)).
    { eapply ak_weaken; [apply (ak_add _ _ _ _ _ _ 1 ak_one ZO); try (apply small_k; lra); rewrite ?Rmult_0_r, ?Rabs_R0, ?Rabs_R1; lra|lra]. }
    eapply ak_weaken; [apply (ak_add _ _ _ _ _ _ 3 I1 Q); try (apply small_k; lra); [|lra]|lra].
    rewrite Rmult_0_r, Rplus_0_r, Rabs_R1. replace (C2 * - x * x + C2 * y * - y) with (C2 * (- x * x + y * - y)) by ring. lra. }
  unfold unit3, dot3 in UE. pose proof (Rle_0_sqr (vx e)) as SX. pose proof (Rle_0_sqr (vy e)) as SY. pose proof (Rle_0_sqr (vz e)) as SZ. unfold Rsqr in SX, SY, SZ.
  pose proof (ak_fneg _ _ _ X) as NX. pose proof (ak_fneg _ _ _ Y) as NY. pose proof (ak_fneg _ _ _ Z) as NZ. pose proof (neg1 _ X1) as nX. pose proof (neg1 _ Y1) as nY. pose proof (neg1 _ Z1) as nZ.
  apply ak_close; unfold fcross_poly, fm3, madd3, mm3, mscale3, I3, crossMx, m3, add3, scale3, rowmul3, col3, dot3, at3; cbn [fr0 fr1 fr2 fx fy fz r30 r31 r32 vx vy vz];
    (eapply ak_eq; [first [eapply (DG _ _ _ _); [first [exact X|exact Y|exact Z]|first [exact X|exact Y|exact Z]|assumption|assumption|lra]
                          |eapply (OFF _ _ _ _ _ _); [first [exact X|exact Y|exact Z|exact NX|exact NY|exact NZ]|first [exact X|exact Y|exact Z]|first [exact X|exact Y|exact Z]|assumption|assumption|assumption]]|ring]).
Qed.
Lemma identity_rates e n : unit3 e -> 0 < n <= / 1000 -> close33 fidentity (rv_rates e n) (6 / 10 * n).
Proof.
  intros UE [N0 N1]. destruct (unit_comp e UE) as (X1 & Y1 & Z1). destruct (sin_cubic n ltac:(lra)) as [L U]. destruct (sin_cubic (n / 2) ltac:(lra)) as [L2 U2].
  set (C1 := - (2 * (sin (n / 2) * sin (n / 2)) / n)). set (C2 := 1 - sin n / n).
  assert (IN : 0 < / n) by now apply Rinv_0_lt_compat.
  assert (B2 : 0 <= C2 <= n * n / 6).
  { unfold C2. assert (1 - n * n / 6 <= sin n / n <= 1); [|lra]. split; apply Rmult_le_reg_r with n; auto; unfold Rdiv; rewrite ?(Rmult_assoc (sin n)), ?Rinv_l by lra; lra. }
  assert (S0 : 0 <= sin (n / 2)). { assert (n / 2 * (n / 2) * (n / 2) <= 1 * (n / 2)); [|lra]. apply Rmult_le_compat_r; [lra|]. assert (n / 2 * (n / 2) <= 1 * 1) by (apply Rmult_le_compat; lra). lra. }
  assert (B1 : Rabs C1 <= n / 2).
  { unfold C1. rewrite Rabs_Ropp. assert (Q : sin (n / 2) * sin (n / 2) <= n / 2 * (n / 2)) by (apply Rmult_le_compat; lra). assert (0 <= sin (n / 2) * sin (n / 2)) by apply Rle_0_sqr.
    rewrite Rabs_pos_eq by (apply Rmult_le_pos; lra). apply Rmult_le_reg_r with n; [lra|]. unfold Rdiv. rewrite Rmult_assoc, Rinv_l by lra. lra. }
  assert (NN : n * n / 6 <= n / 6000) by (assert (n * n <= / 1000 * n) by (apply Rmult_le_compat_r; lra); lra).
  assert (OFF : forall a b c, Rabs a <= 1 -> Rabs b <= 1 -> Rabs c <= 1 -> Rabs (0 - (C1 * a + C2 * b * c)) <= 6 / 10 * n).
  { intros a b c A B C. rewrite Rminus_0_l, Rabs_Ropp. apply Rle_trans with (1 := Rabs_triang _ _). rewrite !Rabs_mult, (Rabs_pos_eq C2) by lra.
    assert (Rabs C1 * Rabs a <= n / 2 * 1) by (apply Rmult_le_compat; auto using Rabs_pos). assert (C2 * Rabs b <= n / 6000 * 1) by (apply Rmult_le_compat; auto using Rabs_pos; lra).
    assert (C2 * Rabs b * Rabs c <= n / 6000 * 1) by (apply Rmult_le_compat; auto using Rabs_pos; try lra; apply Rmult_le_pos; [lra|apply Rabs_pos]). lra. }
  assert (DG : forall a b, Rabs a <= 1 -> Rabs b <= 1 -> Rabs (1 - (1 - C2 * (a * a + b * b))) <= 6 / 10 * n).
  { intros a b A B. replace (1 - (1 - C2 * (a * a + b * b))) with (C2 * (a * a + b * b)) by ring.
    assert (0 <= a * a <= 1) by (pose proof (prod1 a a A A) as P; apply Rabs_le_inv in P; split; [apply Rle_0_sqr|lra]). assert (0 <= b * b <= 1) by (pose proof (prod1 b b B B) as P; apply Rabs_le_inv in P; split; [apply Rle_0_sqr|lra]).
    rewrite Rabs_pos_eq by (apply Rmult_le_pos; lra). apply Rle_trans with (n / 6000 * 2); [apply Rmult_le_compat; lra|lra]. }
  destruct (fofZ_correct 1 ltac:(lia)) as [V1 F1]. assert (Z0 : is_finite fzero = true) by reflexivity. assert (ZV : B2R fzero = 0) by reflexivity.
  pose proof (neg1 _ X1) as nX. pose proof (neg1 _ Y1) as nY. pose proof (neg1 _ Z1) as nZ.
  unfold close33, close3, finite3, fidentity, fm3, fone, rv_rates. fold C1 C2. cbv zeta. unfold madd3, mm3, mscale3, I3, crossMx, m3, add3, scale3, rowmul3, col3, dot3, at3.
  cbn [fr0 fr1 fr2 fx fy fz r30 r31 r32 vx vy vz]. rewrite V1, ZV. clearbody C1 C2.
  assert (T : forall x y b : R, x = y -> Rabs y <= b -> Rabs x <= b) by (intros x y b ->; auto).
  repeat match goal with |- _ /\ _ => split end; try assumption;
    first [eapply T; [|first [apply (DG (vz e) (vy e)); assumption]]; ring | eapply T; [|apply (DG (vz e) (vx e)); assumption]; ring | eapply T; [|apply (DG (vy e) (vx e)); assumption]; ring
          |eapply T; [|apply (OFF (- vz e) (vy e) (vx e)); assumption]; ring | eapply T; [|apply (OFF (vy e) (vz e) (vx e)); assumption]; ring | eapply T; [|apply (OFF (vz e) (vy e) (vx e)); assumption]; ring
          |eapply T; [|apply (OFF (- vx e) (vz e) (vy e)); assumption]; ring | eapply T; [|apply (OFF (- vy e) (vz e) (vx e)); assumption]; ring | eapply T; [|apply (OFF (vx e) (vz e) (vy e)); assumption]; ring].
Qed.
Lemma rv_S_branches L p e : lib3_ok L -> finite3 p -> unit3 e -> val3 p = scale3 (norm3 (val3 p)) e -> 0 < norm3 (val3 p) <= 10 ^ 12 ->
  close33 (frv_S L p) (rv_rates e (norm3 (val3 p))) (175 * u).
Proof.
  intros [OK _] FP UE PE [N0 NU]. destruct (fnorm3_err (lbase L) p OK FP ltac:(pose proof room12; lra)) as (FT & T0 & TN & TT).
  set (n := norm3 (val3 p)) in *. destruct (threshold 14 ltac:(lia)) as [FK [KL KU]]. change (IZR (10 ^ 14)) with 100000000000000 in *.
  pose proof u53_pos as UP. pose proof u_val as UV. unfold frv_S. unfold f1em14. set (t14 := fdec 1 14) in *. clearbody t14. set (th := fnorm3 (lbase L) p) in *.
  assert (UN : 0 <= u * n <= n / 1000000) by (split; [apply Rmult_le_pos; lra|]; replace (n / 1000000) with (/ 1000000 * n) by field; apply Rmult_le_compat_r; lra).
  assert (TY : tiny400 <= / 10 ^ 15 / 1000). { apply Rle_trans with (bpow radix2 (-100)); [apply bpow_le; lia|]. replace (bpow radix2 (-100)) with (/ 1267650600228229401496703205376) by (cbn; lra). lra. }
  assert (TY3 : bpow radix2 (-300) <= / 10 ^ 15 / 1000). { apply Rle_trans with (bpow radix2 (-100)); [apply bpow_le; lia|]. replace (bpow radix2 (-100)) with (/ 1267650600228229401496703205376) by (cbn; lra). lra. }
  destruct (fltb th t14) eqn:LT.
  - apply (proj1 (ltb_val _ _ FT FK)) in LT. assert (NB : n <= 1001 / 1000 * / 100000000000000).
    { destruct (Rlt_or_le n tiny400) as [SM|BG]; [lra|]. specialize (TN BG). apply Rabs_le_inv in TN. lra. }
    eapply close33_weaken; [apply (identity_rates e n UE); lra|]. rewrite UV. lra.
  - apply (proj2 (ltb_val _ _ FT FK)) in LT. destruct (Rlt_or_le n tiny400) as [SM|BG]; [specialize (TT SM); lra|]. specialize (TN BG).
    assert (NB : / 10 ^ 15 <= n <= 10 ^ 12) by (apply Rabs_le_inv in TN; lra).
    destruct (rv_coefficients (lbase L) th n OK FT NB TN) as [K1 K2]. destruct (sinc_bounds n N0) as (_ & _ & SC & SD & _). cbv zeta in *.
    destruct FP as (FX & FY & FZ). destruct (unit_comp e UE) as (X1 & Y1 & Z1). pose proof (f_equal vx PE) as PX. pose proof (f_equal vy PE) as PY. pose proof (f_equal vz PE) as PZ. unfold val3, scale3 in PX, PY, PZ. cbn [vx vy vz] in PX, PY, PZ.
    refine (cross_poly_close (factored L) _ _ _ _ _ e UE K1 K2 _ _ _ _ _); cbn [fx fy fz].
    + rewrite Rabs_Ropp, Rabs_pos_eq; lra.
    + rewrite Rabs_pos_eq; lra.
    + exact (axis_comp _ th _ n FX FT NB TN PX X1).
    + exact (axis_comp _ th _ n FY FT NB TN PY Y1).
    + exact (axis_comp _ th _ n FZ FT NB TN PZ Z1).
Qed.

(** ** S * pdot *)
Definition norm1 (q : vec3) : R := Rabs (vx q) + Rabs (vy q) + Rabs (vz q).
Lemma row_err t (a q : F3) (v : vec3) k : Permutation (leaves t) [0; 1; 2]%nat -> close3 a v (k * u) -> Rabs (vx v) <= 2 -> Rabs (vy v) <= 2 -> Rabs (vz v) <= 2 -> 0 <= k <= 1000 ->
  finite3 q -> norm1 (val3 q) <= bpow radix2 800 -> is_finite (frowdot t a q) = true /\ Rabs (B2R (frowdot t a q) - dot3 v (val3 q)) <= (k + 7) * u * norm1 (val3 q) + 6 * eta.
Proof.
  intros P ((FA & FB & FC) & EA & EB & EC) A B C K (GA & GB & GC) Q. pose proof u53_pos as UP. pose proof u_val as UV.
  assert (KU : 0 <= k * u <= 1000 * u) by (split; [apply Rmult_le_pos; lra|apply Rmult_le_compat_r; lra]).
  unfold norm1, val3 in *. cbn [vx vy vz] in *. pose proof (Rabs_pos (B2R (fx q))) as Q0. pose proof (Rabs_pos (B2R (fy q))) as Q1. pose proof (Rabs_pos (B2R (fz q))) as Q2.
  assert (M : forall (x : f64) y, Rabs (B2R x - y) <= k * u -> Rabs y <= 2 -> Rabs (B2R x) <= 201 / 100).
  { intros x y E Y. replace (B2R x) with ((B2R x - y) + y) by ring. apply Rle_trans with (1 := Rabs_triang _ _). rewrite UV in *. lra. }
  pose proof (M _ _ EA A) as MA. pose proof (M _ _ EB B) as MB. pose proof (M _ _ EC C) as MC.
  assert (BB : bpow radix2 801 = 2 * bpow radix2 800) by (change 2 with (bpow radix2 1); rewrite <- bpow_plus; reflexivity).
  assert (B9 : 4 * bpow radix2 800 <= bpow radix2 900) by (replace (4 * bpow radix2 800) with (bpow radix2 802) by (change 4 with (bpow radix2 2); rewrite <- bpow_plus; reflexivity); apply bpow_le; lia).
  assert (PB : forall x y, Rabs x <= 201 / 100 -> Rabs y <= bpow radix2 800 -> Rabs x * Rabs y <= bpow radix2 900).
  { intros x y X Y. apply Rle_trans with (201 / 100 * bpow radix2 800); [apply Rmult_le_compat; auto using Rabs_pos|]. pose proof (bpow_ge_0 radix2 800). lra. }
  destruct (Unc_FloatProps.fdot_err 3 t (fat3 a) (fat3 q)) as [F E].
  { unfold Unc_FloatProps.dim_ok. cbn. lra. }
  { exact P. }
  { intros [|[|[|i]]] I; [| | |lia]; cbn [fat3]; refine (conj _ (conj _ _)); try assumption; apply PB; auto; lra. }
  change (Unc_FloatModel.fdotn t (fat3 a) (fat3 q)) with (frowdot t a q) in *. split; [exact F|].
  pose proof (Unc_FloatProps.g_small 3) as G. cbn [INR] in G. specialize (G ltac:(rewrite UV; lra)).
  unfold DenseN.dotn, Unc_FloatProps.absv, Unc_FloatProps.vv in E. cbn [DenseN.sumn fat3 INR] in E. rewrite !Rplus_0_l in E. set (r := B2R (frowdot t a q)) in *. clearbody r.
  set (S := Rabs (B2R (fx q)) + Rabs (B2R (fy q)) + Rabs (B2R (fz q))) in *. assert (S0 : 0 <= S) by (unfold S; lra).
  assert (T : Rabs (B2R (fx a)) * Rabs (B2R (fx q)) + Rabs (B2R (fy a)) * Rabs (B2R (fy q)) + Rabs (B2R (fz a)) * Rabs (B2R (fz q)) <= 201 / 100 * S).
  { assert (Rabs (B2R (fx a)) * Rabs (B2R (fx q)) <= 201 / 100 * Rabs (B2R (fx q))) by (apply Rmult_le_compat_r; lra). assert (Rabs (B2R (fy a)) * Rabs (B2R (fy q)) <= 201 / 100 * Rabs (B2R (fy q))) by (apply Rmult_le_compat_r; lra).
    assert (Rabs (B2R (fz a)) * Rabs (B2R (fz q)) <= 201 / 100 * Rabs (B2R (fz q))) by (apply Rmult_le_compat_r; lra). unfold S. lra. }
  pose proof (Unc_FloatProps.g_pos 3) as G0.
  assert (GT : Unc_FloatProps.g 3 * (Rabs (B2R (fx a)) * Rabs (B2R (fx q)) + Rabs (B2R (fy a)) * Rabs (B2R (fy q)) + Rabs (B2R (fz a)) * Rabs (B2R (fz q))) <= 101 / 100 * (1 + 1 + 1) * u * (201 / 100 * S)).
  { apply Rle_trans with (Unc_FloatProps.g 3 * (201 / 100 * S)); [apply Rmult_le_compat_l; auto|]. apply Rmult_le_compat_r; [lra|exact G]. }
  assert (D : Rabs (B2R (fx a) * B2R (fx q) + B2R (fy a) * B2R (fy q) + B2R (fz a) * B2R (fz q) - (vx v * B2R (fx q) + vy v * B2R (fy q) + vz v * B2R (fz q))) <= k * u * S).
  { replace (B2R (fx a) * B2R (fx q) + B2R (fy a) * B2R (fy q) + B2R (fz a) * B2R (fz q) - (vx v * B2R (fx q) + vy v * B2R (fy q) + vz v * B2R (fz q)))
      with ((B2R (fx a) - vx v) * B2R (fx q) + (B2R (fy a) - vy v) * B2R (fy q) + (B2R (fz a) - vz v) * B2R (fz q)) by ring.
    apply Rle_trans with (1 := Rabs_triang _ _). pose proof (Rabs_triang ((B2R (fx a) - vx v) * B2R (fx q)) ((B2R (fy a) - vy v) * B2R (fy q))) as T2. rewrite !Rabs_mult in *.
    pose proof (Rmult_le_compat_r _ _ _ Q0 EA). pose proof (Rmult_le_compat_r _ _ _ Q1 EB). pose proof (Rmult_le_compat_r _ _ _ Q2 EC). unfold S. lra. }
  assert (US : 0 <= u * S) by (apply Rmult_le_pos; lra). unfold dot3. cbn [vx vy vz].
  match goal with |- Rabs (r - ?z) <= _ => replace (r - z) with ((r - (B2R (fx a) * B2R (fx q) + B2R (fy a) * B2R (fy q) + B2R (fz a) * B2R (fz q))) + (B2R (fx a) * B2R (fx q) + B2R (fy a) * B2R (fy q) + B2R (fz a) * B2R (fz q) - z)) by ring end.
  apply Rle_trans with (1 := Rabs_triang _ _). lra.
Qed.
Definition entries_below (M : mat3) (b : R) : Prop := forall i j, (i < 3)%nat -> (j < 3)%nat -> Rabs (at3 (match i with O => r30 M | S O => r31 M | _ => r32 M end) j) <= b.
Lemma mv_err L A M q k : lib3_ok L -> close33 A M (k * u) -> entries_below M 2 -> 0 <= k <= 1000 -> finite3 q -> norm1 (val3 q) <= bpow radix2 800 ->
  close3 (fmv3 L A q) (mv3 M (val3 q)) ((k + 7) * u * norm1 (val3 q) + 6 * eta).
Proof.
  intros [_ O] (C0 & C1 & C2) M2 K F Q.
  destruct (row_err (rows L 0%nat) _ q _ k (O 0%nat) C0 (M2 0%nat 0%nat ltac:(lia) ltac:(lia)) (M2 0%nat 1%nat ltac:(lia) ltac:(lia)) (M2 0%nat 2%nat ltac:(lia) ltac:(lia)) K F Q) as [F0 E0].
  destruct (row_err (rows L 1%nat) _ q _ k (O 1%nat) C1 (M2 1%nat 0%nat ltac:(lia) ltac:(lia)) (M2 1%nat 1%nat ltac:(lia) ltac:(lia)) (M2 1%nat 2%nat ltac:(lia) ltac:(lia)) K F Q) as [F1 E1].
  destruct (row_err (rows L 2%nat) _ q _ k (O 2%nat) C2 (M2 2%nat 0%nat ltac:(lia) ltac:(lia)) (M2 2%nat 1%nat ltac:(lia) ltac:(lia)) (M2 2%nat 2%nat ltac:(lia) ltac:(lia)) K F Q) as [F2 E2].
  unfold close3, finite3, fmv3, mv3. cbn [fx fy fz vx vy vz]. auto 10.
Qed.
Lemma entries_by (M : mat3) b : Rabs (vx (r30 M)) <= b -> Rabs (vy (r30 M)) <= b -> Rabs (vz (r30 M)) <= b -> Rabs (vx (r31 M)) <= b -> Rabs (vy (r31 M)) <= b -> Rabs (vz (r31 M)) <= b ->
  Rabs (vx (r32 M)) <= b -> Rabs (vy (r32 M)) <= b -> Rabs (vz (r32 M)) <= b -> entries_below M b.
Proof. intros. intros [|[|[|i]]] [|[|[|j]]] I J; try lia; cbn [at3]; assumption. Qed.
Lemma buildS_entries sz cz sy cy : Rabs sz <= 1 -> Rabs cz <= 1 -> Rabs sy <= 1 -> Rabs cy <= 1 -> entries_below (zyx_buildS sz cz sy cy) 2 /\ entries_below (ypr_buildS sz cz sy cy) 2.
Proof.
  intros A B C D. assert (N : forall x, Rabs x <= 1 -> Rabs x <= 2) by (intros; lra).
  split; apply entries_by; unfold zyx_buildS, ypr_buildS, m3; cbn [r30 r31 r32 vx vy vz]; apply N; first [assumption|apply neg1; assumption|rewrite Rabs_R0; lra|rewrite Rabs_R1; lra|apply prod1; [first [assumption|apply neg1; assumption]|assumption]|apply Rabs_le; lra].
Qed.
Lemma zxy_entries p : entries_below (zxy_S p) 2.
Proof.
  assert (N : forall x, Rabs x <= 1 -> Rabs x <= 2) by (intros; lra).
  apply entries_by; unfold zxy_S, m3; cbn [r30 r31 r32 vx vy vz]; apply N; first [apply sin1|apply cos1|apply neg1, sin1|apply neg1, cos1|rewrite Rabs_R0; lra|apply prod1; [first [apply cos1|apply neg1, cos1]|first [apply sin1|apply cos1]]|apply Rabs_le; lra].
Qed.
Lemma er_entries S p : 0 <= S <= 2 -> S * (1 + dot3 p p) = 2 -> entries_below (mscale3 S (msub3 I3 (crossMx p))) 2.
Proof.
  intros [S0 S2] SV.
  assert (A1 : forall v : R, 2 * Rabs v <= 1 + v * v).
  { intros v. assert (v * v = Rabs v * Rabs v) by (rewrite <- Rabs_mult; symmetry; apply Rabs_pos_eq; nra). pose proof (Rle_0_sqr (Rabs v - 1)) as Z. unfold Rsqr in Z. lra. }
  assert (M : forall v, v * v <= dot3 p p -> Rabs (S * v) <= 2).
  { intros v Hv. specialize (A1 v). rewrite Rabs_mult, (Rabs_pos_eq S) by lra. apply Rle_trans with (S * (1 + dot3 p p)); [apply Rmult_le_compat_l; try lra; assert (0 <= v * v) by apply Rle_0_sqr; lra|lra]. }
  pose proof (Rle_0_sqr (vx p)) as X. pose proof (Rle_0_sqr (vy p)) as Y. pose proof (Rle_0_sqr (vz p)) as Z. unfold Rsqr in X, Y, Z.
  assert (MX := M (vx p)). assert (MY := M (vy p)). assert (MZ := M (vz p)). unfold dot3 in MX, MY, MZ. specialize (MX ltac:(lra)). specialize (MY ltac:(lra)). specialize (MZ ltac:(lra)).
  assert (T : forall x y b : R, Rabs x <= b -> (y = x \/ y = - x) -> Rabs y <= b) by (intros x y b H [-> | ->]; rewrite ?Rabs_Ropp; auto).
  assert (S' : Rabs S <= 2) by (rewrite Rabs_pos_eq; lra).
  apply entries_by; unfold mscale3, msub3, I3, crossMx, m3, scale3, sub3; cbn [r30 r31 r32 vx vy vz];
    first [eapply T; [exact S'|left; ring]|eapply T; [exact MX|first [left; ring|right; ring]]|eapply T; [exact MY|first [left; ring|right; ring]]|eapply T; [exact MZ|first [left; ring|right; ring]]].
Qed.
Lemma rv_entries e n : unit3 e -> 0 < n -> entries_below (rv_rates e n) 2.
Proof.
  intros UE N0. destruct (sinc_bounds n N0) as (_ & _ & SC & SD & _). destruct (unit_comp e UE) as (X1 & Y1 & Z1). unfold unit3, dot3 in UE.
  unfold rv_rates. set (C1 := - (2 * (sin (n / 2) * sin (n / 2)) / n)). set (C2 := 1 - sin n / n) in *. assert (B1 : Rabs C1 <= 1) by (unfold C1; rewrite Rabs_Ropp, Rabs_pos_eq; lra). clearbody C1 C2.
  assert (OFF : forall a b c, Rabs a <= 1 -> b * b + c * c <= 1 -> Rabs (C1 * a + C2 * (b * c)) <= 2).
  { intros a b c A BC. apply Rle_trans with (1 := Rabs_triang _ _). rewrite !(Rabs_mult _ a), (Rabs_mult C2), (Rabs_pos_eq C2) by lra.
    assert (Rabs C1 * Rabs a <= 1 * 1) by (apply Rmult_le_compat; auto using Rabs_pos). assert (Rabs (b * c) <= 1 / 2).
    { apply Rabs_le. pose proof (Rle_0_sqr (b + c)) as P. pose proof (Rle_0_sqr (b - c)) as Q. unfold Rsqr in P, Q. lra. }
    assert (C2 * Rabs (b * c) <= 2 * (1 / 2)) by (apply Rmult_le_compat; try lra; apply Rabs_pos). lra. }
  pose proof (Rle_0_sqr (vx e)) as X. pose proof (Rle_0_sqr (vy e)) as Y. pose proof (Rle_0_sqr (vz e)) as Z. unfold Rsqr in X, Y, Z.
  assert (DG : forall s, 0 <= s <= 1 -> Rabs (1 - C2 * s) <= 2).
  { intros s Hs. assert (0 <= C2 * s <= 2 * 1) by (split; [apply Rmult_le_pos; lra|apply Rmult_le_compat; lra]). apply Rabs_le. lra. }
  pose proof (neg1 _ X1) as nX. pose proof (neg1 _ Y1) as nY. pose proof (neg1 _ Z1) as nZ.
  assert (T : forall x y b : R, x = y -> Rabs y <= b -> Rabs x <= b) by (intros x y b ->; auto).
  apply entries_by; cbv zeta; unfold madd3, mm3, mscale3, I3, crossMx, m3, add3, scale3, rowmul3, col3, dot3, at3; cbn [r30 r31 r32 vx vy vz];
    first [eapply T; [|apply (DG (vz e * vz e + vy e * vy e)); lra]; ring | eapply T; [|apply (DG (vz e * vz e + vx e * vx e)); lra]; ring | eapply T; [|apply (DG (vy e * vy e + vx e * vx e)); lra]; ring
          |eapply T; [|apply (OFF (- vz e) (vy e) (vx e)); [assumption|lra]]; ring | eapply T; [|apply (OFF (vy e) (vz e) (vx e)); [assumption|lra]]; ring | eapply T; [|apply (OFF (vz e) (vy e) (vx e)); [assumption|lra]]; ring
          |eapply T; [|apply (OFF (- vx e) (vz e) (vy e)); [assumption|lra]]; ring | eapply T; [|apply (OFF (- vy e) (vz e) (vx e)); [assumption|lra]]; ring | eapply T; [|apply (OFF (vx e) (vz e) (vy e)); [assumption|lra]]; ring].
Qed.
(** the second way EulerRodriguez computes its factor: 2 * (1.0/(1.0 + ...)) *)
Lemma er_scale2 L p : lib_ok L -> finite3 p -> norm3 (val3 p) <= bpow radix2 290 ->
  let n2 := dot3 (val3 p) (val3 p) in let rd := fdiv fone (fadd fone (fdot3 L p)) in let f := fmul (fofZ 2) rd in
  (is_finite f = true /\ Rabs (B2R f - 2 / (1 + n2)) <= 9 * u * (2 / (1 + n2))) /\ is_finite rd = true /\ Rabs (2 * B2R rd - 2 / (1 + n2)) <= 74 / 10 * (u * (2 / (1 + n2))).
Proof.
  intros OK FP NU. destruct (er_scale L p OK FP NU) as (FS & SE & N0 & NB). cbv zeta in *. set (n2 := dot3 (val3 p) (val3 p)) in *. set (w := fadd fone (fdot3 L p)) in *. clearbody w.
  pose proof u53_pos as UP. pose proof u_val as UV. pose proof eta_pos as EP. set (S := 2 / (1 + n2)) in *.
  assert (SV : S * (1 + n2) = 2) by (unfold S; field; lra). assert (IP : 0 < / (1 + n2)) by (apply Rinv_0_lt_compat; lra). assert (SP : 0 < S) by (unfold S, Rdiv; lra).
  assert (S2 : S <= 2). { assert (0 <= S * n2) by (apply Rmult_le_pos; lra). lra. }
  assert (ET : eta <= 1 / 1000 * u * S).
  { assert (SB : bpow radix2 (-600) <= S).
    { unfold S. apply Rmult_le_reg_r with (1 + n2); [lra|]. replace (2 / (1 + n2) * (1 + n2)) with 2 by (field; lra). apply Rle_trans with (bpow radix2 (-600) * BIG); [apply Rmult_le_compat_l; [apply bpow_ge_0|lra]|].
      unfold BIG. rewrite <- bpow_plus. cbn. lra. }
    apply Rle_trans with (1 / 1000 * u * bpow radix2 (-600)); [|apply Rmult_le_compat_l; lra].
    rewrite UV. apply Rle_trans with (/ 10 ^ 20 * bpow radix2 (-600)); [|apply Rmult_le_compat_r; [apply bpow_ge_0|lra]].
    apply Rle_trans with (bpow radix2 (-100) * bpow radix2 (-600)); [rewrite <- bpow_plus; apply bpow_le; lia|]. apply Rmult_le_compat_r; [apply bpow_ge_0|]. replace (bpow radix2 (-100)) with (/ 1267650600228229401496703205376) by (cbn; lra). lra. }
  assert (US : u * S <= / 1000000 * S) by (apply Rmult_le_compat_r; rewrite ?UV; lra).
  destruct two_val as [V2 F2]. destruct (fofZ_correct 1 ltac:(lia)) as [V1 F1].
  assert (WF : is_finite w = true /\ 0 < B2R w).
  { assert (P : 0 < B2R (fdiv (fofZ 2) w)) by (apply Rabs_le_inv in SE; lra).
    destruct w as [sw|sw| |sw mw ew pw].
    - exfalso. revert FS. vm_compute. destruct sw; discriminate.
    - exfalso. revert P. replace (B2R (fdiv (fofZ 2) (B754_infinity sw))) with 0 by (destruct sw; vm_compute; reflexivity). lra.
    - exfalso. revert FS. vm_compute. discriminate.
    - split; [reflexivity|]. destruct sw; [|cbn; apply F2R_gt_0; cbn; lia]. exfalso.
      assert (NW : B2R (B754_finite true mw ew pw : f64) < 0) by (cbn; apply F2R_lt_0; cbn; lia). set (w := B754_finite true mw ew pw : f64) in *.
      pose proof (Bdiv_correct 53 1024 _ _ mode_NE (fofZ 2) w ltac:(lra)) as H. destruct (Rlt_bool _ _).
      + destruct H as (V & _). unfold fdiv in P. rewrite V, V2 in P.
        assert (rnd (2 / B2R w) <= 0).
        { rewrite <- (round_0 radix2 fexp64 ZnearestE). apply round_le; try typeclasses eauto. unfold Rdiv. pose proof (Rinv_lt_0_compat _ NW). lra. }
        revert P. unfold round_mode. lra.
      + unfold fdiv in FS. rewrite <- is_finite_SF_B2SF, H in FS. unfold binary_overflow in FS. cbn in FS. discriminate. }
  destruct WF as [FW PW]. assert (IW : 0 < / B2R w) by now apply Rinv_0_lt_compat.
  (* B2R w is within a factor of the exact denominator *)
  assert (WS : 2 / B2R w <= 11 / 10 * S).
  { assert (FSB : B2R (fdiv (fofZ 2) w) <= 1001 / 1000 * S) by (apply Rabs_le_inv in SE; lra).
    destruct (Rle_or_lt (2 / B2R w) (11 / 10 * S)) as [H|H]; [exact H|exfalso].
    assert (M : rnd (11 / 10 * S) <= rnd (2 / B2R w)) by (apply round_le; try typeclasses eauto; lra).
    pose proof (rnd_err (11 / 10 * S)) as R1. rewrite (Rabs_pos_eq (11 / 10 * S)) in R1 by lra. apply Rabs_le_inv in R1.
    pose proof (Bdiv_correct 53 1024 _ _ mode_NE (fofZ 2) w ltac:(lra)) as H1. destruct (Rlt_bool _ _) eqn:RB.
    - destruct H1 as (V & _). unfold fdiv in FSB. rewrite V, V2 in FSB. unfold round_mode in FSB. lra.
    - unfold fdiv in FS. rewrite <- is_finite_SF_B2SF, H1 in FS. unfold binary_overflow in FS. cbn in FS. discriminate. }
  assert (P2 : 0 < 2 / B2R w) by (unfold Rdiv; lra).
  destruct (fdiv_rnd (fofZ 2) w 3 F2 ltac:(lra) ltac:(lia)) as [V3 F3]; [rewrite V2, Rabs_pos_eq, <- room8; lra|]. rewrite V2 in V3.
  destruct (fdiv_rnd fone w 3 F1 ltac:(lra) ltac:(lia)) as [V4 F4]; [unfold fone; rewrite V1, Rabs_pos_eq, <- room8; unfold Rdiv in *; lra|]. unfold fone in V4 at 2. rewrite V1 in V4.
  pose proof (rnd_err (2 / B2R w)) as R2. rewrite <- V3, (Rabs_pos_eq (2 / B2R w)) in R2 by lra.
  pose proof (rnd_err (1 / B2R w)) as R1. rewrite <- V4, (Rabs_pos_eq (1 / B2R w)) in R1 by (unfold Rdiv in *; lra). set (rd := fdiv fone w) in *. set (sv := B2R (fdiv (fofZ 2) w)) in *.
  assert (UW : u * (2 / B2R w) <= u * (11 / 10 * S)) by (apply Rmult_le_compat_l; lra). assert (H12 : 1 / B2R w = 2 / B2R w * / 2) by (unfold Rdiv; field; lra). rewrite H12 in R1.
  assert (E : Rabs (2 * B2R rd - S) <= 74 / 10 * (u * S)).
  { replace (2 * B2R rd - S) with (2 * (B2R rd - 2 / B2R w * / 2) + - (sv - 2 / B2R w) + (sv - S)) by (field; lra).
    apply Rle_trans with (1 := Rabs_triang _ _). pose proof (Rabs_triang (2 * (B2R rd - 2 / B2R w * / 2)) (- (sv - 2 / B2R w))) as T. rewrite Rabs_Ropp, Rabs_mult, (Rabs_pos_eq 2) in T by lra. lra. }
  assert (B : Rabs (2 * B2R rd) <= 1001 / 1000 * S) by (apply Rabs_le_inv in E; apply Rabs_le; lra).
  split; [|split; [exact F4|exact E]].
  destruct (fmul_rnd (fofZ 2) rd 3 F2 F4 ltac:(lia)) as [V5 F5]; [rewrite V2, <- room8; lra|]. rewrite V2 in V5. split; [exact F5|]. rewrite V5.
  pose proof (rnd_err (2 * B2R rd)) as R5. assert (u * Rabs (2 * B2R rd) <= u * (1001 / 1000 * S)) by (apply Rmult_le_compat_l; lra).
  replace (rnd (2 * B2R rd) - S) with ((rnd (2 * B2R rd) - 2 * B2R rd) + (2 * B2R rd - S)) by ring. apply Rle_trans with (1 := Rabs_triang _ _). lra.
Qed.

(** ** C152 *)
Theorem float_rate_matrices L p : lib3_ok L -> finite3 p ->
  close33 (fzyx_S (lbase L) p) (zyx_S (val3 p)) (6 * u) /\ close33 (fypr_S (lbase L) p) (ypr_S (val3 p)) (6 * u) /\ close33 (fzxy_S (lbase L) p) (zxy_S (val3 p)) (6 * u) /\
  (norm3 (val3 p) <= bpow radix2 290 -> close33 (fer_S (lbase L) p) (er_S (val3 p)) (14 * u)) /\
  (/ 10 ^ 14 <= norm3 (val3 p) <= 10 ^ 12 -> close33 (frv_S L p) (rv_S (val3 p)) (175 * u)).
Proof.
  intros OK FP. pose proof OK as [OB _]. refine (conj (zyx_S_close _ _ OB FP) (conj (ypr_S_close _ _ OB FP) (conj (zxy_S_close _ _ OB FP) (conj (er_S_close _ _ OB FP) _)))).
  intros [N0 NU]. assert (NP : 0 < norm3 (val3 p)) by lra. set (n := norm3 (val3 p)) in *. set (e := scale3 (/ n) (val3 p)).
  assert (PE : val3 p = scale3 n e). { unfold e, scale3. cbn [vx vy vz]. destruct (val3 p) as [x y z]. cbn [vx vy vz]. f_equal; field; lra. }
  assert (UE : unit3 e).
  { unfold unit3. pose proof (norm3_sq (val3 p)) as NS. fold n in NS. replace (dot3 e e) with (/ n * / n * dot3 (val3 p) (val3 p)) by (unfold e, dot3, scale3; cbn [vx vy vz]; ring). rewrite <- NS. field. lra. }
  rewrite (rv_S_rates _ _ UE PE N0). apply rv_S_branches; auto.
Qed.
(** below the threshold too: what the matrix is an approximation of *)
Theorem float_rotation_vector_rates L p e : lib3_ok L -> finite3 p -> unit3 e -> val3 p = scale3 (norm3 (val3 p)) e -> 0 < norm3 (val3 p) <= 10 ^ 12 ->
  close33 (frv_S L p) (rv_rates e (norm3 (val3 p))) (175 * u) /\
  (forall q, finite3 q -> norm1 (val3 q) <= bpow radix2 800 -> close3 (frv_omega L p q) (mv3 (rv_rates e (norm3 (val3 p))) (val3 q)) (182 * u * norm1 (val3 q) + 6 * eta)).
Proof.
  intros OK FP UE PE NB. pose proof (rv_S_branches L p e OK FP UE PE NB) as C. split; [exact C|]. intros q FQ Q.
  assert (K : 0 <= 175 <= 1000) by lra. pose proof (mv_err L _ _ q 175 OK C (rv_entries e _ UE (proj1 NB)) K FQ Q) as H. replace (175 + 7) with 182 in H by lra. exact H.
Qed.
Lemma close3_weaken a v b c : close3 a v b -> b <= c -> close3 a v c.
Proof. intros (F & A & B & C) L. refine (conj F (conj _ (conj _ _))); lra. Qed.
Lemma mv_err2 L A M q k b : lib3_ok L -> close33 A M (k * u) -> entries_below M 2 -> 0 <= k <= 1000 -> finite3 q -> norm1 (val3 q) <= bpow radix2 800 -> k + 7 = b ->
  close3 (fmv3 L A q) (mv3 M (val3 q)) (b * u * norm1 (val3 q) + 6 * eta).
Proof. intros OK C E K F Q B. rewrite <- B. exact (mv_err L A M q k OK C E K F Q). Qed.
Theorem float_angular_velocity L p q : lib3_ok L -> finite3 p -> finite3 q -> norm1 (val3 q) <= bpow radix2 800 ->
  let P := val3 p in let Q := val3 q in
  close3 (fst (fst (fzyx_rates L p q))) (zyx_omega P Q) (13 * u * norm1 Q + 6 * eta) /\
  close3 (fst (fst (fypr_rates L p q))) (ypr_omega P Q) (13 * u * norm1 Q + 6 * eta) /\
  close3 (fst (fst (fzxy_rates L p q))) (zxy_omega P Q) (13 * u * norm1 Q + 6 * eta) /\
  (norm3 P <= bpow radix2 290 -> close3 (fst (fer_rates L p q)) (er_omega P Q) (28 * u * norm1 Q + 6 * eta) /\ close33 (snd (fer_rates L p q)) (er_S P) (21 * u)) /\
  (/ 10 ^ 14 <= norm3 P <= 10 ^ 12 -> close3 (frv_omega L p q) (rv_omega P Q) (182 * u * norm1 Q + 6 * eta)).
Proof.
  intros OK FP FQ QB P Q. pose proof OK as [OB _]. destruct (float_rate_matrices L p OK FP) as (CA & CB & CC & CD & CE).
  refine (conj _ (conj _ (conj _ (conj _ _)))).
  - apply (mv_err2 L _ _ q 6 13 OK CA (proj1 (buildS_entries _ _ _ _ (sin1 _) (cos1 _) (sin1 _) (cos1 _)))); auto; lra.
  - apply (mv_err2 L _ _ q 6 13 OK CB (proj2 (buildS_entries _ _ _ _ (sin1 _) (cos1 _) (sin1 _) (cos1 _)))); auto; lra.
  - apply (mv_err2 L _ _ q 6 13 OK CC (zxy_entries _)); auto; lra.
  - intros NU. destruct (er_scale2 (lbase L) p OB FP NU) as [[FF FE] _]. destruct (er_scale (lbase L) p OB FP NU) as (_ & _ & N0 & _). cbv zeta in *.
    set (f := fmul (fofZ 2) (fdiv fone (fadd fone (fdot3 (lbase L) p)))) in *. fold P in N0, FE. set (n2 := dot3 P P) in *.
    assert (SV : 2 / (1 + n2) * (1 + n2) = 2) by (field; lra). assert (IP : 0 < / (1 + n2)) by (apply Rinv_0_lt_compat; lra). assert (S0 : 0 <= 2 / (1 + n2)) by (unfold Rdiv; lra).
    assert (SB : 0 <= 2 / (1 + n2) <= 2) by (assert (0 <= 2 / (1 + n2) * n2) by (apply Rmult_le_pos; lra); lra).
    assert (C : close33 (fer_entries f p) (er_S P) (21 * u)).
    { replace (21 * u) with ((2 * 9 + 3) * u) by ring. apply (er_entries_close f _ p 9); auto. lra. }
    unfold fer_rates. fold f. cbn [fst snd]. split; [|exact C].
    assert (EQ : er_omega P Q = mv3 (er_S P) Q) by (unfold er_omega, er_S; cbv zeta; fold n2; replace (2 * (1 / (1 + n2))) with (2 / (1 + n2)) by (field; lra); reflexivity).
    rewrite EQ. apply (mv_err2 L _ _ q 21 28 OK C (er_entries _ P SB SV)); auto; lra.
  - intros NB. assert (NP : 0 < norm3 P) by lra. set (n := norm3 P) in *. set (e := scale3 (/ n) P).
    assert (PE : P = scale3 n e). { unfold e, scale3. cbn [vx vy vz]. destruct P as [x y z]. cbn [vx vy vz]. f_equal; field; lra. }
    assert (UE : unit3 e).
    { unfold unit3. pose proof (norm3_sq P) as NS. fold n in NS. replace (dot3 e e) with (/ n * / n * dot3 P P) by (unfold e, dot3, scale3; cbn [vx vy vz]; ring). rewrite <- NS. field. lra. }
    specialize (CE NB). unfold frv_omega, rv_omega. refine (mv_err2 L _ _ q 175 182 OK CE _ _ FQ QB _); [|lra|lra].
    fold P. rewrite (rv_S_rates P e UE PE ltac:(fold n; lra)). now apply rv_entries.
Qed.

(** ** the Jacobians of the Euler angles *)
Lemma coef_err (c x : f64) a k m : ak c a k -> Rabs a <= 1 -> 0 <= k <= 100 -> is_finite x = true -> Rabs (B2R x) <= m -> m <= bpow radix2 800 ->
  is_finite (fmul c x) = true /\ Rabs (B2R (fmul c x) - a * B2R x) <= (k + 102 / 100) * u * Rabs (B2R x) + eta /\ Rabs (B2R (fmul c x)) <= 11 / 10 * bpow radix2 800.
Proof.
  intros [FC E] A K FX X M. pose proof u53_pos as UP. pose proof u_val as UV. assert (KU : 0 <= k * u <= 100 * u) by (split; [apply Rmult_le_pos; lra|apply Rmult_le_compat_r; lra]).
  pose proof (Rabs_pos (B2R x)) as X0. pose proof (bpow_gt_0 radix2 800) as B0.
  assert (CB : Rabs (B2R c) <= 1001 / 1000) by (replace (B2R c) with ((B2R c - a) + a) by ring; apply Rle_trans with (1 := Rabs_triang _ _); rewrite UV in *; lra).
  assert (PB : Rabs (B2R c * B2R x) <= 1001 / 1000 * Rabs (B2R x)) by (rewrite Rabs_mult; apply Rmult_le_compat_r; lra).
  assert (B9 : 2 * bpow radix2 800 = bpow radix2 801) by (change 2 with (bpow radix2 1); rewrite <- bpow_plus; reflexivity).
  destruct (fmul_rnd c x 801 FC FX ltac:(lia)) as [V F]; [lra|]. pose proof (rnd_err (B2R c * B2R x)) as R. rewrite <- V in R.
  assert (U1 : u * Rabs (B2R c * B2R x) <= u * (1001 / 1000 * Rabs (B2R x))) by (apply Rmult_le_compat_l; lra). assert (U0 : 0 <= u * Rabs (B2R x)) by (apply Rmult_le_pos; lra).
  assert (D : Rabs (B2R c * B2R x - a * B2R x) <= k * u * Rabs (B2R x)) by (replace (B2R c * B2R x - a * B2R x) with ((B2R c - a) * B2R x) by ring; rewrite Rabs_mult; apply Rmult_le_compat_r; lra).
  assert (E2 : Rabs (B2R (fmul c x) - a * B2R x) <= (k + 102 / 100) * u * Rabs (B2R x) + eta).
  { replace (B2R (fmul c x) - a * B2R x) with ((B2R (fmul c x) - B2R c * B2R x) + (B2R c * B2R x - a * B2R x)) by ring. apply Rle_trans with (1 := Rabs_triang _ _). lra. }
  split; [exact F|]. split; [exact E2|]. 
  assert (UX : u * Rabs (B2R x) <= / 1000 * Rabs (B2R x)) by (apply Rmult_le_compat_r; rewrite ?UV; lra).
  assert (EB : eta <= / 1000 * bpow radix2 800).
  { apply Rle_trans with (bpow radix2 (-100)); [apply bpow_le; lia|]. apply Rle_trans with (/ 1000 * bpow radix2 0); [|apply Rmult_le_compat_l; [lra|apply bpow_le; lia]]. replace (bpow radix2 (-100)) with (/ 1267650600228229401496703205376) by (cbn; lra). cbn. lra. }
  replace (B2R (fmul c x)) with ((B2R (fmul c x) - B2R c * B2R x) + B2R c * B2R x) by ring. apply Rle_trans with (1 := Rabs_triang _ _). lra.
Qed.
Lemma coef_pair s (c d x y : f64) a b k : ak c a k -> ak d b k -> Rabs a <= 1 -> Rabs b <= 1 -> 0 <= k <= 6 -> is_finite x = true -> is_finite y = true -> Rabs (B2R x) + Rabs (B2R y) <= bpow radix2 800 ->
  is_finite (fop s (fmul c x) (fmul d y)) = true /\ Rabs (B2R (fop s (fmul c x) (fmul d y)) - rop s (a * B2R x) (b * B2R y)) <= 9 * u * (Rabs (B2R x) + Rabs (B2R y)) + 4 * eta.
Proof.
  intros C D A B K FX FY M. pose proof u53_pos as UP. pose proof u_val as UV. pose proof eta_pos as EP. pose proof (Rabs_pos (B2R x)) as X0. pose proof (Rabs_pos (B2R y)) as Y0.
  destruct (coef_err c x a k (bpow radix2 800) C A ltac:(lra) FX ltac:(lra) ltac:(lra)) as (F1 & E1 & B1). destruct (coef_err d y b k (bpow radix2 800) D B ltac:(lra) FY ltac:(lra) ltac:(lra)) as (F2 & E2 & B2).
  set (X := Rabs (B2R x)) in *. set (Y := Rabs (B2R y)) in *. set (p := B2R (fmul c x)) in *. set (q := B2R (fmul d y)) in *. set (v := a * B2R x) in *. set (w := b * B2R y) in *.
  assert (KX : (k + 102 / 100) * u * X <= 702 / 100 * u * X) by (apply Rmult_le_compat_r; [exact X0|]; apply Rmult_le_compat_r; lra).
  assert (KY : (k + 102 / 100) * u * Y <= 702 / 100 * u * Y) by (apply Rmult_le_compat_r; [exact Y0|]; apply Rmult_le_compat_r; lra).
  assert (VX : Rabs v <= X) by (unfold v; rewrite Rabs_mult; fold X; apply Rle_trans with (1 * X); [apply Rmult_le_compat_r; lra|lra]).
  assert (WY : Rabs w <= Y) by (unfold w; rewrite Rabs_mult; fold Y; apply Rle_trans with (1 * Y); [apply Rmult_le_compat_r; lra|lra]).
  assert (UX : 0 <= u * X <= / 1000 * X) by (split; [apply Rmult_le_pos; lra|apply Rmult_le_compat_r; rewrite ?UV; lra]). assert (UY : 0 <= u * Y <= / 1000 * Y) by (split; [apply Rmult_le_pos; lra|apply Rmult_le_compat_r; rewrite ?UV; lra]).
  assert (B9 : 4 * bpow radix2 800 = bpow radix2 802) by (change 4 with (bpow radix2 2); rewrite <- bpow_plus; reflexivity). pose proof (bpow_gt_0 radix2 800) as B0.
  assert (SUM : Rabs (rop s p q - rop s v w) <= 702 / 100 * u * (X + Y) + 2 * eta).
  { apply Rabs_le_inv in E1, E2. unfold rop. destruct s; apply Rabs_le; lra. }
  assert (SB : Rabs (rop s p q) <= 102 / 100 * (X + Y) + 2 * eta).
  { apply Rabs_le_inv in SUM, VX, WY. unfold rop in *. destruct s; apply Rabs_le; lra. }
  assert (R2 : Rabs (rop s p q) <= bpow radix2 802) by (apply Rabs_le_inv in B1, B2; rewrite <- B9; unfold rop; destruct s; apply Rabs_le; lra).
  assert (RND : B2R (fop s (fmul c x) (fmul d y)) = rnd (rop s p q) /\ is_finite (fop s (fmul c x) (fmul d y)) = true).
  { unfold fop, rop in *. destruct s; [apply (fsub_rnd _ _ 802 F1 F2 ltac:(lia) R2)|apply (fadd_rnd _ _ 802 F1 F2 ltac:(lia) R2)]. }
  destruct RND as [V F]. split; [exact F|]. rewrite V. pose proof (rnd_err (rop s p q)) as R.
  assert (u * Rabs (rop s p q) <= u * (102 / 100 * (X + Y) + 2 * eta)) by (apply Rmult_le_compat_l; lra). assert (u * (2 * eta) <= / 4 * (2 * eta)) by (apply Rmult_le_compat_r; rewrite ?UV; lra).
  replace (rnd (rop s p q) - rop s v w) with ((rnd (rop s p q) - rop s p q) + (rop s p q - rop s v w)) by ring. apply Rle_trans with (1 := Rabs_triang _ _). lra.
Qed.
Section RateJacobian.
  Variables (fa fb fc fd : f64) (a b c d : R) (q : F3).
  Hypothesis (KA : ak fa a (201 / 100)) (KB : ak fb b (201 / 100)) (KC : ak fc c (201 / 100)) (KD : ak fd d (201 / 100)).
  Hypothesis (A1 : Rabs a <= 1) (B1 : Rabs b <= 1) (C1 : Rabs c <= 1) (D1 : Rabs d <= 1) (FQ : finite3 q) (QB : norm1 (val3 q) <= bpow radix2 800).
  Let bound : R := 9 * u * norm1 (val3 q) + 4 * eta.
  Lemma pair_entry s : is_finite (fop s (fmul fa (fy q)) (fmul (fmul fc fb) (fz q))) = true /\ Rabs (B2R (fop s (fmul fa (fy q)) (fmul (fmul fc fb) (fz q))) - rop s (a * B2R (fy q)) (c * b * B2R (fz q))) <= bound.
  Proof using KA KB KC A1 B1 C1 FQ QB.
    destruct FQ as (FX & FY & FZ). pose proof u53_pos as UP. unfold bound, norm1, val3 in *. cbn [vx vy vz] in *. pose proof (Rabs_pos (B2R (fx q))) as X0.
    assert (KA2 : ak fa a (51 / 10)) by (apply (ak_weaken _ _ _ _ KA); lra).
    destruct (coef_pair s fa (fmul fc fb) (fy q) (fz q) a (c * b) (51 / 10) KA2 (pair_err _ _ _ _ KC KB C1 B1) A1 (prod1 _ _ C1 B1) ltac:(lra) FY FZ ltac:(lra)) as [F E].
    split; [exact F|]. assert (0 <= u * Rabs (B2R (fx q))) by (apply Rmult_le_pos; lra). lra.
  Qed.
  Lemma double_entry : is_finite (fmul (fmul fa fb) (fz q)) = true /\ Rabs (B2R (fmul (fmul fa fb) (fz q)) - a * b * B2R (fz q)) <= bound.
  Proof using KA KB A1 B1 FQ QB.
    destruct FQ as (FX & FY & FZ). pose proof u53_pos as UP. pose proof eta_pos as EP. unfold bound, norm1, val3 in *. cbn [vx vy vz] in *. pose proof (Rabs_pos (B2R (fx q))) as X0. pose proof (Rabs_pos (B2R (fy q))) as Y0. pose proof (Rabs_pos (B2R (fz q))) as Z0.
    destruct (coef_err (fmul fa fb) (fz q) (a * b) (51 / 10) (bpow radix2 800) (pair_err _ _ _ _ KA KB A1 B1) (prod1 _ _ A1 B1) ltac:(lra) FZ ltac:(lra) ltac:(lra)) as (F & E & _).
    split; [exact F|]. assert (0 <= u * Rabs (B2R (fx q))) by (apply Rmult_le_pos; lra). assert (0 <= u * Rabs (B2R (fy q))) by (apply Rmult_le_pos; lra). assert (0 <= u * Rabs (B2R (fz q))) by (apply Rmult_le_pos; lra). lra.
  Qed.
  Lemma single_entry : is_finite (fmul fa (fz q)) = true /\ Rabs (B2R (fmul fa (fz q)) - a * B2R (fz q)) <= bound.
  Proof using KA A1 FQ QB.
    destruct FQ as (FX & FY & FZ). pose proof u53_pos as UP. pose proof eta_pos as EP. unfold bound, norm1, val3 in *. cbn [vx vy vz] in *. pose proof (Rabs_pos (B2R (fx q))) as X0. pose proof (Rabs_pos (B2R (fy q))) as Y0. pose proof (Rabs_pos (B2R (fz q))) as Z0.
    destruct (coef_err fa (fz q) a (201 / 100) (bpow radix2 800) KA A1 ltac:(lra) FZ ltac:(lra) ltac:(lra)) as (F & E & _).
    split; [exact F|]. assert (0 <= u * Rabs (B2R (fx q))) by (apply Rmult_le_pos; lra). assert (0 <= u * Rabs (B2R (fy q))) by (apply Rmult_le_pos; lra). assert (0 <= u * Rabs (B2R (fz q))) by (apply Rmult_le_pos; lra). lra.
  Qed.
  Lemma zero_entry : is_finite fzero = true /\ Rabs (B2R fzero - 0) <= bound.
  Proof using QB.
    split; [reflexivity|]. change (B2R fzero) with 0. rewrite Rminus_diag_eq, Rabs_R0 by reflexivity. pose proof u53_pos as UP. pose proof eta_pos as EP. unfold bound, norm1.
    pose proof (Rabs_pos (vx (val3 q))) as X0. pose proof (Rabs_pos (vy (val3 q))) as Y0. pose proof (Rabs_pos (vz (val3 q))) as Z0.
    assert (0 <= u * (Rabs (vx (val3 q)) + Rabs (vy (val3 q)) + Rabs (vz (val3 q)))) by (apply Rmult_le_pos; lra). lra.
  Qed.
End RateJacobian.
Lemma close33_by A M b : is_finite (fx (fr0 A)) = true /\ Rabs (B2R (fx (fr0 A)) - vx (r30 M)) <= b -> is_finite (fy (fr0 A)) = true /\ Rabs (B2R (fy (fr0 A)) - vy (r30 M)) <= b ->
  is_finite (fz (fr0 A)) = true /\ Rabs (B2R (fz (fr0 A)) - vz (r30 M)) <= b -> is_finite (fx (fr1 A)) = true /\ Rabs (B2R (fx (fr1 A)) - vx (r31 M)) <= b ->
  is_finite (fy (fr1 A)) = true /\ Rabs (B2R (fy (fr1 A)) - vy (r31 M)) <= b -> is_finite (fz (fr1 A)) = true /\ Rabs (B2R (fz (fr1 A)) - vz (r31 M)) <= b ->
  is_finite (fx (fr2 A)) = true /\ Rabs (B2R (fx (fr2 A)) - vx (r32 M)) <= b -> is_finite (fy (fr2 A)) = true /\ Rabs (B2R (fy (fr2 A)) - vy (r32 M)) <= b ->
  is_finite (fz (fr2 A)) = true /\ Rabs (B2R (fz (fr2 A)) - vz (r32 M)) <= b -> close33 A M b.
Proof. intros [? ?] [? ?] [? ?] [? ?] [? ?] [? ?] [? ?] [? ?] [? ?]. unfold close33, close3, finite3. repeat split; assumption. Qed.
Lemma zyx_dp_close fcz fsz fcy fsy cz sz cy sy q : ak fcz cz (201 / 100) -> ak fsz sz (201 / 100) -> ak fcy cy (201 / 100) -> ak fsy sy (201 / 100) ->
  Rabs cz <= 1 -> Rabs sz <= 1 -> Rabs cy <= 1 -> Rabs sy <= 1 -> finite3 q -> norm1 (val3 q) <= bpow radix2 800 ->
  close33 (fzyx_dp fcz fsz fcy fsy q) (let Q := val3 q in m3 (cz * vy Q + cy * sz * vz Q) (cz * sy * vz Q) 0 (sz * vy Q - cz * cy * vz Q) (sz * sy * vz Q) 0 0 (cy * vz Q) 0) (9 * u * norm1 (val3 q) + 4 * eta).
Proof.
  intros CZ SZ CY SY cz1 sz1 cy1 sy1 FQ QB. cbv zeta. apply close33_by; unfold fzyx_dp, fm3, m3; cbn [fr0 fr1 fr2 fx fy fz r30 r31 r32 vx vy vz]; try (apply zero_entry; assumption).
  - apply (pair_entry _ _ _ _ _ _ q CZ SZ CY cz1 sz1 cy1 FQ QB false).
  - apply (double_entry _ _ _ _ q CZ SY cz1 sy1 FQ QB).
  - apply (pair_entry _ _ _ _ _ _ q SZ CY CZ sz1 cy1 cz1 FQ QB true).
  - apply (double_entry _ _ _ _ q SZ SY sz1 sy1 FQ QB).
  - apply (single_entry _ _ q CY cy1 FQ QB).
Qed.
Theorem float_euler_jacobians L p q : lib3_ok L -> finite3 p -> finite3 q -> norm1 (val3 q) <= bpow radix2 800 ->
  let P := val3 p in let Q := val3 q in let b := 9 * u * norm1 Q + 4 * eta in
  (close33 (snd (fst (fzyx_rates L p q))) (fst (zyx_J P Q)) b /\ close33 (snd (fzyx_rates L p q)) (snd (zyx_J P Q)) (6 * u)) /\
  (close33 (snd (fst (fypr_rates L p q))) (fst (ypr_J P Q)) b /\ close33 (snd (fypr_rates L p q)) (snd (ypr_J P Q)) (6 * u)) /\
  (close33 (snd (fst (fzxy_rates L p q))) (fst (zxy_J P Q)) b /\ close33 (snd (fzxy_rates L p q)) (snd (zxy_J P Q)) (6 * u)).
Proof.
  intros OK FP FQ QB P Q b. pose proof OK as [OB _]. destruct (float_rate_matrices L p OK FP) as (CA & CB & CC & _). pose proof FP as (FX & FY & FZ).
  destruct (fneg_val _ FX) as [NX VX]. destruct (fneg_val _ FY) as [NY VY].
  refine (conj (conj _ CA) (conj (conj _ CB) (conj _ CC))).
  - destruct (trig_err (lbase L) _ OB NX) as [S1 C1]. destruct (trig_err (lbase L) _ OB NY) as [S2 C2]. rewrite VX in S1, C1. rewrite VY in S2, C2.
    unfold fzyx_rates, zyx_J. cbn [fst snd]. unfold P, Q, b, val3. cbn [vx vy]. apply zyx_dp_close; auto using sin1, cos1.
  - destruct (trig_err (lbase L) _ OB FX) as [S1 C1]. destruct (trig_err (lbase L) _ OB FY) as [S2 C2].
    unfold fypr_rates, ypr_J. cbn [fst snd]. unfold P, Q, b, val3. cbn [vx vy]. apply zyx_dp_close; auto using sin1, cos1.
  - destruct (trig_err (lbase L) _ OB FX) as [S1 C1]. destruct (trig_err (lbase L) _ OB FY) as [S2 C2]. unfold fzxy_rates, zxy_J. cbn [fst snd]. unfold P, Q, b. 
    pose proof (sin1 (B2R (fx p))) as sz1. pose proof (cos1 (B2R (fx p))) as cz1. pose proof (sin1 (B2R (fy p))) as sx1. pose proof (cos1 (B2R (fy p))) as cx1.
    apply close33_by; unfold fm3, m3; cbn [fr0 fr1 fr2 fx fy fz r30 r31 r32]; unfold val3 at 1; try (unfold val3 at 1; cbn [vx vy vz]); cbn [vx vy vz]; try (apply zero_entry; assumption).
    + apply (pair_entry _ _ _ _ _ _ q S1 C1 C2 sz1 cz1 cx1 FQ QB false).
    + apply (double_entry _ _ _ _ q (ak_fneg _ _ _ S2) S1 (neg1 _ sx1) sz1 FQ QB).
    + apply (pair_entry _ _ _ _ _ _ q (ak_fneg _ _ _ C1) S1 C2 (neg1 _ cz1) sz1 cx1 FQ QB false).
    + apply (double_entry _ _ _ _ q S2 C1 sx1 cz1 FQ QB).
    + apply (single_entry _ _ q (ak_fneg _ _ _ C2) (neg1 _ cx1) FQ QB).
Qed.
