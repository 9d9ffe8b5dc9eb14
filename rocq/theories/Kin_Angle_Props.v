(** C137: angleMod, deg2rad and rad2deg in binary64. *)
From Coq Require Import Reals Psatz List.
From Verif Require Import PiBound Float64 Round_Model Round_Proofs Nsec_Proofs TimerTable_Num Kin_Float_Num Kin_Angle_Model.
Open Scope R_scope.

(** ** the constants *)
Lemma two_pi_val : B2R SM_2PI = 884279719003555 / 140737488355328 /\ is_finite SM_2PI = true.
Proof. split; [|vm_compute; reflexivity]. vm_compute. lra. Qed.
Lemma deg2rad_val : B2R SM_DEG2RAD = 1257642267027257 / 72057594037927936 /\ is_finite SM_DEG2RAD = true.
Proof. split; [|vm_compute; reflexivity]. vm_compute. lra. Qed.
Lemma rad2deg_val : B2R SM_RAD2DEG = 1007958012753983 / 17592186044416 /\ is_finite SM_RAD2DEG = true.
Proof. split; [|vm_compute; reflexivity]. vm_compute. lra. Qed.

(** SM_RAD2DEG is the double nearest to the literal 57.295779513082323: closer than half the spacing 2^-47 of the doubles between 32 and 64 *)
Lemma rad2deg_literal : Rabs (B2R SM_RAD2DEG - 57295779513082323 / 1000000000000000) < bpow radix2 (-48).
Proof. rewrite (proj1 rad2deg_val). replace (bpow radix2 (-48)) with (/ 281474976710656) by (cbn; lra). apply Rabs_lt. lra. Qed.

(** ** comparison and rounding of finite doubles *)
Lemma ltb_val (x y : f64) : is_finite x = true -> is_finite y = true -> (fltb x y = true -> B2R x < B2R y) /\ (fltb x y = false -> B2R y <= B2R x).
Proof.
  intros X Y. pose proof (fltb_ext x y (is_nan_finite _ X) (is_nan_finite _ Y)) as E. rewrite !ext_finite in E by assumption. split; intros H.
  - now apply E.
  - destruct (Rle_or_lt (B2R y) (B2R x)) as [L|L]; [exact L|]. apply E in L. congruence.
Qed.
Lemma neg_half : B2R (fneg fhalf) = - (1 / 2) /\ is_finite (fneg fhalf) = true.
Proof. unfold fneg. rewrite B2R_Bopp, is_finite_Bopp, (proj1 fhalf_correct). split; [lra|exact (proj2 fhalf_correct)]. Qed.
Lemma zero_val : B2R fzero = 0 /\ is_finite fzero = true.
Proof. split; [reflexivity|reflexivity]. Qed.
Lemma one_val : B2R (fofZ 1) = 1 /\ is_finite (fofZ 1) = true.
Proof. apply (fofZ_correct 1). cbn. lia. Qed.
Lemma half_rnd t : t <= 1 / 2 -> rnd t <= 1 / 2.
Proof.
  intros H. rewrite <- (rnd_id (1 / 2)); [now apply rnd_le|]. rewrite <- (proj1 fhalf_correct). apply generic_format_B2R.
Qed.
Lemma rnd01 t : 0 <= t <= 1 -> Rabs (rnd t - t) <= 2 * u /\ 0 <= rnd t.
Proof.
  intros H. pose proof (rnd_err t) as E. rewrite (Rabs_pos_eq t) in E by lra. pose proof eta_small as S. pose proof u53_pos as U.
  assert (u * t <= u * 1) by (apply Rmult_le_compat_l; lra). split; [lra|]. rewrite <- rnd_0. apply rnd_le. lra.
Qed.
Lemma big_is_int (v : f64) : is_finite v = true -> bpow radix2 52 <= Rabs (B2R v) -> exists z, B2R v = IZR z.
Proof. intros F H. apply format_big_int; [apply generic_format_B2R|exact H]. Qed.
Lemma b52 : bpow radix2 52 = IZR (2 ^ 52). Proof. reflexivity. Qed.

(** boost::math::round: some integer at distance at most one half, up to rounding *)
Lemma boost_round_ok m (v : f64) : is_finite v = true -> Rabs (B2R v) <= bpow radix2 1010 ->
  exists k z, boost_round m v = Some k /\ is_finite k = true /\ B2R k = IZR z /\ Rabs (IZR z - B2R v) <= 1 / 2 + u * Rabs (B2R v) + 2 * u /\
    (Rabs (B2R v) <= 1 / 2 - 3 * u -> z = 0%Z).
Proof.
  intros F B. unfold boost_round. rewrite F. pose proof u53_pos as UP. pose proof u_val as UV. pose proof eta_small as ES. pose proof eta_pos as EP. pose proof (Rabs_pos (B2R v)) as AP.
  assert (UA : 0 <= u * Rabs (B2R v)) by (apply Rmult_le_pos; lra).
  destruct zero_val as [ZV ZF]. destruct one_val as [OV OF]. destruct fhalf_correct as [HV HF]. destruct neg_half as [NV NF].
  destruct m.
  - destruct (ltb_val _ _ NF F) as [L1 L1'], (ltb_val _ _ F HF) as [L2 L2']. rewrite NV in L1, L1'. rewrite HV in L2, L2'.
    destruct (fltb (fneg fhalf) v && fltb v fhalf) eqn:E0.
    { apply andb_prop in E0. destruct E0 as [E1 E2]. apply L1 in E1. apply L2 in E2. exists fzero, 0%Z. repeat split; auto.
      rewrite Rminus_0_l, Rabs_Ropp. assert (Rabs (B2R v) < 1 / 2) by (apply Rabs_lt; lra). lra. }
    assert (FARR : B2R v <= - (1 / 2) \/ 1 / 2 <= B2R v).
    { apply Bool.andb_false_iff in E0. destruct E0 as [E1|E1]; [left; now apply L1'|right; now apply L2']. }
    assert (NZ : forall z : Z, Rabs (B2R v) <= 1 / 2 - 3 * u -> z = 0%Z).
    { intros z H. apply Rabs_le_inv in H. lra. }
    destruct (ltb_val _ _ ZF F) as [L3 L3']. rewrite ZV in L3, L3'. destruct (fltb fzero v) eqn:E1.
    + specialize (L3 eq_refl). rewrite (Rabs_pos_eq (B2R v)) in * by lra. destruct (fceil_correct v) as [CV CF]. rewrite F in CF. cbv zeta.
      pose proof (Zceil_ub (B2R v)) as C1. pose proof (Zceil_lb (B2R v)) as C2.
      assert (BC : forall t, Rabs t <= 2 -> Rabs t <= bpow radix2 1) by (intros t; change (bpow radix2 1) with 2; auto).
      destruct (fsub_rnd (fceil v) v 1 CF F ltac:(lia)) as [DV DF]; [apply BC; rewrite CV; apply Rabs_le; lra|]. rewrite CV in DV.
      destruct (rnd01 (IZR (Zceil (B2R v)) - B2R v) ltac:(lra)) as [DE D0]. apply Rabs_le_inv in DE.
      destruct (ltb_val _ _ HF DF) as [L4 L4']. rewrite HV, DV in L4, L4'. destruct (fltb fhalf (fsub (fceil v) v)) eqn:E2.
      * specialize (L4 eq_refl).
        assert (HH : 1 / 2 < IZR (Zceil (B2R v)) - B2R v).
        { destruct (Rle_or_lt (IZR (Zceil (B2R v)) - B2R v) (1 / 2)) as [L|L]; [|exact L]. apply half_rnd in L. lra. }
        assert (SM : B2R v < bpow radix2 52).
        { destruct (Rle_or_lt (bpow radix2 52) (B2R v)) as [L|L]; [|exact L]. destruct (big_is_int v F) as [z Ez]; [rewrite Rabs_pos_eq by lra; exact L|].
          rewrite Ez, Zceil_IZR in HH. lra. }
        rewrite b52 in SM. assert (ZC : (Zceil (B2R v) <= 2 ^ 52)%Z) by (apply Zceil_glb; lra).
        assert (Z0 : (0 <= Zceil (B2R v))%Z) by (apply le_IZR; lra).
        assert (EX : rnd (IZR (Zceil (B2R v)) - 1) = IZR (Zceil (B2R v) - 1)).
        { rewrite minus_IZR. apply rnd_id. rewrite <- minus_IZR. apply format_IZR. lia. }
        destruct (fsub_rnd (fceil v) (fofZ 1) 52 CF OF ltac:(lia)) as [KV KF].
        { rewrite CV, OV, b52, <- minus_IZR, <- abs_IZR. apply IZR_le. lia. }
        rewrite CV, OV, EX in KV. exists (fsub (fceil v) (fofZ 1)), (Zceil (B2R v) - 1)%Z. repeat split; auto.
        rewrite minus_IZR. apply Rabs_le. lra.
      * specialize (L4' eq_refl). exists (fceil v), (Zceil (B2R v)). repeat split; auto. apply Rabs_le. lra.
    + specialize (L3' eq_refl). rewrite (Rabs_left1 (B2R v)) in * by lra. destruct (ffloor_correct v) as [CV CF]. rewrite F in CF. cbv zeta.
      pose proof (Zfloor_lb (B2R v)) as C1. pose proof (Zfloor_ub (B2R v)) as C2.
      assert (BC : forall t, Rabs t <= 2 -> Rabs t <= bpow radix2 1) by (intros t; change (bpow radix2 1) with 2; auto).
      destruct (fsub_rnd v (ffloor v) 1 F CF ltac:(lia)) as [DV DF]; [apply BC; rewrite CV; apply Rabs_le; lra|]. rewrite CV in DV.
      destruct (rnd01 (B2R v - IZR (Zfloor (B2R v))) ltac:(lra)) as [DE D0]. apply Rabs_le_inv in DE.
      destruct (ltb_val _ _ HF DF) as [L4 L4']. rewrite HV, DV in L4, L4'. destruct (fltb fhalf (fsub v (ffloor v))) eqn:E2.
      * specialize (L4 eq_refl).
        assert (HH : 1 / 2 < B2R v - IZR (Zfloor (B2R v))).
        { destruct (Rle_or_lt (B2R v - IZR (Zfloor (B2R v))) (1 / 2)) as [L|L]; [|exact L]. apply half_rnd in L. lra. }
        assert (SM : - bpow radix2 52 < B2R v).
        { destruct (Rle_or_lt (B2R v) (- bpow radix2 52)) as [L|L]; [|exact L]. destruct (big_is_int v F) as [z Ez]; [rewrite Rabs_left1 by lra; lra|].
          rewrite Ez, Zfloor_IZR in HH. lra. }
        rewrite b52, <- opp_IZR in SM. assert (ZC : (- 2 ^ 52 <= Zfloor (B2R v))%Z) by (apply Zfloor_lub; lra).
        assert (Z0 : (Zfloor (B2R v) <= 0)%Z) by (apply le_IZR; lra).
        assert (EX : rnd (IZR (Zfloor (B2R v)) + 1) = IZR (Zfloor (B2R v) + 1)).
        { rewrite plus_IZR. apply rnd_id. rewrite <- plus_IZR. apply format_IZR. lia. }
        destruct (fadd_rnd (ffloor v) (fofZ 1) 53 CF OF ltac:(lia)) as [KV KF].
        { rewrite CV, OV, <- plus_IZR, <- abs_IZR. change (bpow radix2 53) with (IZR (2 ^ 53)). apply IZR_le. lia. }
        rewrite CV, OV, EX in KV. exists (fadd (ffloor v) (fofZ 1)), (Zfloor (B2R v) + 1)%Z. repeat split; auto.
        rewrite plus_IZR. apply Rabs_le. lra.
      * specialize (L4' eq_refl). exists (ffloor v), (Zfloor (B2R v)). repeat split; auto. apply Rabs_le. lra.
  - assert (B11 : Rabs (B2R v) + 1 / 2 <= bpow radix2 1011).
    { replace (bpow radix2 1011) with (2 * bpow radix2 1010) by (change 1011%Z with (1 + 1010)%Z; rewrite bpow_plus; reflexivity).
      assert (1 <= bpow radix2 1010) by (change 1 with (bpow radix2 0); apply bpow_le; lia). lra. }
    destruct (ltb_val _ _ F ZF) as [L1 L1']. rewrite ZV in L1, L1'. destruct (fltb v fzero) eqn:E0.
    + specialize (L1 eq_refl). rewrite (Rabs_left1 (B2R v)) in * by lra.
      destruct (fsub_rnd v fhalf 1011 F HF ltac:(lia)) as [DV DF]; [rewrite HV; apply Rabs_le; lra|]. rewrite HV in DV.
      pose proof (rnd_err (B2R v - 1 / 2)) as R. rewrite (Rabs_left1 (B2R v - 1 / 2)) in R by lra. apply Rabs_le_inv in R.
      destruct (fceil_correct (fsub v fhalf)) as [CV CF]. rewrite DF in CF. rewrite DV in CV. exists (fceil (fsub v fhalf)), (Zceil (rnd (B2R v - 1 / 2))).
      pose proof (Zceil_ub (rnd (B2R v - 1 / 2))) as C1. pose proof (Zceil_lb (rnd (B2R v - 1 / 2))) as C2.
      repeat split; auto. { apply Rabs_le. lra. }
      intros H. assert (u * - B2R v <= u * 1) by (apply Rmult_le_compat_l; lra). apply Zceil_imp. simpl (0 - 1)%Z. lra.
    + specialize (L1' eq_refl). rewrite (Rabs_pos_eq (B2R v)) in * by lra.
      destruct (fadd_rnd v fhalf 1011 F HF ltac:(lia)) as [DV DF]; [rewrite HV; apply Rabs_le; lra|]. rewrite HV in DV.
      pose proof (rnd_err (B2R v + 1 / 2)) as R. rewrite (Rabs_pos_eq (B2R v + 1 / 2)) in R by lra. apply Rabs_le_inv in R.
      destruct (ffloor_correct (fadd v fhalf)) as [CV CF]. rewrite DF in CF. rewrite DV in CV. exists (ffloor (fadd v fhalf)), (Zfloor (rnd (B2R v + 1 / 2))).
      pose proof (Zfloor_lb (rnd (B2R v + 1 / 2))) as C1. pose proof (Zfloor_ub (rnd (B2R v + 1 / 2))) as C2.
      repeat split; auto. { apply Rabs_le. lra. }
      intros H. assert (u * B2R v <= u * 1) by (apply Rmult_le_compat_l; lra). apply Zfloor_imp. simpl (0 + 1)%Z.
      split; [|lra]. rewrite <- rnd_0. apply rnd_le. lra.
Qed.

(** ** angleMod *)
Lemma two_pi_err : Rabs (2 * PI - B2R SM_2PI) <= 23 / 10 * u.
Proof. rewrite (proj1 two_pi_val), u_val. pose proof PI_decimal. apply Rabs_le. lra. Qed.
Lemma sin_abs t : Rabs (sin t) <= Rabs t.
Proof.
  destruct (Rle_or_lt t 0) as [L|L].
  - destruct (Req_dec t 0) as [-> | N]; [rewrite sin_0; lra|]. rewrite <- (Rabs_Ropp (sin t)), <- (Rabs_Ropp t), <- sin_neg, (Rabs_pos_eq (- t)) by lra.
    apply Rabs_le. pose proof (sin_lt_x (- t)) as A. pose proof (SIN_bound (- t)) as B. split; [|lra].
    destruct (Rle_or_lt (- t) PI) as [P|P]; [pose proof (sin_ge_0 (- t)); lra|]. pose proof PI2_1. lra.
  - rewrite (Rabs_pos_eq t) by lra. apply Rabs_le. pose proof (sin_lt_x t) as A. pose proof (SIN_bound t) as B. split; [|lra].
    destruct (Rle_or_lt t PI) as [P|P]; [pose proof (sin_ge_0 t); lra|]. pose proof PI2_1. lra.
Qed.
Lemma sin_dist a b : Rabs (sin a - sin b) <= Rabs (a - b).
Proof.
  rewrite form4. rewrite !Rabs_mult, (Rabs_pos_eq 2) by lra. pose proof (sin_abs ((a - b) / 2)) as S. unfold Rdiv in S at 2. rewrite Rabs_mult, (Rabs_pos_eq (/ 2)) in S by lra.
  assert (C : Rabs (cos ((a + b) / 2)) <= 1) by (apply Rabs_le; apply COS_bound).
  pose proof (Rabs_pos (cos ((a + b) / 2))). pose proof (Rabs_pos (sin ((a - b) / 2))).
  apply Rle_trans with (2 * 1 * Rabs (sin ((a - b) / 2))); [|lra]. apply Rmult_le_compat_r; lra.
Qed.
Lemma cos_dist a b : Rabs (cos a - cos b) <= Rabs (a - b).
Proof.
  rewrite !cos_sin. apply Rle_trans with (1 := sin_dist _ _). right. f_equal. ring.
Qed.
Lemma turns x z : sin (x - 2 * PI * IZR z) = sin x /\ cos (x - 2 * PI * IZR z) = cos x.
Proof.
  destruct (Z_le_gt_dec 0 z) as [H|H].
  - assert (E : IZR z = INR (Z.to_nat z)) by (rewrite INR_IZR_INZ, Z2Nat.id by lia; reflexivity).
    pose proof (sin_period (x - 2 * PI * IZR z) (Z.to_nat z)) as S. pose proof (cos_period (x - 2 * PI * IZR z) (Z.to_nat z)) as C.
    rewrite <- E in S, C. replace (x - 2 * PI * IZR z + 2 * IZR z * PI) with x in S, C by ring. auto.
  - assert (E : IZR z = - INR (Z.to_nat (- z))) by (rewrite INR_IZR_INZ, Z2Nat.id, opp_IZR by lia; lra).
    pose proof (sin_period x (Z.to_nat (- z))) as S. pose proof (cos_period x (Z.to_nat (- z))) as C.
    replace (x + 2 * INR (Z.to_nat (- z)) * PI) with (x - 2 * PI * IZR z) in S, C by (rewrite E; ring). auto.
Qed.

(** the sine and cosine of an angle, to within e *)
Definition same_angle (a b e : R) : Prop := Rabs (sin a - sin b) <= e /\ Rabs (cos a - cos b) <= e.

Lemma angleMod_value m x : is_finite x = true -> Rabs (B2R x) <= bpow radix2 1000 ->
  exists r z, fangleMod m x = Some r /\ is_finite r = true /\
    Rabs (B2R r - (B2R x - 2 * PI * IZR z)) <= u * (2 * Rabs (B2R x) + 9) /\
    Rabs (B2R r) <= PI + u * (4 * Rabs (B2R x) + 30) /\
    (Rabs (B2R x) <= PI - 30 * u -> B2R r = B2R x).
Proof.
  intros F B. unfold fangleMod. set (X := Rabs (B2R x)) in *. assert (X0 : 0 <= X) by apply Rabs_pos.
  destruct two_pi_val as [PV PF]. pose proof two_pi_err as PE. set (P := B2R SM_2PI) in *.
  pose proof u53_pos as UP. pose proof u_val as UV. pose proof eta_small as ES. pose proof eta_pos as EP. pose proof PI_decimal as PD.
  assert (PB : 62 / 10 < P < 63 / 10) by (rewrite PV; lra). clear PV.
  assert (B1 : 1 <= bpow radix2 1000) by (change 1 with (bpow radix2 0); apply bpow_le; lia).
  assert (DX : Rabs (B2R x / P) = X / P). { unfold Rdiv. rewrite Rabs_mult, Rabs_inv, (Rabs_pos_eq P) by lra. reflexivity. }
  assert (XP : 0 <= X / P) by (rewrite <- DX; apply Rabs_pos). assert (XPe : X = X / P * P) by (field; lra).
  set (Y := X / P) in *. assert (YB : Y <= bpow radix2 1000).
  { apply Rmult_le_reg_r with P; [lra|]. rewrite <- XPe. apply Rle_trans with (1 := B). rewrite <- (Rmult_1_r (bpow radix2 1000)) at 1. apply Rmult_le_compat_l; lra. }
  destruct (fdiv_rnd x SM_2PI 1000 F ltac:(fold P; lra) ltac:(lia)) as [VV VF]; [fold P; rewrite DX; exact YB|]. fold P in VV.
  pose proof (rnd_err (B2R x / P)) as RV. rewrite <- VV, DX in RV.
  set (v := fdiv x SM_2PI) in *. set (y := B2R x / P) in *. assert (xe : B2R x = y * P) by (unfold y; field; lra).
  assert (UY : 0 <= u * Y) by (apply Rmult_le_pos; lra). assert (UYu : u * (u * Y) <= u * Y / 1000000).
  { replace (u * Y / 1000000) with (/ 1000000 * (u * Y)) by field. apply Rmult_le_compat_r; lra. }
  assert (VB : Rabs (B2R v) <= Y + u * Y + eta).
  { replace (B2R v) with ((B2R v - y) + y) by ring. apply Rle_trans with (1 := Rabs_triang _ _). rewrite DX. lra. }
  assert (UV1 : u * Rabs (B2R v) <= u * (Y + u * Y + eta)) by (apply Rmult_le_compat_l; lra).
  assert (UYY : u * Y <= Y / 1000000) by (replace (Y / 1000000) with (/ 1000000 * Y) by field; apply Rmult_le_compat_r; lra).
  assert (Uu : u * eta <= eta) by (rewrite <- (Rmult_1_l eta) at 2; apply Rmult_le_compat_r; lra).
  assert (B10 : 2000 * bpow radix2 1000 <= bpow radix2 1011).
  { change 1011%Z with (11 + 1000)%Z. rewrite bpow_plus. apply Rmult_le_compat_r; [lra|]. change (bpow radix2 11) with 2048. lra. }
  assert (B101 : 1000 * bpow radix2 1000 <= bpow radix2 1010).
  { change 1010%Z with (10 + 1000)%Z. rewrite bpow_plus. apply Rmult_le_compat_r; [lra|]. change (bpow radix2 10) with 1024. lra. }
  destruct (boost_round_ok m v VF) as (k & z & KE & KF & KV & KD & KZ); [lra|]. rewrite KE. exists (fsub x (fmul SM_2PI k)), z. split; [reflexivity|].
  assert (KY : Rabs (IZR z - y) <= 1 / 2 + 21 / 10 * (u * Y) + 3 * u).
  { replace (IZR z - y) with ((IZR z - B2R v) + (B2R v - y)) by ring. apply Rle_trans with (1 := Rabs_triang _ _). lra. }
  assert (KA : Rabs (IZR z) <= Y + 21 / 10 * (u * Y) + 6 / 10).
  { replace (IZR z) with ((IZR z - y) + y) by ring. apply Rle_trans with (1 := Rabs_triang _ _). rewrite DX. lra. }
  assert (PK : Rabs (P * IZR z) <= P * (Y + 21 / 10 * (u * Y) + 6 / 10)).
  { rewrite Rabs_mult, (Rabs_pos_eq P) by lra. apply Rmult_le_compat_l; lra. }
  assert (PY : P * Y = X) by lra. set (uX := u * X). assert (PuY : P * (u * Y) = uX) by (unfold uX; rewrite <- PY; ring).
  assert (UX : 0 <= uX) by (apply Rmult_le_pos; lra). assert (UXX : uX <= X / 1000000).
  { unfold uX. replace (X / 1000000) with (/ 1000000 * X) by field. apply Rmult_le_compat_r; lra. }
  assert (PK2 : Rabs (P * IZR z) <= X + 21 / 10 * uX + 3.8).
  { apply Rle_trans with (1 := PK). replace (P * (Y + 21 / 10 * (u * Y) + 6 / 10)) with (P * Y + 21 / 10 * (P * (u * Y)) + 6 / 10 * P) by ring. rewrite PY, PuY. lra. }
  destruct (fmul_rnd SM_2PI k 1010 PF KF ltac:(lia)) as [MV MF]; [rewrite KV; fold P; lra|]. rewrite KV in MV. fold P in MV.
  pose proof (rnd_err (P * IZR z)) as RM. rewrite <- MV in RM.
  assert (UPK : u * Rabs (P * IZR z) <= u * (X + 21 / 10 * uX + 3.8)) by (apply Rmult_le_compat_l; lra).
  assert (UUX : u * uX <= uX / 1000000) by (replace (uX / 1000000) with (/ 1000000 * uX) by field; apply Rmult_le_compat_r; lra).
  assert (RM2 : Rabs (B2R (fmul SM_2PI k) - P * IZR z) <= 1001 / 1000 * uX + 39 / 10 * u).
  { apply Rle_trans with (1 := RM). replace (u * (X + 21 / 10 * uX + 3.8)) with (uX + 21 / 10 * (u * uX) + 3.8 * u) in UPK by (unfold uX; ring). lra. }
  assert (XK : Rabs (B2R x - P * IZR z) <= P / 2 + 21 / 10 * uX + 20 * u).
  { replace (B2R x - P * IZR z) with (- (P * (IZR z - y))) by (rewrite xe; ring). rewrite Rabs_Ropp, Rabs_mult, (Rabs_pos_eq P) by lra.
    apply Rle_trans with (P * (1 / 2 + 21 / 10 * (u * Y) + 3 * u)); [apply Rmult_le_compat_l; lra|].
    replace (P * (1 / 2 + 21 / 10 * (u * Y) + 3 * u)) with (P / 2 + 21 / 10 * (P * (u * Y)) + 3 * (P * u)) by field. rewrite PuY.
    assert (P * u <= 63 / 10 * u) by (apply Rmult_le_compat_r; lra). lra. }
  assert (XM : Rabs (B2R x - B2R (fmul SM_2PI k)) <= P / 2 + 32 / 10 * uX + 24 * u).
  { replace (B2R x - B2R (fmul SM_2PI k)) with ((B2R x - P * IZR z) - (B2R (fmul SM_2PI k) - P * IZR z)) by ring.
    apply Rle_trans with (1 := Rabs_triang _ _). rewrite Rabs_Ropp. lra. }
  destruct (fsub_rnd x (fmul SM_2PI k) 1010 F MF ltac:(lia)) as [SV SF]; [lra|]. split; [exact SF|].
  pose proof (rnd_err (B2R x - B2R (fmul SM_2PI k))) as RS. rewrite <- SV in RS.
  assert (UXM : u * Rabs (B2R x - B2R (fmul SM_2PI k)) <= u * (P / 2 + 32 / 10 * uX + 24 * u)) by (apply Rmult_le_compat_l; lra).
  assert (UPu : u * (P / 2 + 32 / 10 * uX + 24 * u) <= 316 / 100 * u + uX / 1000).
  { replace (u * (P / 2 + 32 / 10 * uX + 24 * u)) with (u * (P / 2) + 32 / 10 * (u * uX) + 24 * (u * u)) by ring.
    assert (u * (P / 2) <= u * (315 / 100)) by (apply Rmult_le_compat_l; lra). assert (u * u <= u * (1 / 1000000)) by (apply Rmult_le_compat_l; lra). lra. }
  assert (E1 : Rabs (B2R (fsub x (fmul SM_2PI k)) - (B2R x - P * IZR z)) <= 1003 / 1000 * uX + 71 / 10 * u).
  { replace (B2R (fsub x (fmul SM_2PI k)) - (B2R x - P * IZR z)) with
      ((B2R (fsub x (fmul SM_2PI k)) - (B2R x - B2R (fmul SM_2PI k))) - (B2R (fmul SM_2PI k) - P * IZR z)) by ring.
    apply Rle_trans with (1 := Rabs_triang _ _). rewrite Rabs_Ropp. lra. }
  assert (PP : Rabs ((2 * PI - P) * IZR z) <= 4 / 10 * uX + 14 / 10 * u).
  { rewrite Rabs_mult. apply Rle_trans with (23 / 10 * u * (Y + 21 / 10 * (u * Y) + 6 / 10)); [apply Rmult_le_compat; try apply Rabs_pos; lra|].
    assert (YX : Y <= 10 / 62 * X). { apply Rmult_le_reg_l with P; [lra|]. rewrite PY. rewrite <- (Rmult_1_l X) at 1. rewrite <- Rmult_assoc. apply Rmult_le_compat_r; lra. }
    assert (UYX : u * Y <= 10 / 62 * uX) by (unfold uX; replace (10 / 62 * (u * X)) with (u * (10 / 62 * X)) by ring; apply Rmult_le_compat_l; lra).
    replace (23 / 10 * u * (Y + 21 / 10 * (u * Y) + 6 / 10)) with (23 / 10 * (u * Y) + 483 / 100 * (u * (u * Y)) + 138 / 100 * u) by field. lra. }
  split; [|split].
  - replace (B2R (fsub x (fmul SM_2PI k)) - (B2R x - 2 * PI * IZR z)) with
      ((B2R (fsub x (fmul SM_2PI k)) - (B2R x - P * IZR z)) + (2 * PI - P) * IZR z) by ring.
    apply Rle_trans with (1 := Rabs_triang _ _). replace (u * (2 * X + 9)) with (2 * uX + 9 * u) by (unfold uX; ring). lra.
  - replace (B2R (fsub x (fmul SM_2PI k))) with ((B2R (fsub x (fmul SM_2PI k)) - (B2R x - B2R (fmul SM_2PI k))) + (B2R x - B2R (fmul SM_2PI k))) by ring.
    apply Rle_trans with (1 := Rabs_triang _ _). replace (u * (4 * X + 30)) with (4 * uX + 30 * u) by (unfold uX; ring). apply Rabs_le_inv in PE. lra.
  - intros XS. assert (YS : Y <= 1 / 2 - 45 / 10 * u).
    { apply Rmult_le_reg_l with P; [lra|]. rewrite PY. apply Rle_trans with (1 := XS). apply Rabs_le_inv in PE.
      assert (P * u <= 63 / 10 * u) by (apply Rmult_le_compat_r; lra). replace (P * (1 / 2 - 45 / 10 * u)) with (P / 2 - 45 / 10 * (P * u)) by field. lra. }
    assert (u * Y <= u * (1 / 2)) by (apply Rmult_le_compat_l; lra). rewrite KZ in MV by lra. rewrite Rmult_0_r, rnd_0 in MV.
    rewrite SV, MV, Rminus_0_r. apply rnd_id. apply generic_format_B2R.
Qed.

(** C137, angleMod: the result is the angle less a whole number of turns, up to 2 roundings of the input and 9 roundings of one radian; it lies within
    PI up to a similar slack; the sine and the cosine are preserved; angles already inside are returned unchanged. Whatever the version of Boost. *)
Theorem angleMod_partial m x : is_finite x = true -> Rabs (B2R x) <= bpow radix2 1000 ->
  exists r, fangleMod m x = Some r /\ is_finite r = true /\
    (exists k : Z, Rabs (B2R r - (B2R x - 2 * PI * IZR k)) <= u * (2 * Rabs (B2R x) + 9)) /\
    same_angle (B2R r) (B2R x) (u * (2 * Rabs (B2R x) + 9)) /\
    Rabs (B2R r) <= PI + u * (4 * Rabs (B2R x) + 30) /\
    (Rabs (B2R x) <= PI - 30 * u -> B2R r = B2R x).
Proof.
  intros F B. destruct (angleMod_value m x F B) as (r & z & E & FR & D & A & I). exists r. split; [exact E|]. split; [exact FR|]. split; [now exists z|].
  split; [|auto]. destruct (turns (B2R x) z) as [TS TC]. split.
  - rewrite <- TS. apply Rle_trans with (1 := sin_dist _ _). exact D.
  - rewrite <- TC. apply Rle_trans with (1 := cos_dist _ _). exact D.
Qed.

(** ** deg2rad, rad2deg *)
Lemma scale_err x c t (d : R) : is_finite x = true -> is_finite c = true -> Rabs (B2R x * B2R c) <= bpow radix2 1023 -> Rabs (B2R c - t) <= d -> Rabs (B2R c) <= t + d -> 0 <= t -> 0 <= d ->
  is_finite (fmul x c) = true /\ Rabs (B2R (fmul x c) - B2R x * t) <= (d + u * (t + d)) * Rabs (B2R x) + eta.
Proof.
  intros F FC B D C T D0. destruct (fmul_rnd x c 1023 F FC ltac:(lia) B) as [V FV]. split; [exact FV|]. rewrite V.
  pose proof (rnd_err (B2R x * B2R c)) as R. rewrite Rabs_mult in R. pose proof (Rabs_pos (B2R x)) as XP. pose proof u53_pos as UP.
  replace (rnd (B2R x * B2R c) - B2R x * t) with ((rnd (B2R x * B2R c) - B2R x * B2R c) + B2R x * (B2R c - t)) by ring.
  apply Rle_trans with (1 := Rabs_triang _ _). rewrite (Rabs_mult (B2R x) (B2R c - t)).
  assert (Rabs (B2R x) * Rabs (B2R c - t) <= Rabs (B2R x) * d) by (apply Rmult_le_compat_l; lra).
  assert (u * (Rabs (B2R x) * Rabs (B2R c)) <= u * (Rabs (B2R x) * (t + d))) by (apply Rmult_le_compat_l; [lra|]; apply Rmult_le_compat_l; lra).
  replace ((d + u * (t + d)) * Rabs (B2R x)) with (Rabs (B2R x) * d + u * (Rabs (B2R x) * (t + d))) by ring. lra.
Qed.
Lemma inv_pi : 31830988618379067 / 100000000000000000 <= / PI <= 31830988618379068 / 100000000000000000.
Proof.
  pose proof PI_decimal as [L U]. assert (P : 0 < PI) by lra. split.
  - apply Rmult_le_reg_r with PI; [exact P|]. rewrite Rinv_l by lra. lra.
  - apply Rmult_le_reg_r with PI; [exact P|]. rewrite Rinv_l by lra. lra.
Qed.
(** deg2rad: within 154 roundings of the exact conversion (the constant is given to 14 digits only) *)
Theorem deg2rad_partial x : is_finite x = true -> is_finite (fdeg2rad x) = true /\ Rabs (B2R (fdeg2rad x) - B2R x * (PI / 180)) <= 154 * u * Rabs (B2R x * (PI / 180)) + eta.
Proof.
  intros F. destruct deg2rad_val as [V FV]. pose proof PI_decimal as [L U]. pose proof u_val as UV. pose proof (Rabs_pos (B2R x)) as XP.
  destruct (scale_err x SM_DEG2RAD (PI / 180) (2959 / 10000000000000000000) F FV) as [FR E].
  - rewrite Rabs_mult, V, (Rabs_pos_eq (1257642267027257 / 72057594037927936)) by lra. pose proof (abs_B2R_lt_emax 53 1024 x) as M.
    apply Rle_trans with (bpow radix2 1024 * / 2). { apply Rmult_le_compat; lra. }
    change 1024%Z with (1 + 1023)%Z. rewrite bpow_plus. change (bpow radix2 1) with 2. lra.
  - rewrite V. apply Rabs_le. lra.
  - rewrite V, Rabs_pos_eq by lra. lra.
  - lra.
  - lra.
  - split; [exact FR|]. apply Rle_trans with (1 := E). rewrite (Rabs_mult (B2R x)), (Rabs_pos_eq (PI / 180)) by lra. apply Rplus_le_compat_r.
    replace (154 * u * (Rabs (B2R x) * (PI / 180))) with ((154 * u * (PI / 180)) * Rabs (B2R x)) by ring. apply Rmult_le_compat_r; [exact XP|]. rewrite UV. lra.
Qed.
(** rad2deg: within 2 roundings *)
Theorem rad2deg_accurate x : is_finite x = true -> Rabs (B2R x) <= bpow radix2 1017 ->
  is_finite (frad2deg x) = true /\ Rabs (B2R (frad2deg x) - B2R x * (180 / PI)) <= 2 * u * Rabs (B2R x * (180 / PI)) + eta.
Proof.
  intros F B. destruct rad2deg_val as [V FV]. pose proof inv_pi as [L U]. pose proof u_val as UV. pose proof (Rabs_pos (B2R x)) as XP.
  change (180 / PI) with (180 * / PI). set (ip := / PI) in *.
  destruct (scale_err x SM_RAD2DEG (180 * ip) (24 / 10000000000000000) F FV) as [FR E].
  - rewrite Rabs_mult, V, (Rabs_pos_eq (1007958012753983 / 17592186044416)) by lra.
    apply Rle_trans with (bpow radix2 1017 * bpow radix2 6). { apply Rmult_le_compat; try lra. change (bpow radix2 6) with 64. lra. }
    rewrite <- bpow_plus. apply bpow_le. lia.
  - rewrite V. apply Rabs_le. lra.
  - rewrite V, Rabs_pos_eq by lra. lra.
  - lra.
  - lra.
  - split; [exact FR|]. apply Rle_trans with (1 := E). rewrite (Rabs_mult (B2R x)), (Rabs_pos_eq (180 * ip)) by lra. apply Rplus_le_compat_r.
    replace (2 * u * (Rabs (B2R x) * (180 * ip))) with ((2 * u * (180 * ip)) * Rabs (B2R x)) by ring. apply Rmult_le_compat_r; [exact XP|]. rewrite UV. lra.
Qed.

(** ** what does not hold *)
(** deg2rad is not accurate to rounding: the half turn is wrong by more than 100 times the spacing of doubles at PI (2^-51) *)
Theorem deg2rad_refuted : exists x, is_finite x = true /\ B2R x = 180 /\ 100 * bpow radix2 (-51) < Rabs (B2R (fdeg2rad x) - PI) /\ 400 * bpow radix2 (-53) < Rabs (B2R (frad2deg (fdeg2rad x)) - 180).
Proof.
  exists (fofZ 180). pose proof PI_decimal as [L U]. split; [vm_compute; reflexivity|]. split; [apply (fofZ_correct 180); cbn; lia|].
  assert (V : B2R (fdeg2rad (fofZ 180)) = IZR 7074237752028321 * / 2251799813685248) by (vm_compute; lra).
  assert (W : B2R (frad2deg (fdeg2rad (fofZ 180))) = IZR 6333186975989653 * / 35184372088832) by (vm_compute; lra).
  rewrite V, W, u_val. replace (bpow radix2 (-51)) with (/ 2251799813685248) by (cbn; lra). rewrite !Rabs_left1 by lra. split; lra.
Qed.
(** angleMod does not always give an angle between -PI and PI, nor the same angle: 1e16 radians become -4, and 1e17 radians become 0
    although their sine is not 0 (0 is not the reduced angle of a nonzero integer) *)
Theorem angleMod_refuted m : (exists x r, is_finite x = true /\ B2R x = 10000000000000000 /\ fangleMod m x = Some r /\ B2R r = -4 /\ B2R r < - PI) /\
  (exists x r, is_finite x = true /\ B2R x = 100000000000000000 /\ fangleMod m x = Some r /\ B2R r = 0).
Proof.
  pose proof PI_decimal as [L U].
  assert (BIGZ : forall s z e, B2SF (fofZ z) = SpecFloat.S754_finite false s e -> B2R (fofZ z) = IZR (Zpos s) * bpow radix2 e).
  { intros s z e H. destruct (fofZ z) as [| | |b q f p]; try discriminate. cbn [B2SF] in H. injection H as -> -> ->. reflexivity. }
  split.
  - exists (fofZ (10 ^ 16)). destruct (fangleMod m (fofZ (10 ^ 16))) as [r|] eqn:E.
    + exists r. split; [vm_compute; reflexivity|]. split. { rewrite (BIGZ 5000000000000000%positive _ 1%Z) by (vm_compute; reflexivity). change (bpow radix2 1) with 2. lra. }
      split; [reflexivity|]. assert (S : option_map (B2SF (prec:=53) (emax:=1024)) (fangleMod m (fofZ (10 ^ 16))) = Some (SpecFloat.S754_finite true 4503599627370496 (-50))) by (destruct m; vm_compute; reflexivity).
      rewrite E in S. cbn [option_map] in S. assert (V : B2R r = -4).
      { destruct r as [| | |b q f p]; try discriminate S. cbn [B2SF] in S. injection S as -> -> ->. unfold B2R, F2R. cbn [Fnum Fexp cond_Zopp SpecFloat.cond_Zopp]. replace (bpow radix2 (-50)) with (/ 1125899906842624) by (cbn; lra). change (- (4503599627370496))%Z with (-4503599627370496)%Z. lra. }
      rewrite V. split; lra.
    + exfalso. assert (S : (match fangleMod m (fofZ (10 ^ 16)) with Some _ => true | None => false end) = true) by (destruct m; vm_compute; reflexivity). rewrite E in S. discriminate S.
  - exists (fofZ (10 ^ 17)). destruct (fangleMod m (fofZ (10 ^ 17))) as [r|] eqn:E.
    + exists r. split; [vm_compute; reflexivity|]. split. { rewrite (BIGZ 6250000000000000%positive _ 4%Z) by (vm_compute; reflexivity). change (bpow radix2 4) with 16. lra. }
      split; [reflexivity|]. assert (S : option_map (B2SF (prec:=53) (emax:=1024)) (fangleMod m (fofZ (10 ^ 17))) = Some (SpecFloat.S754_zero false)) by (destruct m; vm_compute; reflexivity).
      rewrite E in S. cbn [option_map] in S. destruct r as [b| | |b q f p]; try discriminate S. reflexivity.
    + exfalso. assert (S : (match fangleMod m (fofZ (10 ^ 17)) with Some _ => true | None => false end) = true) by (destruct m; vm_compute; reflexivity). rewrite E in S. discriminate S.
Qed.

(** a concrete case: 100 radians *)
Example angleMod_case m : exists r, fangleMod m (fofZ 100) = Some r /\ same_angle (B2R r) 100 (250 * u) /\ Rabs (B2R r) <= PI + 500 * u.
Proof.
  destruct (fofZ_correct 100 ltac:(cbn; lia)) as [V F].
  destruct (angleMod_partial m (fofZ 100) F) as (r & E & _ & _ & [A B] & C & _).
  { rewrite V, Rabs_pos_eq by lra. apply Rle_trans with (bpow radix2 10); [change (bpow radix2 10) with 1024; lra|apply bpow_le; lia]. }
  rewrite V, (Rabs_pos_eq 100) in * by lra. exists r. split; [exact E|]. unfold same_angle. pose proof u53_pos. repeat split; lra.
Qed.
