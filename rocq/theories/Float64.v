(** IEEE-754 binary64 as used by C++ [double] (round to nearest even, one NaN), through Flocq. *)
From Coq Require Export ZArith Reals Bool Lia Lra.
From Flocq Require Export Core BinarySingleNaN.
From Coq Require Import Psatz.
Open Scope R_scope.

Notation f64 := (binary_float 53 1024).
#[global] Instance prec53_gt_0 : Prec_gt_0 53. Proof. reflexivity. Qed.
#[global] Instance prec53_lt_emax : Prec_lt_emax 53 1024. Proof. reflexivity. Qed.

Notation fexp64 := (SpecFloat.fexp 53 1024).
(** Correctly rounded real: the value every operation returns when no overflow occurs. *)
Notation rnd := (round radix2 fexp64 ZnearestE).
Notation OMEGA := (bpow radix2 1024).
Notation format64 := (generic_format radix2 fexp64).

Definition fadd (x y : f64) : f64 := Bplus mode_NE x y.
Definition fsub (x y : f64) : f64 := Bminus mode_NE x y.
Definition fmul (x y : f64) : f64 := Bmult mode_NE x y.
Definition fdiv (x y : f64) : f64 := Bdiv mode_NE x y.
Definition fsqrt (x : f64) : f64 := Bsqrt mode_NE x.
Definition fabs (x : f64) : f64 := Babs x.
Definition fneg (x : f64) : f64 := Bopp x.
Definition fleb (x y : f64) : bool := Bleb x y.
Definition fltb (x y : f64) : bool := Bltb x y.
Definition feqb (x y : f64) : bool := Beqb x y.
(** std::max(a, b) = (a < b) ? b : a *)
Definition fmax (a b : f64) : f64 := if fltb a b then b else a.
(** Integer (int, long, int64) to double conversion, and the literal m * 2^e. *)
Definition fofZ (z : Z) : f64 := binary_normalize 53 1024 _ _ mode_NE z 0 false.
Definition flit (m e : Z) : f64 := binary_normalize 53 1024 _ _ mode_NE m e false.
Definition fzero : f64 := B754_zero false.
Definition fhalf : f64 := flit 1 (-1).
Definition finf (s : bool) : f64 := B754_infinity s.
Definition fnan : f64 := B754_nan.
(** Literals written in decimal notation: N / 10^k correctly rounded (division of two exactly
    representable integers, k <= 22 and N < 2^53). *)
Definition fdec (n : Z) (k : Z) : f64 := fdiv (fofZ n) (fofZ (10 ^ k)).

(** Order embedding of the non-NaN doubles in R: infinities go to +-2^1024. *)
Definition ext (x : f64) : R :=
  match x with
  | B754_infinity s => if s then - OMEGA else OMEGA
  | _ => B2R x
  end.

Lemma ext_finite (x : f64) : is_finite x = true -> ext x = B2R x.
Proof. destruct x; simpl; auto; discriminate. Qed.
Lemma ext_bounds (x : f64) : - OMEGA <= ext x <= OMEGA.
Proof.
  pose proof (bpow_gt_0 radix2 1024). pose proof (abs_B2R_lt_emax 53 1024 x) as H1.
  apply Rabs_lt_inv in H1. destruct x as [s|s| |s m e p]; cbn [ext] in *; try lra.
  destruct s; lra.
Qed.
Lemma ext_finite_lt (x : f64) : is_finite x = true -> - OMEGA < ext x < OMEGA.
Proof.
  intros H. rewrite ext_finite by exact H. apply Rabs_lt_inv. apply abs_B2R_lt_emax.
Qed.
Lemma not_finite_cases (x : f64) : is_nan x = false -> is_finite x = false ->
  x = B754_infinity true \/ x = B754_infinity false.
Proof. destruct x as [s|s| |s m e p]; simpl; intros; try discriminate. destruct s; auto. Qed.

Lemma fcompare_ext (x y : f64) : is_nan x = false -> is_nan y = false ->
  Bcompare x y = Some (Rcompare (ext x) (ext y)).
Proof.
  intros Nx Ny.
  destruct (is_finite x) eqn:Fx; destruct (is_finite y) eqn:Fy.
  - rewrite !ext_finite by auto. apply Bcompare_correct; auto.
  - pose proof (ext_finite_lt x Fx) as Hx. destruct (not_finite_cases y Ny Fy) as [-> | ->]; cbn [ext] in *.
    + rewrite Rcompare_Gt by lra. destruct x as [s|s| |s m e p]; try discriminate; reflexivity.
    + rewrite Rcompare_Lt by lra. destruct x as [s|s| |s m e p]; try discriminate; reflexivity.
  - pose proof (ext_finite_lt y Fy) as Hy. destruct (not_finite_cases x Nx Fx) as [-> | ->]; cbn [ext] in *.
    + rewrite Rcompare_Lt by lra. destruct y as [s|s| |s m e p]; try discriminate; reflexivity.
    + rewrite Rcompare_Gt by lra. destruct y as [s|s| |s m e p]; try discriminate; reflexivity.
  - pose proof (bpow_gt_0 radix2 1024).
    destruct (not_finite_cases x Nx Fx) as [-> | ->], (not_finite_cases y Ny Fy) as [-> | ->]; cbn [ext].
    + rewrite Rcompare_Eq by lra. reflexivity.
    + rewrite Rcompare_Lt by lra. reflexivity.
    + rewrite Rcompare_Gt by lra. reflexivity.
    + rewrite Rcompare_Eq by lra. reflexivity.
Qed.

Lemma fleb_ext (x y : f64) : is_nan x = false -> is_nan y = false -> (fleb x y = true <-> ext x <= ext y).
Proof.
  intros Nx Ny. pose proof (fcompare_ext x y Nx Ny) as H.
  unfold fleb, Bleb, SpecFloat.SFleb. unfold Bcompare in H. rewrite H.
  destruct (Rcompare_spec (ext x) (ext y)); split; intros; auto; try lra; discriminate.
Qed.
Lemma fltb_ext (x y : f64) : is_nan x = false -> is_nan y = false -> (fltb x y = true <-> ext x < ext y).
Proof.
  intros Nx Ny. pose proof (fcompare_ext x y Nx Ny) as H.
  unfold fltb, Bltb, SpecFloat.SFltb. unfold Bcompare in H. rewrite H.
  destruct (Rcompare_spec (ext x) (ext y)); split; intros; auto; try lra; discriminate.
Qed.
Lemma feqb_ext (x y : f64) : is_nan x = false -> is_nan y = false -> (feqb x y = true <-> ext x = ext y).
Proof.
  intros Nx Ny. pose proof (fcompare_ext x y Nx Ny) as H.
  unfold feqb, Beqb, SpecFloat.SFeqb. unfold Bcompare in H. rewrite H.
  destruct (Rcompare_spec (ext x) (ext y)); split; intros; auto; try lra; discriminate.
Qed.
Lemma fcmp_nan (x y : f64) : is_nan x = true \/ is_nan y = true ->
  fleb x y = false /\ fltb x y = false /\ feqb x y = false.
Proof.
  intros [H|H].
  - destruct x; try discriminate. destruct y; repeat split; reflexivity.
  - destruct y; try discriminate. destruct x; repeat split; reflexivity.
Qed.

Lemma is_nan_finite (x : f64) : is_finite x = true -> is_nan x = false.
Proof. destruct x; simpl; auto; discriminate. Qed.

Lemma ext_fabs (x : f64) : is_nan x = false -> ext (fabs x) = Rabs (ext x).
Proof.
  intros N. pose proof (bpow_gt_0 radix2 1024).
  destruct x as [s|s| |s m e p]; try discriminate; cbn [ext fabs Babs].
  - cbn. rewrite Rabs_R0. reflexivity.
  - destruct s; [rewrite Rabs_left by lra; lra|rewrite Rabs_right by lra; lra].
  - apply (B2R_Babs 53 1024 (B754_finite s m e p)).
Qed.
Lemma is_nan_fabs (x : f64) : is_nan (fabs x) = is_nan x.
Proof. apply is_nan_Babs. Qed.

(** Clamp to the extended range: what an operation with exact result [r] returns. *)
Definition clamp (r : R) : R :=
  if Rlt_bool (Rabs (rnd r)) OMEGA then rnd r else if Rlt_bool r 0 then - OMEGA else OMEGA.

Lemma rnd_le x y : x <= y -> rnd x <= rnd y.
Proof. apply round_le; typeclasses eauto. Qed.
Lemma rnd_opp x : rnd (- x) = - rnd x.
Proof. apply round_NE_opp. Qed.
Lemma rnd_0 : rnd 0 = 0.
Proof. apply round_0; typeclasses eauto. Qed.
Lemma rnd_id x : format64 x -> rnd x = x.
Proof. intros; apply round_generic; auto; typeclasses eauto. Qed.

Lemma clamp_le x y : x <= y -> clamp x <= clamp y.
Proof.
  intros H. pose proof (rnd_le x y H) as Hr. pose proof (bpow_gt_0 radix2 1024).
  pose proof rnd_0 as Hz0.
  unfold clamp.
  destruct (Rlt_bool_spec (Rabs (rnd x)) OMEGA) as [Hx|Hx];
  destruct (Rlt_bool_spec (Rabs (rnd y)) OMEGA) as [Hy|Hy]; auto.
  - apply Rabs_lt_inv in Hx. destruct (Rlt_bool_spec y 0) as [Ny|Ny]; [|lra].
    assert (rnd y <= 0) by (rewrite <- Hz0; apply rnd_le; lra).
    rewrite Rabs_left1 in Hy by lra. lra.
  - apply Rabs_lt_inv in Hy. destruct (Rlt_bool_spec x 0) as [Ny|Ny]; [lra|].
    assert (0 <= rnd x) by (rewrite <- Hz0; apply rnd_le; lra).
    rewrite Rabs_right in Hx by lra. lra.
  - destruct (Rlt_bool_spec x 0), (Rlt_bool_spec y 0); lra.
Qed.

Lemma clamp_opp x : x <> 0 -> clamp (- x) = - clamp x.
Proof.
  intros Hx0. unfold clamp. rewrite rnd_opp, Rabs_Ropp.
  destruct (Rlt_bool (Rabs (rnd x)) OMEGA); auto.
  destruct (Rlt_bool_spec x 0), (Rlt_bool_spec (-x) 0); lra.
Qed.
Lemma clamp_0 : clamp 0 = 0.
Proof.
  unfold clamp. rewrite rnd_0, Rabs_R0. rewrite Rlt_bool_true by apply bpow_gt_0. reflexivity.
Qed.
Lemma clamp_neg x : clamp (- x) = - clamp x.
Proof.
  destruct (Req_dec x 0) as [->|H]; [|apply clamp_opp; auto]. rewrite Ropp_0, clamp_0. lra.
Qed.
Lemma clamp_nonneg x : 0 <= x -> 0 <= clamp x.
Proof. intros H. rewrite <- clamp_0. apply clamp_le; auto. Qed.
Lemma clamp_small x : Rabs (rnd x) < OMEGA -> clamp x = rnd x.
Proof. intros H. unfold clamp. rewrite Rlt_bool_true; auto. Qed.

Lemma sign_neg (x : f64) : is_finite x = true -> B2R x <> 0 -> Bsign x = Rlt_bool (B2R x) 0.
Proof.
  destruct x as [s|s| |s m e p]; simpl; intros F H; try discriminate; try lra.
  destruct s; cbn; symmetry.
  - apply Rlt_bool_true. unfold F2R; cbn. pose proof (bpow_gt_0 radix2 e). 
    assert (IZR (Z.neg m) < 0) by (apply IZR_lt; lia). nra.
  - apply Rlt_bool_false. unfold F2R; cbn. pose proof (bpow_gt_0 radix2 e). 
    assert (0 < IZR (Z.pos m)) by (apply IZR_lt; lia). nra.
Qed.

Lemma fsub_ext (x y : f64) : is_finite x = true -> is_finite y = true ->
  is_nan (fsub x y) = false /\ ext (fsub x y) = clamp (B2R x - B2R y).
Proof.
  intros Fx Fy. unfold fsub.
  pose proof (Bminus_correct 53 1024 _ _ mode_NE x y Fx Fy) as H. cbn [round_mode] in H.
  unfold clamp.
  destruct (Rlt_bool_spec (Rabs (rnd (B2R x - B2R y))) OMEGA) as [Hlt|Hge].
  - destruct H as (H1 & H2 & _). split; [apply is_nan_finite; auto|]. rewrite ext_finite; auto.
  - destruct H as (H1 & H2).
    assert (D : B2R x - B2R y <> 0).
    { intros E. rewrite E, rnd_0, Rabs_R0 in Hge. pose proof (bpow_gt_0 radix2 1024); lra. }
    assert (S : Bsign x = Rlt_bool (B2R x - B2R y) 0).
    { destruct (Req_dec (B2R x) 0) as [Ex|Ex].
      - (* x = 0: result -y finite, contradiction *)
        exfalso. rewrite Ex, Rminus_0_l, rnd_opp, Rabs_Ropp, rnd_id in Hge by apply generic_format_B2R.
        pose proof (abs_B2R_lt_emax 53 1024 y). lra.
      - destruct (Req_dec (B2R y) 0) as [Ey|Ey].
        + exfalso. rewrite Ey, Rminus_0_r, rnd_id in Hge by apply generic_format_B2R.
          pose proof (abs_B2R_lt_emax 53 1024 x). lra.
        + rewrite (sign_neg x) by auto. rewrite (sign_neg x) in H2 by auto. rewrite (sign_neg y) in H2 by auto.
          destruct (Rlt_bool_spec (B2R x) 0), (Rlt_bool_spec (B2R y) 0); cbn in H2; try discriminate;
            symmetry; [apply Rlt_bool_true|apply Rlt_bool_false]; lra. }
    destruct (Bminus mode_NE x y) as [s|s| |s m e p]; cbn in H1; try discriminate.
    split; [reflexivity|]. inversion H1; subst s. cbn [ext]. rewrite S.
    destruct (Rlt_bool (B2R x - B2R y) 0); reflexivity.
Qed.

Lemma fadd_ext (x y : f64) : is_finite x = true -> is_finite y = true ->
  is_nan (fadd x y) = false /\ ext (fadd x y) = clamp (B2R x + B2R y).
Proof.
  intros Fx Fy. unfold fadd.
  pose proof (Bplus_correct 53 1024 _ _ mode_NE x y Fx Fy) as H. cbn [round_mode] in H.
  unfold clamp.
  destruct (Rlt_bool_spec (Rabs (rnd (B2R x + B2R y))) OMEGA) as [Hlt|Hge].
  - destruct H as (H1 & H2 & _). split; [apply is_nan_finite; auto|]. rewrite ext_finite; auto.
  - destruct H as (H1 & H2).
    assert (S : Bsign x = Rlt_bool (B2R x + B2R y) 0).
    { destruct (Req_dec (B2R x) 0) as [Ex|Ex].
      - exfalso. rewrite Ex, Rplus_0_l, rnd_id in Hge by apply generic_format_B2R.
        pose proof (abs_B2R_lt_emax 53 1024 y). lra.
      - destruct (Req_dec (B2R y) 0) as [Ey|Ey].
        + exfalso. rewrite Ey, Rplus_0_r, rnd_id in Hge by apply generic_format_B2R.
          pose proof (abs_B2R_lt_emax 53 1024 x). lra.
        + rewrite (sign_neg x) by auto. rewrite (sign_neg x) in H2 by auto. rewrite (sign_neg y) in H2 by auto.
          destruct (Rlt_bool_spec (B2R x) 0), (Rlt_bool_spec (B2R y) 0); cbn in H2; try discriminate;
            symmetry; [apply Rlt_bool_true|apply Rlt_bool_false]; lra. }
    destruct (Bplus mode_NE x y) as [s|s| |s m e p]; cbn in H1; try discriminate.
    split; [reflexivity|]. inversion H1; subst s. cbn [ext]. rewrite S.
    destruct (Rlt_bool (B2R x + B2R y) 0); reflexivity.
Qed.

Lemma fmul_ext (x y : f64) : is_finite x = true -> is_finite y = true ->
  is_nan (fmul x y) = false /\ ext (fmul x y) = clamp (B2R x * B2R y).
Proof.
  intros Fx Fy. unfold fmul.
  pose proof (Bmult_correct 53 1024 _ _ mode_NE x y) as H. cbn [round_mode] in H.
  unfold clamp.
  destruct (Rlt_bool_spec (Rabs (rnd (B2R x * B2R y))) OMEGA) as [Hlt|Hge].
  - destruct H as (H1 & H2 & _). rewrite Fx, Fy in H2. cbn in H2.
    split; [apply is_nan_finite; auto|]. rewrite ext_finite; auto.
  - assert (D : B2R x * B2R y <> 0).
    { intros E. rewrite E, rnd_0, Rabs_R0 in Hge. pose proof (bpow_gt_0 radix2 1024); lra. }
    assert (S : xorb (Bsign x) (Bsign y) = Rlt_bool (B2R x * B2R y) 0).
    { assert (B2R x <> 0) by (intros E; apply D; rewrite E; ring).
      assert (B2R y <> 0) by (intros E; apply D; rewrite E; ring).
      rewrite !sign_neg by auto.
      destruct (Rlt_bool_spec (B2R x) 0), (Rlt_bool_spec (B2R y) 0); cbn; symmetry;
        [apply Rlt_bool_false|apply Rlt_bool_true|apply Rlt_bool_true|apply Rlt_bool_false]; nra. }
    destruct (Bmult mode_NE x y) as [s|s| |s m e p]; cbn in H; try discriminate.
    split; [reflexivity|]. inversion H; subst s. cbn [ext]. rewrite S.
    destruct (Rlt_bool (B2R x * B2R y) 0); reflexivity.
Qed.

(** Exactly representable integers. *)
Lemma format_IZR z : (Z.abs z <= 2 ^ 53)%Z -> format64 (IZR z).
Proof.
  intros H. destruct (Z.eq_dec (Z.abs z) (2^53)) as [E|E].
  - assert (B : format64 (bpow radix2 53)).
    { apply generic_format_bpow. unfold fexp64, SpecFloat.fexp, SpecFloat.emin. lia. }
    assert (C : IZR (2^53) = bpow radix2 53) by (rewrite (IZR_Zpower radix2) by lia; reflexivity).
    destruct (Z_le_gt_dec 0 z) as [Hz|Hz].
    + rewrite Z.abs_eq in E by lia. rewrite E, C. exact B.
    + rewrite Z.abs_neq in E by lia. replace z with (- 2^53)%Z by lia. rewrite opp_IZR, C.
      apply generic_format_opp. exact B.
  - apply generic_format_FLT. apply (FLT_spec _ _ _ _ (Float radix2 z 0)); cbn.
    + unfold F2R; cbn. ring.
    + change (2 ^ 53)%Z with 9007199254740992%Z in *. lia.
    + unfold SpecFloat.emin. lia.
Qed.

Lemma fofZ_correct z : (Z.abs z <= 2 ^ 53)%Z -> B2R (fofZ z) = IZR z /\ is_finite (fofZ z) = true.
Proof.
  intros H. pose proof (binary_normalize_correct 53 1024 _ _ mode_NE z 0 false) as K.
  cbn [round_mode] in K. unfold fofZ.
  assert (E : F2R (Float radix2 z 0) = IZR z) by (unfold F2R; cbn; ring). rewrite E in K.
  rewrite (rnd_id (IZR z)) in K by (apply format_IZR; auto).
  rewrite Rlt_bool_true in K; [tauto|].
  rewrite <- abs_IZR. apply Rle_lt_trans with (IZR (2^53)); [apply IZR_le; auto|].
  rewrite (IZR_Zpower radix2) by lia. apply bpow_lt. reflexivity.
Qed.
