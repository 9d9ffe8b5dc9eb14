(** C111-C113: the test helpers of sm_eigen. *)
From Coq Require Import Reals Lra Psatz.
From Flocq Require Import Core Relative Plus_error.
From Verif Require Import Float64 Round_Model Round_Proofs Nsec_Model Nsec_Proofs DenseN GTest_Model.
Import ListNotations.
Open Scope R_scope.

(** ** C111: a comparison with NaN or an infinity succeeds, whatever the other number and the tolerance: the relative
    difference is NaN, and NaN is not greater than the tolerance. *)
Definition nonfin (x : f64) : Prop := x = finf false \/ x = fnan.
Lemma nonfin_abs x : is_finite x = false -> nonfin (fabs x).
Proof. destruct x as [s|s| |s m e p]; intros F; try discriminate; [left|right]; reflexivity. Qed.
Lemma nonfin_sub a b : is_finite a = false \/ is_finite b = false -> nonfin (fabs (fsub a b)).
Proof.
  intros H. apply nonfin_abs. unfold fsub, Bminus. destruct a as [s|s| |s m e p]; destruct b as [t|t| |t m' e' p']; cbn in H;
    try (destruct H; discriminate); try (destruct s, t; reflexivity); reflexivity.
Qed.
Lemma nonfin_div x y : nonfin x -> nonfin y -> fdiv x y = fnan.
Proof. intros [-> | ->] [-> | ->]; reflexivity. Qed.
Lemma nonfin_cmp x : nonfin x -> fltb x lit_1em15 = false /\ feqb x fzero = false /\ fltb x lit_1em6 = false.
Proof. intros [-> | ->]; repeat split; vm_compute; reflexivity. Qed.
Lemma inf_nlt y : fltb (finf false) y = false. Proof. destruct y as [s|s| |s m e p]; try destruct s; reflexivity. Qed.
Lemma nonfin_max_l x y : nonfin x -> nonfin (fmax x y).
Proof. intros H. unfold fmax. destruct H as [-> | ->]; [rewrite inf_nlt; left; auto|]. rewrite (proj1 (proj2 (fcmp_nan fnan y (or_introl eq_refl)))). right. auto. Qed.
Lemma cmp_core a b tol : nonfin (fabs (fsub a b)) -> fltb (fabs a) lit_1em15 && fltb (fabs b) lit_1em15 || feqb (fabs a) fzero && fltb (fabs b) lit_1em6 || feqb (fabs b) fzero && fltb (fabs a) lit_1em6 = false ->
  fdiv (fabs (fsub a b)) (fmax (fabs a) (fabs b)) = fnan -> compareRelative a b tol = (true, None).
Proof.
  intros H E D. unfold compareRelative. rewrite E, D.
  assert (N : forall x, fltb x fnan = false) by (intros; apply fcmp_nan; right; reflexivity). rewrite N. auto.
Qed.
Lemma cmp_nonfinite_l a b tol : is_finite a = false -> compareRelative a b tol = (true, None).
Proof.
  intros F. destruct (nonfin_cmp (fabs a) (nonfin_abs a F)) as (A1 & A2 & A3). apply cmp_core.
  - apply nonfin_sub. auto.
  - rewrite A1, A2, A3, andb_false_r. reflexivity.
  - apply nonfin_div; [apply nonfin_sub; auto|apply nonfin_max_l, nonfin_abs; auto].
Qed.
Lemma fdiv_nan y : fdiv fnan y = fnan. Proof. destruct y; reflexivity. Qed.
Lemma max_inf x : nonfin (fmax (fabs x) (finf false)).
Proof.
  unfold fmax. destruct (is_finite x) eqn:F.
  - assert (L : fltb (fabs x) (finf false) = true) by (destruct x as [s|s| |s m e p]; try discriminate F; reflexivity). rewrite L. left. auto.
  - destruct (fltb (fabs x) (finf false)); [left; auto|apply nonfin_abs; auto].
Qed.
Lemma cmp_nonfinite_r a b tol : is_finite b = false -> compareRelative a b tol = (true, None).
Proof.
  intros F. destruct (nonfin_cmp (fabs b) (nonfin_abs b F)) as (A1 & A2 & A3). apply cmp_core.
  - apply nonfin_sub. auto.
  - rewrite A1, A2, A3, !andb_false_r. reflexivity.
  - pose proof (nonfin_sub a b (or_intror F)) as NS. destruct b as [s|s| |s m e p]; try discriminate F.
    + apply nonfin_div; auto. change (fabs (B754_infinity s)) with (finf false). apply max_inf.
    + assert (E : fabs (fsub a B754_nan) = fnan) by (destruct a; reflexivity). rewrite E. apply fdiv_nan.
Qed.
Theorem compareRelative_nonfinite_refuted : forall a b tol, is_finite a = false \/ is_finite b = false -> fst (compareRelative a b tol) = true.
Proof. intros a b tol [H|H]; [rewrite cmp_nonfinite_l|rewrite cmp_nonfinite_r]; auto. Qed.

(** *** symmetry *)
Lemma fabs_ext_inj x y : is_nan x = false -> is_nan y = false -> ext (fabs x) = ext (fabs y) -> fabs x = fabs y.
Proof.
  intros Nx Ny E. destruct (is_finite x) eqn:Fx, (is_finite y) eqn:Fy.
  - assert (Gx : is_finite (fabs x) = true) by (unfold fabs; now rewrite is_finite_Babs).
    assert (Gy : is_finite (fabs y) = true) by (unfold fabs; now rewrite is_finite_Babs).
    rewrite !ext_finite in E by auto. apply B2R_Bsign_inj; auto. unfold fabs. rewrite !Bsign_Babs; auto.
  - exfalso. assert (Gx : is_finite (fabs x) = true) by (unfold fabs; now rewrite is_finite_Babs). apply ext_finite_lt in Gx. rewrite E in Gx.
    destruct y as [s|s| |s m e p]; try discriminate. cbn in Gx. lra.
  - exfalso. assert (Gy : is_finite (fabs y) = true) by (unfold fabs; now rewrite is_finite_Babs). apply ext_finite_lt in Gy. rewrite <- E in Gy.
    destruct x as [s|s| |s m e p]; try discriminate. cbn in Gy. lra.
  - destruct x as [s|s| |s m e p]; try discriminate; destruct y as [t|t| |t m' e' p']; try discriminate. reflexivity.
Qed.
Lemma fabs_sub_sym a b : is_finite a = true -> is_finite b = true -> fabs (fsub a b) = fabs (fsub b a).
Proof.
  intros Fa Fb. destruct (fsub_ext a b Fa Fb) as [N1 E1]. destruct (fsub_ext b a Fb Fa) as [N2 E2].
  apply fabs_ext_inj; auto. rewrite !ext_fabs, E1, E2 by auto. replace (B2R b - B2R a) with (- (B2R a - B2R b)) by ring.
  rewrite clamp_neg, Rabs_Ropp. auto.
Qed.
Lemma fmax_abs_sym a b : is_finite a = true -> is_finite b = true -> fmax (fabs a) (fabs b) = fmax (fabs b) (fabs a).
Proof.
  intros Fa Fb. assert (Na : is_nan (fabs a) = false) by (rewrite is_nan_fabs; apply is_nan_finite; auto).
  assert (Nb : is_nan (fabs b) = false) by (rewrite is_nan_fabs; apply is_nan_finite; auto).
  unfold fmax. destruct (fltb (fabs a) (fabs b)) eqn:L1; destruct (fltb (fabs b) (fabs a)) eqn:L2; auto.
  - apply (fltb_ext (fabs a) (fabs b) Na Nb) in L1. apply (fltb_ext (fabs b) (fabs a) Nb Na) in L2. lra.
  - apply fabs_ext_inj; try (apply is_nan_finite; auto).
    destruct (Rtotal_order (ext (fabs a)) (ext (fabs b))) as [T|[T|T]]; auto; exfalso.
    + apply (fltb_ext (fabs a) (fabs b) Na Nb) in T. congruence.
    + apply Rgt_lt, (fltb_ext (fabs b) (fabs a) Nb Na) in T. congruence.
Qed.
Theorem compareRelative_symmetric : forall a b tol, compareRelative a b tol = compareRelative b a tol.
Proof.
  intros a b tol. destruct (is_finite a) eqn:Fa; [|rewrite cmp_nonfinite_l, cmp_nonfinite_r; auto].
  destruct (is_finite b) eqn:Fb; [|rewrite cmp_nonfinite_r, cmp_nonfinite_l; auto].
  unfold compareRelative. rewrite (fabs_sub_sym a b), (fmax_abs_sym a b) by auto.
  rewrite (andb_comm (fltb (fabs a) lit_1em15)).
  set (p := fltb (fabs b) lit_1em15 && fltb (fabs a) lit_1em15). set (q := feqb (fabs a) fzero && fltb (fabs b) lit_1em6).
  set (r := feqb (fabs b) fzero && fltb (fabs a) lit_1em6). replace (p || q || r)%bool with (p || r || q)%bool; auto. now destruct p, q, r.
Qed.

(** *** finite numbers *)
Notation u := (bpow radix2 (-53)).
Lemma u_val : u = / 9007199254740992. Proof. reflexivity. Qed.
Lemma lit_near k : (1 <= k <= 15)%Z -> Rabs (B2R (fdec 1 k) - / IZR (10 ^ k)) <= u * / IZR (10 ^ k) /\ is_finite (fdec 1 k) = true.
Proof.
  intros H. unfold fdec. assert (P10 : (1 <= 10 ^ k <= 10 ^ 15)%Z).
  { split; [change 1%Z with (10 ^ 0)%Z; apply Z.pow_le_mono_r; lia|apply Z.pow_le_mono_r; lia]. }
  change (10 ^ 15)%Z with 1000000000000000%Z in P10.
  destruct (fofZ_correct 1 ltac:(cbn; lia)) as [E1 F1]. destruct (fofZ_correct (10 ^ k)) as [E2 F2].
  { rewrite Z.abs_eq by lia. change (2 ^ 53)%Z with 9007199254740992%Z. lia. }
  assert (K1 : 1 <= IZR (10 ^ k)) by (apply IZR_le; lia). assert (K2 : IZR (10 ^ k) <= 1000000000000000) by (apply IZR_le; lia).
  assert (I0 : 0 < / IZR (10 ^ k)) by (apply Rinv_0_lt_compat; lra).
  assert (I1 : / IZR (10 ^ k) <= 1) by (rewrite <- Rinv_1; apply Rinv_le; lra).
  assert (I2 : / 1000000000000000 <= / IZR (10 ^ k)) by (apply Rinv_le; lra).
  pose proof (Bdiv_correct 53 1024 _ _ mode_NE (fofZ 1) (fofZ (10 ^ k))) as BC. rewrite E1, E2 in BC. specialize (BC ltac:(lra)).
  replace (1 / IZR (10 ^ k)) with (/ IZR (10 ^ k)) in BC by (unfold Rdiv; ring). change (round_mode mode_NE) with ZnearestE in BC.
  rewrite Rlt_bool_true in BC.
  - destruct BC as (B & F & _). unfold fdiv. rewrite B, F, F1. split; auto. rewrite <- (Rabs_pos_eq (/ IZR (10 ^ k))) at 3 by lra.
    apply rnd_rel. rewrite Rabs_pos_eq by lra. apply Rle_trans with (2 := I2). apply Rle_trans with (bpow radix2 (-50)); [apply bpow_le; lia|].
    change (bpow radix2 (-50)) with (/ 1125899906842624). apply Rinv_le; lra.
  - apply Rle_lt_trans with (bpow radix2 0); [|apply bpow_lt; lia]. apply rnd_abs_le; [lia|]. rewrite Rabs_pos_eq by lra. cbn. lra.
Qed.
(** a double times a double literal etc: relative error of one operation *)
Lemma rel_bounds x : 0 <= x -> (x = 0 \/ bpow radix2 (-1022) <= x) -> (1 - u) * x <= rnd x <= (1 + u) * x.
Proof.
  intros P [->|H]; [rewrite rnd_0; lra|]. pose proof (rnd_rel x) as R. rewrite Rabs_pos_eq in R by auto. specialize (R H). apply Rabs_le_inv in R. lra.
Qed.
Lemma sub_bounds (a b : f64) : (1 - u) * Rabs (B2R a - B2R b) <= Rabs (rnd (B2R a - B2R b)) <= (1 + u) * Rabs (B2R a - B2R b).
Proof.
  assert (Fa : format64 (B2R a)) by apply generic_format_B2R. assert (Fb : format64 (B2R b)) by apply generic_format_B2R.
  assert (U0 : 0 < u) by apply bpow_gt_0.
  set (d := B2R a - B2R b). destruct (Rle_or_lt (bpow radix2 (-1022)) (Rabs d)) as [G|L].
  - pose proof (rnd_rel d G) as R. pose proof (Rabs_triang_inv (rnd d) d). pose proof (Rabs_triang_inv d (rnd d)) as T2.
    rewrite Rabs_minus_sym in T2. lra.
  - assert (F : format64 d).
    { unfold d, Rminus. apply (@FLT_format_plus_small radix2 (-1074) 53); auto.
      - reflexivity.
      - apply generic_format_opp; auto.
      - fold (B2R a - B2R b). fold d. apply Rle_trans with (bpow radix2 (-1022)); [lra|apply bpow_le; lia]. }
    rewrite rnd_id by auto. pose proof (Rabs_pos d). nra.
Qed.
(** distinct doubles differ by at least 2^-53 of the larger one *)
Lemma gap (x y : R) : format64 x -> format64 y -> 0 <= y < x -> u * x <= x - y.
Proof.
  intros Fx Fy [P L]. assert (V := fexp_correct 53 1024 eq_refl).
  assert (Hk : bpow radix2 (mag radix2 x - 1) <= x < bpow radix2 (mag radix2 x)).
  { pose proof (bpow_mag_le radix2 x ltac:(lra)) as K1. pose proof (bpow_mag_gt radix2 x) as K2. rewrite Rabs_pos_eq in K1, K2 by lra. auto. }
  assert (B : forall e, u * bpow radix2 e <= bpow radix2 (fexp64 e)).
  { intros e. rewrite <- bpow_plus. apply bpow_le. unfold SpecFloat.fexp, SpecFloat.emin. lia. }
  assert (PG : y <= pred radix2 fexp64 x) by (apply pred_ge_gt; auto).
  rewrite pred_eq_pos in PG by lra. unfold pred_pos in PG. assert (U0 : 0 < u) by apply bpow_gt_0.
  destruct (Req_bool_spec x (bpow radix2 (mag radix2 x - 1))) as [E|E].
  - specialize (B (mag radix2 x - 1)%Z). rewrite <- E in B. lra.
  - rewrite ulp_neq_0 in PG by lra. unfold cexp in PG. specialize (B (mag radix2 x)).
    assert (u * x <= u * bpow radix2 (mag radix2 x)) by (apply Rmult_le_compat_l; lra). lra.
Qed.
Lemma gap_max (x y : R) : format64 x -> format64 y -> x <> y -> u * Rmax (Rabs x) (Rabs y) <= Rabs (x - y).
Proof.
  assert (U0 : 0 < u) by apply bpow_gt_0. assert (U1 : u <= 1) by (rewrite u_val; rewrite <- Rinv_1; apply Rinv_le; lra).
  assert (G : forall x y, format64 x -> format64 y -> x <> y -> Rabs y <= Rabs x -> u * Rabs x <= Rabs (x - y)).
  { clear x y. intros x y Fx Fy N L. pose proof (Rabs_triang_inv x y) as T.
    destruct (Req_dec (Rabs x) (Rabs y)) as [E|E].
    - assert (X : x - y = 2 * x). { unfold Rabs in E. destruct (Rcase_abs x), (Rcase_abs y); lra. }
      rewrite X, Rabs_mult, (Rabs_pos_eq 2) by lra. pose proof (Rabs_pos x). nra.
    - apply Rle_trans with (2 := T). apply gap; try (apply generic_format_abs; auto). split; [apply Rabs_pos|lra]. }
  intros Fx Fy N. destruct (Rle_or_lt (Rabs y) (Rabs x)) as [L|L].
  - rewrite Rmax_left by auto. apply G; auto.
  - rewrite Rmax_right, Rabs_minus_sym by lra. apply G; auto. lra.
Qed.
(** Specification: both numbers below 1e-15, or one exactly zero and the other below 1e-6 (the thresholds are doubles,
    within 2^-53 of these: lit_near). *)
Definition negligible (a b : R) : Prop :=
  (Rabs a < B2R (fdec 1 15) /\ Rabs b < B2R (fdec 1 15)) \/ (a = 0 /\ Rabs b < B2R (fdec 1 6)) \/ (b = 0 /\ Rabs a < B2R (fdec 1 6)).
Lemma u_small : 0 < u /\ u < / 1000. Proof. rewrite u_val. split; [apply Rinv_0_lt_compat; lra|apply Rinv_lt_contravar; lra]. Qed.
Lemma lit_pos k : (1 <= k <= 15)%Z -> 0 < B2R (fdec 1 k).
Proof.
  intros H. destruct (lit_near k H) as [L _]. apply Rabs_le_inv in L. destruct u_small.
  assert (0 < / IZR (10 ^ k)) by (apply Rinv_0_lt_compat, IZR_lt, Z.pow_pos_nonneg; lia). nra.
Qed.
Lemma B2R_abs (x : f64) : B2R (fabs x) = Rabs (B2R x). Proof. apply B2R_Babs. Qed.
Lemma fin_abs (x : f64) : is_finite x = true -> is_finite (fabs x) = true. Proof. unfold fabs. now rewrite is_finite_Babs. Qed.
Lemma flt_R (x y : f64) : is_finite x = true -> is_finite y = true -> (fltb x y = true <-> B2R x < B2R y).
Proof. intros Fx Fy. rewrite fltb_ext by (apply is_nan_finite; auto). rewrite !ext_finite by auto. tauto. Qed.
Lemma feq_R (x y : f64) : is_finite x = true -> is_finite y = true -> (feqb x y = true <-> B2R x = B2R y).
Proof. intros Fx Fy. rewrite feqb_ext by (apply is_nan_finite; auto). rewrite !ext_finite by auto. tauto. Qed.
Lemma negligible_spec (a b : f64) : is_finite a = true -> is_finite b = true ->
  ((fltb (fabs a) lit_1em15 && fltb (fabs b) lit_1em15) || (feqb (fabs a) fzero && fltb (fabs b) lit_1em6) || (feqb (fabs b) fzero && fltb (fabs a) lit_1em6) = true
   <-> negligible (B2R a) (B2R b)).
Proof.
  intros Fa Fb. pose proof (fin_abs a Fa) as Ga. pose proof (fin_abs b Fb) as Gb.
  assert (L15 : is_finite lit_1em15 = true) by (apply (lit_near 15); lia). assert (L6 : is_finite lit_1em6 = true) by (apply (lit_near 6); lia).
  assert (Z : forall x, Rabs x = 0 <-> x = 0). { intros x. split; [intros H; destruct (Req_dec x 0) as [|N]; auto; apply Rabs_no_R0 in N; easy|intros ->; apply Rabs_R0]. }
  rewrite !orb_true_iff, !andb_true_iff, !flt_R, !feq_R, !B2R_abs by auto. change (B2R fzero) with 0. rewrite !Z. unfold negligible. change lit_1em15 with (fdec 1 15). change lit_1em6 with (fdec 1 6). tauto.
Qed.
Lemma fmax_R (x y : f64) : is_finite x = true -> is_finite y = true -> B2R (fmax (fabs x) (fabs y)) = Rmax (Rabs (B2R x)) (Rabs (B2R y)) /\ is_finite (fmax (fabs x) (fabs y)) = true.
Proof.
  intros Fx Fy. pose proof (fin_abs x Fx) as Gx. pose proof (fin_abs y Fy) as Gy. unfold fmax. destruct (fltb (fabs x) (fabs y)) eqn:L.
  - apply flt_R in L; auto. rewrite !B2R_abs in *. rewrite Rmax_right by lra. auto.
  - assert (N : ~ B2R (fabs x) < B2R (fabs y)) by (intros H; apply flt_R in H; auto; congruence). rewrite !B2R_abs in *.
    rewrite Rmax_left by lra. auto.
Qed.
Lemma diff_spec (a b : f64) : is_finite a = true -> is_finite b = true -> Rabs (B2R a) <= bpow radix2 1022 -> Rabs (B2R b) <= bpow radix2 1022 ->
  0 < Rmax (Rabs (B2R a)) (Rabs (B2R b)) ->
  let q := Rabs (B2R a - B2R b) / Rmax (Rabs (B2R a)) (Rabs (B2R b)) in
  let diff := fdiv (fabs (fsub a b)) (fmax (fabs a) (fabs b)) in
  is_finite diff = true /\ (1 - u) * ((1 - u) * q) <= B2R diff <= (1 + u) * ((1 + u) * q) /\ (q = 0 \/ u <= q) /\ q <= 2.
Proof.
  intros Fa Fb Ba Bb Mp q diff. set (M := Rmax (Rabs (B2R a)) (Rabs (B2R b))) in *. set (d := B2R a - B2R b) in *.
  destruct u_small as [U0 U1].
  assert (D2 : Rabs d <= 2 * M).
  { unfold d. apply Rle_trans with (Rabs (B2R a) + Rabs (B2R b)).
    - unfold Rminus. apply Rle_trans with (1 := Rabs_triang _ _). rewrite Rabs_Ropp. lra.
    - pose proof (Rmax_l (Rabs (B2R a)) (Rabs (B2R b))). pose proof (Rmax_r (Rabs (B2R a)) (Rabs (B2R b))). fold M in H, H0. lra. }
  assert (MB : M <= bpow radix2 1022) by (apply Rmax_lub; auto).
  assert (DB : Rabs d <= bpow radix2 1023). { change 1023%Z with (1 + 1022)%Z. rewrite bpow_plus. change (bpow radix2 1) with 2. lra. }
  assert (SB : Rabs (rnd d) < OMEGA).
  { apply Rle_lt_trans with (bpow radix2 1023); [apply rnd_abs_le; auto; lia|apply bpow_lt; lia]. }
  destruct (fsub_ext a b Fa Fb) as [N1 E1]. fold d in E1. rewrite clamp_small in E1 by auto.
  assert (Fs : is_finite (fsub a b) = true) by (apply finite_of_ext; auto; rewrite E1; auto). rewrite ext_finite in E1 by auto.
  destruct (fmax_R a b Fa Fb) as [EM FM]. fold M in EM.
  pose proof (sub_bounds a b) as SBd. fold d in SBd.
  assert (Q0 : 0 <= q) by (unfold q; apply Rmult_le_pos; [apply Rabs_pos|apply Rlt_le, Rinv_0_lt_compat; auto]).
  assert (QM : q * M = Rabs d) by (unfold q; field; lra).
  assert (Qg : q = 0 \/ u <= q).
  { destruct (Req_dec (B2R a) (B2R b)) as [E|E].
    - left. unfold q, d. rewrite E. unfold Rminus. rewrite Rplus_opp_r, Rabs_R0. unfold Rdiv. ring.
    - right. pose proof (gap_max (B2R a) (B2R b) ltac:(apply generic_format_B2R) ltac:(apply generic_format_B2R) E) as G. fold M d in G.
      apply Rmult_le_reg_r with M; auto. lra. }
  assert (Q2 : q <= 2) by (apply Rmult_le_reg_r with M; auto; lra).
  set (x := Rabs (rnd d) / M).
  assert (XM : x * M = Rabs (rnd d)) by (unfold x; field; lra).
  assert (X1 : (1 - u) * q <= x <= (1 + u) * q).
  { split; apply Rmult_le_reg_r with M; auto; rewrite XM; [replace ((1 - u) * q * M) with ((1 - u) * Rabs d) by (rewrite <- QM; ring)|replace ((1 + u) * q * M) with ((1 + u) * Rabs d) by (rewrite <- QM; ring)]; lra. }
  assert (X0 : x = 0 \/ bpow radix2 (-1022) <= x).
  { destruct Qg as [Z|G]; [left; rewrite Z in X1; lra|right].
    apply Rle_trans with (bpow radix2 (-1 + -53)); [apply bpow_le; lia|]. rewrite bpow_plus. change (bpow radix2 (-1)) with (/ 2). nra. }
  assert (XP : 0 <= x) by nra.
  assert (XB : Rabs (rnd x) < OMEGA).
  { apply Rle_lt_trans with (bpow radix2 2); [|apply bpow_lt; lia]. apply rnd_abs_le; [lia|]. rewrite Rabs_pos_eq by auto. cbn. nra. }
  pose proof (Bdiv_correct 53 1024 _ _ mode_NE (fabs (fsub a b)) (fmax (fabs a) (fabs b))) as BC.
  rewrite EM in BC. specialize (BC ltac:(lra)). rewrite B2R_abs, E1 in BC. fold x in BC. change (round_mode mode_NE) with ZnearestE in BC.
  rewrite Rlt_bool_true in BC by auto. destruct BC as (B1 & B2 & _). rewrite (fin_abs _ Fs) in B2.
  change (Bdiv mode_NE (fabs (fsub a b)) (fmax (fabs a) (fabs b))) with diff in *.
  split; auto. split; auto. rewrite B1. pose proof (rel_bounds x XP X0). split; nra.
Qed.
Lemma tol_spec (tol : f64) : is_finite tol = true -> (B2R tol = 0 \/ bpow radix2 (-1000) <= B2R tol) -> B2R tol <= bpow radix2 1000 ->
  is_finite (fmul tol lit_1em2) = true /\
  (1 - u) * ((1 - u) * (B2R tol / 100)) <= B2R (fmul tol lit_1em2) <= (1 + u) * ((1 + u) * (B2R tol / 100)).
Proof.
  intros F L U. destruct (lit_near 2 ltac:(lia)) as [C FC]. change (fdec 1 2) with lit_1em2 in *. change (IZR (10 ^ 2)) with 100 in C.
  apply Rabs_le_inv in C. destruct u_small as [U0 U1]. set (c := B2R lit_1em2) in *. set (t := B2R tol) in *.
  assert (T0 : 0 <= t) by (destruct L as [->|L]; [lra|pose proof (bpow_gt_0 radix2 (-1000)); lra]).
  assert (C1 : / 128 <= c <= 1) by lra.
  destruct (fmul_rnd tol lit_1em2 1000 F FC ltac:(lia)) as [E Fm].
  { fold c t. rewrite Rabs_pos_eq by nra. nra. }
  split; auto. rewrite E. fold c t. pose proof (rel_bounds (t * c) ltac:(nra)) as R.
  assert (G : t * c = 0 \/ bpow radix2 (-1022) <= t * c).
  { destruct L as [->|L]; [left; ring|right]. apply Rle_trans with (bpow radix2 (-1000) * / 128); [|pose proof (bpow_gt_0 radix2 (-1000)); nra].
    change (/ 128) with (bpow radix2 (-7)). rewrite <- bpow_plus. apply bpow_le. lia. }
  specialize (R G). assert ((1 - u) * (t / 100) <= t * c <= (1 + u) * (t / 100)) by nra. nra.
Qed.

(** ** C111: two finite numbers (not overflowing when subtracted) are accepted, up to a relative 2^-50 in the tolerance, if
    they differ by at most tol percent of the larger one or are negligible; the percentage reported for a failure is right. *)
Notation slack := (bpow radix2 (-50)).
Theorem compareRelative_finite_partial : forall a b tol : f64,
  is_finite a = true -> is_finite b = true -> Rabs (B2R a) <= bpow radix2 1022 -> Rabs (B2R b) <= bpow radix2 1022 ->
  is_finite tol = true -> (B2R tol = 0 \/ bpow radix2 (-1000) <= B2R tol) -> B2R tol <= bpow radix2 1000 ->
  let ok := fst (compareRelative a b tol) in
  let d := Rabs (B2R a - B2R b) in
  let M := Rmax (Rabs (B2R a)) (Rabs (B2R b)) in
  (negligible (B2R a) (B2R b) -> ok = true) /\
  (d <= (1 - slack) * (B2R tol / 100 * M) -> ok = true) /\
  (ok = true -> negligible (B2R a) (B2R b) \/ d <= (1 + slack) * (B2R tol / 100 * M)) /\
  (ok = false -> exists e, snd (compareRelative a b tol) = Some e /\ Rabs (B2R e - 100 * (d / M)) <= slack * (100 * (d / M))) /\
  (ok = true -> snd (compareRelative a b tol) = None).
Proof.
  intros a b tol Fa Fb Ba Bb Ft T1 T2 ok d M. unfold ok, compareRelative. clear ok.
  assert (S50 : slack = 8 * u). { change 8 with (bpow radix2 3). rewrite <- bpow_plus. reflexivity. }
  destruct u_small as [U0 U1].
  pose proof (negligible_spec a b Fa Fb) as NG. destruct (_ || _) eqn:C.
  { cbn [fst snd]. split; auto. split; auto. split; [intros _; left; apply NG; auto|]. split; [discriminate|auto]. }
  assert (NN : ~ negligible (B2R a) (B2R b)) by (intros H; apply NG in H; congruence).
  assert (Mp : 0 < M).
  { destruct (Rle_or_lt M 0) as [L|]; auto. exfalso. apply NN. left. pose proof (lit_pos 15 ltac:(lia)). change (fdec 1 15) with lit_1em15 in *.
    pose proof (Rmax_l (Rabs (B2R a)) (Rabs (B2R b))). pose proof (Rmax_r (Rabs (B2R a)) (Rabs (B2R b))). fold M in H0, H1. lra. }
  destruct (diff_spec a b Fa Fb Ba Bb Mp) as (Fd & Bd & Qg & Q2). fold d M in Bd, Qg, Q2.
  destruct (tol_spec tol Ft T1 T2) as (FT & BT).
  set (diff := fdiv (fabs (fsub a b)) (fmax (fabs a) (fabs b))) in *. set (T := fmul tol lit_1em2) in *.
  set (q := d / M) in *. set (t := B2R tol / 100) in *.
  assert (QM : d = q * M) by (unfold q; field; lra).
  assert (Q0 : 0 <= q) by (unfold q; apply Rmult_le_pos; [apply Rabs_pos|apply Rlt_le, Rinv_0_lt_compat; auto]).
  assert (T0 : 0 <= t). { unfold t. assert (0 <= B2R tol) by (destruct T1 as [->|L]; [lra|pose proof (bpow_gt_0 radix2 (-1000)); lra]). lra. }
  assert (FL := flt_R T diff FT Fd). rewrite S50, QM. replace ((1 - 8 * u) * (t * M)) with ((1 - 8 * u) * t * M) by ring.
  replace ((1 + 8 * u) * (t * M)) with ((1 + 8 * u) * t * M) by ring.
  split; [intros H; contradiction|]. destruct (fltb T diff) eqn:L; cbn [fst snd].
  - split; [|split; [discriminate|split; [|discriminate]]].
    + intros H. exfalso. apply Rmult_le_reg_r in H; auto. pose proof (proj1 FL eq_refl) as LT.
      assert ((1 - u) * (1 - u) * t < (1 + u) * (1 + u) * q) by lra.
      assert ((1 + u) * (1 + u) * q <= (1 + u) * (1 + u) * (1 - 8 * u) * t) by nra.
      assert ((1 + u) * (1 + u) * (1 - 8 * u) <= (1 - u) * (1 - u)) by nra. nra.
    + intros _. eexists. split; [reflexivity|]. destruct (fofZ_correct 100 ltac:(cbn; lia)) as [E100 F100].
      assert (D4 : B2R diff <= 4) by nra. assert (D0 : 0 <= B2R diff) by nra.
      destruct (fmul_rnd diff (fofZ 100) 10 Fd F100 ltac:(lia)) as [E _]. { rewrite E100, Rabs_pos_eq by nra. cbn. nra. }
      rewrite E, E100. assert (G : B2R diff * 100 = 0 \/ bpow radix2 (-1022) <= B2R diff * 100).
      { destruct Qg as [Z|G]; [left; rewrite Z in Bd; lra|right].
        apply Rle_trans with (bpow radix2 (-1 + -53)); [apply bpow_le; lia|]. rewrite bpow_plus. change (bpow radix2 (-1)) with (/ 2). nra. }
      pose proof (rel_bounds (B2R diff * 100) ltac:(nra) G) as RB.
      set (y := rnd (B2R diff * 100)) in *. clearbody y.
      assert (UP : y <= (1 + u) * (1 + u) * (1 + u) * (100 * q)) by nra.
      assert (LO : (1 - u) * (1 - u) * (1 - u) * (100 * q) <= y) by nra.
      assert ((1 + u) * (1 + u) * (1 + u) <= 1 + 8 * u) by nra. assert (1 - 8 * u <= (1 - u) * (1 - u) * (1 - u)) by nra.
      apply Rabs_le. split; nra.
  - split; auto. split; [intros _; right|split; [discriminate|auto]].
    apply Rmult_le_compat_r; [lra|]. assert (LE : B2R diff <= B2R T).
    { destruct (Rle_or_lt (B2R diff) (B2R T)) as [|G]; auto. apply FL in G. congruence. }
    assert ((1 - u) * (1 - u) * q <= (1 + u) * (1 + u) * t) by lra.
    assert ((1 + u) * (1 + u) <= (1 - u) * (1 - u) * (1 + 8 * u)) by nra. nra.
Qed.
Print Assumptions compareRelative_finite_partial.
Print Assumptions compareRelative_symmetric.
(** 1 and 1.001 differ by 0.0999 percent. *)
Example compareRelative_case : fst (compareRelative (fofZ 1) (fdec 1001 3) (fdec 1 1)) = true /\ fst (compareRelative (fofZ 1) (fdec 1001 3) (fdec 9 2)) = false /\
  fst (compareRelative (fofZ 1) fnan fzero) = true.
Proof. vm_compute. auto. Qed.

(** ** C112: matrix comparisons *)
Lemma each_passed n f : each n f = Passed <-> forall i, (i < n)%nat -> f i = Passed.
Proof.
  induction n as [|n IH]; cbn [each]; [split; auto; intros; lia|]. destruct (each n f) eqn:E.
  - split.
    + intros H i Hi. destruct (Nat.eq_dec i n) as [->|]; auto. apply IH; auto. lia.
    + intros H. apply H. lia.
  - split; [discriminate|]. intros H. assert (X : Failed = Passed) by (apply IH; intros; apply H; lia). discriminate.
  - split; [discriminate|]. intros H. assert (X : UB = Passed) by (apply IH; intros; apply H; lia). discriminate.
Qed.
Lemma each_noUB n f : (forall i, (i < n)%nat -> f i <> UB) -> each n f <> UB.
Proof.
  induction n as [|n IH]; cbn [each]; intros H; [discriminate|]. assert (E : each n f <> UB) by (apply IH; intros; apply H; lia).
  destruct (each n f); auto.
Qed.
Lemma each_coeff_passed R C chk : each_coeff R C chk = Passed <-> forall r c, (r < R)%nat -> (c < C)%nat -> chk r c = Passed.
Proof.
  unfold each_coeff. rewrite each_passed. split.
  - intros H r c Hr Hc. specialize (H r Hr). rewrite each_passed in H. auto.
  - intros H r Hr. apply each_passed. auto.
Qed.
Lemma each_coeff_noUB R C chk : (forall r c, (r < R)%nat -> (c < C)%nat -> chk r c <> UB) -> each_coeff R C chk <> UB.
Proof. intros H. apply each_noUB. intros r Hr. apply each_noUB. auto. Qed.
Lemma same_size_spec A B : same_size A B = true <-> mrows A = mrows B /\ mcols A = mcols B.
Proof. unfold same_size. rewrite andb_true_iff, !Nat.eqb_eq. tauto. Qed.
Lemma coeff_in A r c : (r < mrows A)%nat -> (c < mcols A)%nat -> coeff A r c = Some (mcoef A r c).
Proof. intros H1 H2. unfold coeff. now rewrite (proj2 (Nat.ltb_lt _ _) H1), (proj2 (Nat.ltb_lt _ _) H2). Qed.
Lemma assert_core A B test : let o := if same_size A B then each_coeff (mrows A) (mcols A) (on2 A B test) else Failed in
  o <> UB /\ (o = Passed <-> mrows A = mrows B /\ mcols A = mcols B /\
     forall r c, (r < mrows A)%nat -> (c < mcols A)%nat -> test (mcoef A r c) (mcoef B r c) = true).
Proof.
  intros o. unfold o. clear o. destruct (same_size A B) eqn:S.
  - apply same_size_spec in S as [S1 S2].
    assert (O : forall r c, (r < mrows A)%nat -> (c < mcols A)%nat -> on2 A B test r c = if test (mcoef A r c) (mcoef B r c) then Passed else Failed).
    { intros r c Hr Hc. unfold on2. rewrite !coeff_in by congruence. auto. }
    split.
    + apply each_coeff_noUB. intros r c Hr Hc. rewrite O by auto. destruct (test _ _); discriminate.
    + rewrite each_coeff_passed. split.
      * intros H. split; auto. split; auto. intros r c Hr Hc. specialize (H r c Hr Hc). rewrite O in H by auto. destruct (test _ _); auto. discriminate.
      * intros (_ & _ & H) r c Hr Hc. rewrite O, H by auto. auto.
  - split; [discriminate|]. split; [discriminate|]. intros (E1 & E2 & _). assert (T : same_size A B = true) by (apply same_size_spec; auto). congruence.
Qed.
(** Each assertion is defined for all arguments, and passes exactly if the sizes agree and every pair of coefficients
    passes: equal numbers (no NaN); numbers at most tol apart (no NaN, infinities only equal to themselves). *)
Theorem assertEqual_exact : forall A B, assertEqual A B <> UB /\
  (assertEqual A B = Passed <-> mrows A = mrows B /\ mcols A = mcols B /\
     forall r c, (r < mrows A)%nat -> (c < mcols A)%nat ->
       is_nan (mcoef A r c) = false /\ is_nan (mcoef B r c) = false /\ ext (mcoef A r c) = ext (mcoef B r c)).
Proof.
  intros A B. destruct (assert_core A B eq_test) as [N H]. split; auto. unfold assertEqual. rewrite H. clear N H.
  assert (E : forall x y, eq_test x y = true <-> is_nan x = false /\ is_nan y = false /\ ext x = ext y).
  { intros x y. unfold eq_test. destruct (is_nan x) eqn:Nx; [rewrite (proj2 (proj2 (fcmp_nan x y (or_introl Nx)))); split; [discriminate|intros [? _]; discriminate]|].
    destruct (is_nan y) eqn:Ny; [rewrite (proj2 (proj2 (fcmp_nan x y (or_intror Ny)))); split; [discriminate|intros (_ & ? & _); discriminate]|].
    rewrite feqb_ext by auto. tauto. }
  split; intros (S1 & S2 & H); (split; [auto|split; [auto|intros r c Hr Hc; apply E; auto]]).
Qed.
(** two numbers [tol] apart, as the computer decides it *)
Definition near (tol x y : f64) : Prop :=
  is_nan x = false /\ is_nan y = false /\
  (ext x = ext y \/
   is_finite x = true /\ is_finite y = true /\ is_nan tol = false /\ clamp (Rabs (B2R x - B2R y)) <= ext tol \/
   (is_finite x = false \/ is_finite y = false) /\ ext x <> ext y /\ tol = finf false).
Lemma fsub_inf x y : is_nan x = false -> is_nan y = false -> is_finite x = false \/ is_finite y = false -> ext x <> ext y -> fabs (fsub x y) = finf false.
Proof.
  intros Nx Ny H E. destruct x as [s|s| |s m e p]; destruct y as [t|t| |t m' e' p']; try discriminate; cbn in H; try (destruct H; discriminate);
    try (destruct s, t; try reflexivity; exfalso; apply E; reflexivity).
Qed.
Lemma near_test_spec tol x y : near_test tol x y = true <-> near tol x y.
Proof.
  unfold near_test, near. destruct (is_nan x) eqn:Nx.
  { assert (E : fabs (fsub x y) = fnan) by (destruct x; try discriminate; destruct y; reflexivity).
    rewrite E, (proj2 (proj2 (fcmp_nan x y (or_introl Nx)))), (proj1 (fcmp_nan fnan tol (or_introl eq_refl))). split; [discriminate|intros [? _]; discriminate]. }
  destruct (is_nan y) eqn:Ny.
  { assert (E : fabs (fsub x y) = fnan) by (destruct y; try discriminate; destruct x; reflexivity).
    rewrite E, (proj2 (proj2 (fcmp_nan x y (or_intror Ny)))), (proj1 (fcmp_nan fnan tol (or_introl eq_refl))). split; [discriminate|intros (_ & ? & _); discriminate]. }
  rewrite orb_true_iff, feqb_ext by auto. destruct (Req_dec (ext x) (ext y)) as [E|NE]; [tauto|].
  destruct (is_finite x && is_finite y) eqn:F.
  - apply andb_true_iff in F as [Fx Fy]. destruct (fsub_ext x y Fx Fy) as [NS ES].
    assert (CA : ext (fabs (fsub x y)) = clamp (Rabs (B2R x - B2R y))).
    { rewrite ext_fabs, ES by auto. unfold Rabs at 2. destruct (Rcase_abs (B2R x - B2R y)).
      - rewrite clamp_neg. apply Rabs_left1. replace (B2R x - B2R y) with (- (- (B2R x - B2R y))) by ring. rewrite clamp_neg.
        pose proof (clamp_nonneg (- (B2R x - B2R y)) ltac:(lra)). lra.
      - apply Rabs_pos_eq. apply clamp_nonneg. lra. }
    destruct (is_nan tol) eqn:NT.
    + rewrite (proj1 (fcmp_nan (fabs (fsub x y)) tol (or_intror NT))). split; [intros [?|?]; [contradiction|discriminate]|].
      intros (_ & _ & [?|[(_ & _ & ? & _)|(_ & _ & T)]]); try contradiction; try discriminate. subst tol. discriminate.
    + rewrite fleb_ext by (auto; rewrite is_nan_fabs; auto). rewrite CA. split.
      * intros [?|L]; [contradiction|]. split; auto. split; auto. right. left. auto.
      * intros (_ & _ & [?|[(_ & _ & _ & L)|([?|?] & _)]]); auto; congruence.
  - assert (FF : is_finite x = false \/ is_finite y = false) by (destruct (is_finite x), (is_finite y); auto; discriminate).
    rewrite (fsub_inf x y Nx Ny FF NE). split.
    + intros [?|L]; [contradiction|]. repeat split; auto. right. right. split; auto. split; auto.
      destruct tol as [s|s| |s m e p]; try destruct s; try discriminate. reflexivity.
    + intros (_ & _ & [?|[(? & ? & _)|(_ & _ & T)]]); [contradiction|destruct FF; congruence|right; subst; reflexivity].
Qed.
Theorem assertNear_exact : forall A B tol, assertNear A B tol <> UB /\
  (assertNear A B tol = Passed <-> mrows A = mrows B /\ mcols A = mcols B /\
     forall r c, (r < mrows A)%nat -> (c < mcols A)%nat -> near tol (mcoef A r c) (mcoef B r c)).
Proof.
  intros A B tol. destruct (assert_core A B (near_test tol)) as [N H]. split; auto. unfold assertNear. rewrite H. clear N H.
  split; intros (S1 & S2 & H); (split; [auto|split; [auto|intros r c Hr Hc; apply near_test_spec; auto]]).
Qed.
Theorem assertFinite_exact : forall A, assertFinite A <> UB /\
  (assertFinite A = Passed <-> forall r c, (r < mrows A)%nat -> (c < mcols A)%nat -> is_finite (mcoef A r c) = true).
Proof.
  intros A. unfold assertFinite. split.
  - apply each_coeff_noUB. intros r c Hr Hc. rewrite coeff_in by auto. destruct (is_finite _); discriminate.
  - rewrite each_coeff_passed. split; intros H r c Hr Hc; specialize (H r c Hr Hc); rewrite coeff_in in * by auto; [destruct (is_finite _); auto; discriminate|now rewrite H].
Qed.
(** expectNear does the same on matrices of equal size ... *)
Lemma also_passed a b : also a b = Passed <-> a = Passed /\ b = Passed.
Proof. destruct a, b; cbn; split; intros; try discriminate; auto; destruct H; discriminate. Qed.
Lemma also_noUB a b : also a b <> UB <-> a <> UB /\ b <> UB.
Proof. destruct a, b; cbn; split; intros H; try (split; discriminate); try discriminate; try (now destruct H as [? ?]); congruence. Qed.
Lemma every_passed n f : every n f = Passed <-> forall i, (i < n)%nat -> f i = Passed.
Proof.
  induction n as [|n IH]; cbn [every]; [split; auto; intros; lia|]. rewrite also_passed, IH. split.
  - intros [H1 H2] i Hi. destruct (Nat.eq_dec i n) as [->|]; auto. apply H1. lia.
  - intros H. split; [intros i Hi|]; apply H; lia.
Qed.
Lemma every_noUB n f : every n f <> UB <-> forall i, (i < n)%nat -> f i <> UB.
Proof.
  induction n as [|n IH]; cbn [every]; [split; [intros; lia|discriminate]|]. rewrite also_noUB, IH. split.
  - intros [H1 H2] i Hi. destruct (Nat.eq_dec i n) as [->|]; auto. apply H1. lia.
  - intros H. split; [intros i Hi|]; apply H; lia.
Qed.
Theorem expectNear_partial : forall A B tol, mrows A = mrows B -> mcols A = mcols B -> expectNear A B tol <> UB /\
  (expectNear A B tol = Passed <-> forall r c, (r < mrows A)%nat -> (c < mcols A)%nat -> near tol (mcoef A r c) (mcoef B r c)).
Proof.
  intros A B tol S1 S2. unfold expectNear. rewrite (proj2 (same_size_spec A B)) by auto.
  assert (O : forall r c, (r < mrows A)%nat -> (c < mcols A)%nat -> on2 A B (near_test tol) r c = if near_test tol (mcoef A r c) (mcoef B r c) then Passed else Failed).
  { intros r c Hr Hc. unfold on2. rewrite !coeff_in by congruence. auto. }
  split.
  - apply also_noUB. split; [discriminate|]. apply every_noUB. intros r Hr. apply every_noUB. intros c Hc. rewrite O by auto. destruct (near_test _ _ _); discriminate.
  - rewrite also_passed. unfold every_coeff. rewrite every_passed. split.
    + intros [_ H] r c Hr Hc. specialize (H r Hr). rewrite every_passed in H. specialize (H c Hc). rewrite O in H by auto.
      apply near_test_spec. destruct (near_test _ _ _); auto. discriminate.
    + intros H. split; auto. intros r Hr. apply every_passed. intros c Hc. rewrite O by auto. rewrite (proj2 (near_test_spec _ _ _)); auto.
Qed.
(** ... but goes on after the sizes were found to differ: it reads outside of B whenever B has fewer rows or columns than a
    non-empty A, instead of reporting the failure. *)
Theorem expectNear_refuted : forall A B tol, (0 < mrows A)%nat -> (0 < mcols A)%nat -> (mrows B < mrows A \/ mcols B < mcols A)%nat ->
  expectNear A B tol = UB.
Proof.
  intros A B tol RA CA H.
  assert (X : ~ (expectNear A B tol <> UB)).
  { unfold expectNear. rewrite also_noUB. intros [_ E]. unfold every_coeff in E. rewrite every_noUB in E.
    assert (G : exists r c, (r < mrows A)%nat /\ (c < mcols A)%nat /\ coeff B r c = None).
    { destruct H as [H|H].
      - exists (mrows B), 0%nat. repeat split; auto. unfold coeff. now rewrite Nat.ltb_irrefl.
      - exists 0%nat, (mcols B). repeat split; auto. unfold coeff. now rewrite Nat.ltb_irrefl, andb_false_r. }
    destruct G as (r & c & Hr & Hc & N). specialize (E r Hr). rewrite every_noUB in E. apply (E c Hc). unfold on2. rewrite N. destruct (coeff A r c); auto. }
  destruct (expectNear A B tol); auto; exfalso; apply X; discriminate.
Qed.
(** ASSERT_DOUBLE_MX_EQ is exactly compareRelative on every pair, so a matrix of NaNs passes against any matrix. *)
Theorem mx_eq_exact : forall A B tol, assert_double_mx_eq A B tol <> UB /\
  (assert_double_mx_eq A B tol = Passed <-> mrows A = mrows B /\ mcols A = mcols B /\
     forall r c, (r < mrows A)%nat -> (c < mcols A)%nat -> fst (compareRelative (mcoef A r c) (mcoef B r c) tol) = true).
Proof. intros A B tol. apply (assert_core A B (fun x y => fst (compareRelative x y tol))). Qed.
Theorem mx_eq_nan_refuted : forall A B tol, mrows A = mrows B -> mcols A = mcols B -> (forall r c, is_finite (mcoef A r c) = false) ->
  assert_double_mx_eq A B tol = Passed.
Proof. intros A B tol E1 E2 H. apply mx_eq_exact. repeat split; auto. intros. apply compareRelative_nonfinite_refuted. auto. Qed.
Example assertNear_case : let I2 := Mat 2 2 (fun r c => fofZ (if Nat.eqb r c then 1 else 0)) in
  assertNear I2 (Mat 2 2 (fun r c => fofZ (if Nat.eqb r c then 1 else 0))) (fdec 1 3) = Passed /\
  assertNear I2 (Mat 2 2 (fun r c => fofZ 1)) (fdec 1 3) = Failed /\ expectNear I2 (Mat 1 2 (fun r c => fofZ 1)) (fdec 1 3) = UB.
Proof. vm_compute. auto. Qed.

(** ** C113: random covariances *)
(** The matrix is exactly symmetric, rounding included ... *)
Lemma asum_ext A n f g : (forall i, (i < n)%nat -> f i = g i) -> asum A n f = asum A n g.
Proof. induction n; intros H; cbn [asum]; auto. rewrite IHn, H by (auto; intros; apply H; lia). auto. Qed.
Lemma fmul_sym x y : fmul x y = fmul y x.
Proof.
  unfold fmul. destruct x as [s|s| |s m e p]; destruct y as [t|t| |t m' e' p']; try reflexivity; try (cbn; now rewrite (xorb_comm s t)).
  apply B2SF_inj. cbn [Bmult]. rewrite !B2SF_SF2B. rewrite (xorb_comm t s), (Pos.mul_comm m' m), (Z.add_comm e' e). reflexivity.
Qed.
Theorem randomCovariance_symmetric : forall n U i j, randomCovariance FArith n U i j = randomCovariance FArith n U j i.
Proof.
  intros n U i j. unfold randomCovariance. rewrite (Nat.eqb_sym i j). f_equal. apply asum_ext. intros. apply fmul_sym.
Qed.
(** ... and (in exact arithmetic) positive definite, with all eigenvalues at least 5: x' M x >= 5 |x|^2. *)
Lemma asum_R n f : asum RArith n f = sumn n f.
Proof. induction n; cbn [asum sumn]; [reflexivity|]. rewrite IHn. reflexivity. Qed.
Lemma randomCovariance_R n (U : matn) i j : randomCovariance RArith n U i j = maddn (mmn n (trn U) U) (mscalen 5 In_) i j.
Proof.
  unfold randomCovariance. rewrite asum_R. unfold maddn, mmn, trn, mscalen, In_. cbn [a_add a_mul a_ofZ RArith]. f_equal. f_equal.
  destruct (Nat.eqb_spec i j), (Nat.eq_dec i j); congruence || reflexivity.
Qed.
Lemma mvn_meq n A B x i : (forall j, (j < n)%nat -> A i j = B i j) -> mvn n A x i = mvn n B x i.
Proof. intros H. apply sum_ext. intros j J. rewrite H by auto. reflexivity. Qed.
Theorem randomCovariance_definite : forall n (U : matn) x, 5 * dotn n x x <= dotn n x (mvn n (randomCovariance RArith n U) x).
Proof.
  intros n U x.
  assert (E : dotn n x (mvn n (randomCovariance RArith n U) x) = dotn n (mvn n U x) (mvn n U x) + 5 * dotn n x x).
  { rewrite dotn_tr. rewrite <- dotn_scale_r. rewrite <- dotn_add_r. apply dotn_ext; [intros i Hi; auto|]. intros i Hi.
    rewrite (mvn_meq n _ (maddn (mmn n (trn U) U) (mscalen 5 In_))) by (intros; apply randomCovariance_R).
    rewrite mvn_maddn, mvn_mm, mvn_mscalen. unfold addn, scalen. f_equal. f_equal. unfold mvn. apply sum_delta_l. auto. }
  rewrite E. pose proof (dotn_pos n (mvn n U x)). lra.
Qed.
Corollary randomCovariance_is_covariance : forall n (U : matn), covn n (randomCovariance RArith n U).
Proof.
  intros n U. split.
  - intros i j Hi Hj. unfold trn. rewrite !randomCovariance_R. unfold maddn, mscalen, trn, mmn. f_equal.
    + apply sum_ext. intros. ring.
    + f_equal. unfold In_. destruct (Nat.eq_dec i j), (Nat.eq_dec j i); congruence.
  - intros x. pose proof (randomCovariance_definite n U x). pose proof (dotn_pos n x). lra.
Qed.
(** In doubles, for the numbers setRandom draws (between -1 and 1) and up to 100000 rows: no overflow, every coefficient within (n + 3)^2 2^-53 of the
    exact one, and every eigenvalue above 5 - n (n + 3)^2 2^-53 (above 3.8). *)
Lemma rnd_abs_int x m : (0 <= m <= 2 ^ 53)%Z -> Rabs x <= IZR m -> Rabs (rnd x) <= IZR m.
Proof. intros M H. apply abs_round_le_generic; try typeclasses eauto; auto. apply format_IZR. rewrite Z.abs_eq; lia. Qed.
Lemma rnd_err_int x m : (1 <= m)%Z -> Rabs x <= IZR m -> Rabs (rnd x - x) <= bpow radix2 (-53) * IZR m.
Proof.
  intros M H. destruct (Rle_or_lt (bpow radix2 (-1022)) (Rabs x)) as [B|B].
  - apply Rle_trans with (1 := rnd_rel x B). apply Rmult_le_compat_l; auto. apply bpow_ge_0.
  - assert (M1 : 1 <= IZR m) by (apply IZR_le; lia).
    apply Rle_trans with (bpow radix2 (-53)).
    2:{ rewrite <- (Rmult_1_r (bpow radix2 (-53))) at 1. apply Rmult_le_compat_l; auto. apply bpow_ge_0. }
    pose proof (rnd_abs_le x (-1021) ltac:(lia) ltac:(apply Rle_trans with (1 := Rlt_le _ _ B); apply bpow_le; lia)) as R.
    apply Rle_trans with (Rabs (rnd x) + Rabs x).
    { replace (rnd x - x) with (rnd x + - x) by ring. apply Rle_trans with (1 := Rabs_triang _ _). rewrite (Rabs_Ropp x). lra. }
    apply Rle_trans with (bpow radix2 (-1021) + bpow radix2 (-1021)).
    { apply Rplus_le_compat; auto. apply Rle_trans with (1 := Rlt_le _ _ B). apply bpow_le; lia. }
    replace (bpow radix2 (-1021) + bpow radix2 (-1021)) with (bpow radix2 (-1020)).
    { apply bpow_le. lia. }
    replace (-1020)%Z with (-1021 + 1)%Z by lia. rewrite bpow_plus. change (bpow radix2 1) with 2. ring.
Qed.
Lemma fadd_int x y m : is_finite x = true -> is_finite y = true -> (1 <= m <= 2 ^ 53)%Z -> Rabs (B2R x + B2R y) <= IZR m ->
  is_finite (fadd x y) = true /\ Rabs (B2R (fadd x y)) <= IZR m /\ Rabs (B2R (fadd x y) - (B2R x + B2R y)) <= bpow radix2 (-53) * IZR m.
Proof.
  intros Fx Fy M H. destruct (fadd_ext x y Fx Fy) as [N E].
  assert (R : Rabs (rnd (B2R x + B2R y)) <= IZR m) by (apply rnd_abs_int; auto; lia).
  assert (L : Rabs (rnd (B2R x + B2R y)) < OMEGA).
  { apply Rle_lt_trans with (1 := R). apply Rle_lt_trans with (bpow radix2 53); [|apply bpow_lt; lia].
    rewrite <- (IZR_Zpower radix2) by lia. apply IZR_le. cbn [radix_val radix2]. lia. }
  rewrite clamp_small in E by exact L.
  assert (F : is_finite (fadd x y) = true) by (apply finite_of_ext; auto; rewrite E; exact L).
  rewrite ext_finite in E by auto. rewrite E. split; auto. split; auto. apply rnd_err_int; auto. lia.
Qed.
Lemma fmul_int x y m : is_finite x = true -> is_finite y = true -> (1 <= m <= 2 ^ 53)%Z -> Rabs (B2R x * B2R y) <= IZR m ->
  is_finite (fmul x y) = true /\ Rabs (B2R (fmul x y)) <= IZR m /\ Rabs (B2R (fmul x y) - B2R x * B2R y) <= bpow radix2 (-53) * IZR m.
Proof.
  intros Fx Fy M H. assert (R : Rabs (rnd (B2R x * B2R y)) <= IZR m) by (apply rnd_abs_int; auto; lia).
  destruct (fmul_rnd x y 53 Fx Fy ltac:(lia)) as [E F].
  { apply Rle_trans with (1 := H). rewrite <- (IZR_Zpower radix2) by lia. apply IZR_le. cbn [radix_val radix2]. lia. }
  rewrite E. split; auto. split; auto. apply rnd_err_int; auto. lia.
Qed.
Definition drawn (n : nat) (U : nat -> nat -> f64) : Prop := forall i j, (i < n)%nat -> (j < n)%nat -> is_finite (U i j) = true /\ Rabs (B2R (U i j)) <= 1.
Lemma Rabs_prod_1 a b : Rabs a <= 1 -> Rabs b <= 1 -> Rabs (a * b) <= 1.
Proof. intros A B. rewrite Rabs_mult. pose proof (Rabs_pos a). pose proof (Rabs_pos b). nra. Qed.
Lemma asum_F n U i j : drawn n U -> (i < n)%nat -> (j < n)%nat -> (Z.of_nat n <= 100000)%Z -> forall m, (m <= n)%nat ->
  let s := asum FArith m (fun k => fmul (U k i) (U k j)) in
  is_finite s = true /\ Rabs (B2R s) <= INR m /\
  Rabs (B2R s - sumn m (fun k => B2R (U k i) * B2R (U k j))) <= bpow radix2 (-53) * (INR m * INR n + INR m).
Proof.
  intros D I J N m. induction m as [|m IH]; intros Hm.
  - cbn [asum sumn INR a_ofZ FArith]. destruct (fofZ_correct 0 ltac:(lia)) as [E F]. rewrite E. split; auto.
    replace (0 - 0) with 0 by ring. rewrite Rabs_R0. split; [lra|]. lra.
  - cbn [asum sumn a_add FArith]. specialize (IH ltac:(lia)). cbv zeta in IH.
    set (s := asum FArith m (fun k => fmul (U k i) (U k j))) in *. destruct IH as (F & B & Er).
    destruct (D m i ltac:(lia) I) as [F1 B1]. destruct (D m j ltac:(lia) J) as [F2 B2].
    destruct (fmul_int (U m i) (U m j) 1 F1 F2 ltac:(lia) (Rabs_prod_1 _ _ B1 B2)) as (FP & BP & EP).
    set (p := fmul (U m i) (U m j)) in *. fold p.
    assert (HM : IZR (Z.of_nat (S m)) = INR (S m)) by (symmetry; apply INR_IZR_INZ).
    destruct (fadd_int s p (Z.of_nat (S m)) F FP) as (FA & BA & EA).
    { change (2 ^ 53)%Z with 9007199254740992%Z. lia. }
    { rewrite HM, S_INR. apply Rle_trans with (1 := Rabs_triang _ _). lra. }
    rewrite HM in BA, EA. change (a_add FArith s p) with (fadd s p). split; auto. split; auto.
    assert (SN : INR (S m) <= INR n) by (apply le_INR; lia). pose proof (bpow_ge_0 radix2 (-53)) as P0.
    set (P := bpow radix2 (-53)) in *. set (S1 := sumn m _) in *.
    replace (B2R (fadd s p) - (S1 + B2R (U m i) * B2R (U m j)))
      with ((B2R (fadd s p) - (B2R s + B2R p)) + ((B2R s - S1) + (B2R p - B2R (U m i) * B2R (U m j)))) by ring.
    apply Rle_trans with (1 := Rabs_triang _ _). apply Rle_trans with (P * INR (S m) + (P * (INR m * INR n + INR m) + P * 1)).
    { apply Rplus_le_compat; auto. apply Rle_trans with (1 := Rabs_triang _ _). apply Rplus_le_compat; auto. }
    rewrite S_INR in *. pose proof (pos_INR n). nra.
Qed.
Theorem randomCovariance_rounding : forall n U i j, drawn n U -> (Z.of_nat n <= 100000)%Z -> (i < n)%nat -> (j < n)%nat ->
  is_finite (randomCovariance FArith n U i j) = true /\
  Rabs (B2R (randomCovariance FArith n U i j) - randomCovariance RArith n (fun k l => B2R (U k l)) i j) <= (INR n + 3) ^ 2 * bpow radix2 (-53).
Proof.
  intros n U i j D N I J. destruct (asum_F n U i j D I J N n (le_n n)) as (F & B & Er).
  unfold randomCovariance. rewrite asum_R. cbn [a_add a_mul a_ofZ FArith RArith].
  change (@a_mul FArith) with fmul. set (s := asum FArith n (fun k => fmul (U k i) (U k j))) in *. cbv zeta in F, B, Er.
  set (S1 := sumn n (fun k => B2R (U k i) * B2R (U k j))) in *.
  change (sumn n (fun k => a_mul RArith (B2R (U k i)) (B2R (U k j)))) with S1.
  set (d := if (i =? j)%nat then 1%Z else 0%Z). assert (Hd : (0 <= d <= 1)%Z) by (unfold d; destruct (i =? j)%nat; lia).
  destruct (fofZ_correct 5 ltac:(lia)) as [E5 F5]. destruct (fofZ_correct d ltac:(lia)) as [Ed Fd].
  assert (M5 : B2R (fmul (fofZ 5) (fofZ d)) = 5 * IZR d /\ is_finite (fmul (fofZ 5) (fofZ d)) = true).
  { destruct (fmul_rnd (fofZ 5) (fofZ d) 3 F5 Fd ltac:(lia)) as [E F']; rewrite E5, Ed in *.
    - assert (0 <= IZR d <= 1) by (split; apply IZR_le; lia). rewrite Rabs_pos_eq by lra. change (bpow radix2 3) with 8. lra.
    - split; auto. rewrite E. apply rnd_id. rewrite <- mult_IZR. apply format_IZR. change (2 ^ 53)%Z with 9007199254740992%Z. lia. }
  destruct M5 as [E6 F6]. set (t := fmul (fofZ 5) (fofZ d)) in *.
  assert (HM : IZR (Z.of_nat n + 5) = INR n + 5) by (rewrite plus_IZR, <- INR_IZR_INZ; reflexivity).
  assert (D1 : 0 <= IZR d <= 1) by (split; apply IZR_le; lia).
  destruct (fadd_int s t (Z.of_nat n + 5) F F6) as (FA & BA & EA).
  { change (2 ^ 53)%Z with 9007199254740992%Z. lia. }
  { rewrite HM, E6. apply Rle_trans with (1 := Rabs_triang _ _). rewrite (Rabs_pos_eq (5 * IZR d)) by lra. lra. }
  split; auto. rewrite HM in EA. pose proof (bpow_ge_0 radix2 (-53)) as P0. set (P := bpow radix2 (-53)) in *. pose proof (pos_INR n).
  replace (B2R (fadd s t) - (S1 + 5 * IZR d)) with ((B2R (fadd s t) - (B2R s + B2R t)) + (B2R s - S1)) by (rewrite E6; ring).
  apply Rle_trans with (1 := Rabs_triang _ _). apply Rle_trans with (P * (INR n + 5) + P * (INR n * INR n + INR n)); [apply Rplus_le_compat; auto|nra].
Qed.
Lemma sum_le n f g : (forall i, (i < n)%nat -> f i <= g i) -> sumn n f <= sumn n g.
Proof. induction n; intros H; cbn [sumn]; [lra|]. apply Rplus_le_compat; auto. Qed.
Lemma sum_const n c : sumn n (fun _ => c) = INR n * c.
Proof. induction n; cbn [sumn]; [cbn; ring|]. rewrite IHn, S_INR. ring. Qed.
Lemma perturbed n A B e x : (forall i j, (i < n)%nat -> (j < n)%nat -> Rabs (B i j - A i j) <= e) ->
  dotn n x (mvn n A x) - e * (INR n * dotn n x x) <= dotn n x (mvn n B x).
Proof.
  intros H. unfold dotn, mvn.
  enough (sumn n (fun i => sumn n (fun j => - e * ((x i * x i + x j * x j) / 2))) <= sumn n (fun i => sumn n (fun j => x i * ((B i j - A i j) * x j)))).
  { assert (E1 : sumn n (fun i => sumn n (fun j => - e * ((x i * x i + x j * x j) / 2))) = - e * (INR n * sumn n (fun i => x i * x i))).
    { rewrite (sum_ext n _ (fun i => (- e / 2 * INR n) * (x i * x i) + - e / 2 * sumn n (fun j => x j * x j))).
      - rewrite sum_plus, sum_scal, sum_const. field.
      - intros i _. rewrite (sum_ext n _ (fun j => - e / 2 * (x i * x i) + - e / 2 * (x j * x j))) by (intros; field).
        rewrite sum_plus, sum_const, sum_scal. field. }
    assert (E2 : sumn n (fun i => sumn n (fun j => x i * ((B i j - A i j) * x j))) =
       sumn n (fun i => x i * sumn n (fun j => B i j * x j)) - sumn n (fun i => x i * sumn n (fun j => A i j * x j))).
    { rewrite <- sum_minus. apply sum_ext. intros i _. rewrite <- Rmult_minus_distr_l, <- sum_minus, <- sum_scal. apply sum_ext. intros. ring. }
    rewrite E1, E2 in H0. lra. }
  apply sum_le. intros i I. apply sum_le. intros j J. specialize (H i j I J). apply Rabs_le_inv in H.
  assert (Q : Rabs (x i * x j) <= (x i * x i + x j * x j) / 2).
  { apply Rabs_le. pose proof (Rle_0_sqr (x i - x j)). pose proof (Rle_0_sqr (x i + x j)). unfold Rsqr in *. lra. }
  apply Rabs_le_inv in Q. set (q := x i * x j) in *. set (r := (x i * x i + x j * x j) / 2) in *.
  replace (x i * ((B i j - A i j) * x j)) with ((B i j - A i j) * q) by (unfold q; ring). set (b := B i j - A i j) in *. nra.
Qed.
Theorem randomCovariance_definite_rounding : forall n U x, drawn n U -> (Z.of_nat n <= 100000)%Z ->
  (5 - INR n * (INR n + 3) ^ 2 * bpow radix2 (-53)) * dotn n x x <= dotn n x (mvn n (fun i j => B2R (randomCovariance FArith n U i j)) x) /\
  38 / 10 < 5 - INR n * (INR n + 3) ^ 2 * bpow radix2 (-53).
Proof.
  intros n U x D N. split.
  - pose proof (perturbed n (randomCovariance RArith n (fun k l => B2R (U k l))) (fun i j => B2R (randomCovariance FArith n U i j)) ((INR n + 3) ^ 2 * bpow radix2 (-53)) x) as P.
    specialize (P ltac:(intros i j I J; apply randomCovariance_rounding; auto)).
    pose proof (randomCovariance_definite n (fun k l => B2R (U k l)) x). cbv beta in *. nra.
  - assert (K : 0 <= INR n <= 100000). { split; [apply pos_INR|]. rewrite INR_IZR_INZ. apply IZR_le. exact N. }
    replace (bpow radix2 (-53)) with (/ 9007199254740992) by reflexivity. set (r := INR n) in *.
    assert (r * (r + 3) ^ 2 <= 100000 * (100003) ^ 2).
    { apply Rmult_le_compat; try nra. }
    lra.
Qed.
Example drawn_case : drawn 3 (fun i j => fofZ (if Nat.eqb i j then -1 else 1)).
Proof. intros i j _ _. destruct (Nat.eqb i j); (destruct (fofZ_correct 1 ltac:(lia)) as [A B]; destruct (fofZ_correct (-1) ltac:(lia)) as [C D]);
  (split; [assumption|]); rewrite ?A, ?C; unfold Rabs; destruct (Rcase_abs _); lra. Qed.
Print Assumptions assertNear_exact.
Print Assumptions expectNear_refuted.
Print Assumptions randomCovariance_symmetric.
Print Assumptions randomCovariance_definite.
Print Assumptions randomCovariance_definite_rounding.
