From Verif Require Import Float64 Round_Model.
From Coq Require Import Psatz.

Lemma format_scaled M e : (Z.abs M < 2 ^ 53)%Z -> (-1074 <= e)%Z -> format64 (IZR M * bpow radix2 e).
Proof.
  intros HM He. apply generic_format_FLT. apply (FLT_spec _ _ _ _ (Float radix2 M e)); cbn; auto.
Qed.

(** Decomposition of a format number below a power of two. *)
Lemma format_decomp x k : format64 x -> bpow radix2 (k - 1) <= x < bpow radix2 k -> (-1021 <= k)%Z ->
  exists M : Z, x = IZR M * bpow radix2 (k - 53) /\ (2 ^ 52 <= M < 2 ^ 53)%Z.
Proof.
  intros F [H1 H2] Hk.
  assert (P : 0 < x) by (apply Rlt_le_trans with (2 := H1); apply bpow_gt_0).
  assert (Mg : mag radix2 x = k :> Z).
  { apply mag_unique. rewrite Rabs_pos_eq by lra. split; auto. }
  unfold generic_format in F. rewrite F. unfold F2R; cbn [Fnum Fexp].
  assert (C : cexp radix2 fexp64 x = (k - 53)%Z).
  { unfold cexp. rewrite Mg. unfold SpecFloat.fexp, SpecFloat.emin. lia. }
  rewrite C. set (M := Ztrunc (scaled_mantissa radix2 fexp64 x)). exists M. split; auto.
  assert (E : x = IZR M * bpow radix2 (k - 53)).
  { rewrite F at 1. unfold F2R; cbn [Fnum Fexp]. rewrite C. reflexivity. }
  assert (B : 0 < bpow radix2 (k - 53)) by apply bpow_gt_0.
  split.
  - apply le_IZR. apply Rmult_le_reg_r with (1 := B). rewrite <- E.
    rewrite (IZR_Zpower radix2) by lia. rewrite <- bpow_plus. replace (52 + (k - 53))%Z with (k - 1)%Z by ring. auto.
  - apply lt_IZR. apply Rmult_lt_reg_r with (1 := B). rewrite <- E.
    rewrite (IZR_Zpower radix2) by lia. rewrite <- bpow_plus. replace (53 + (k - 53))%Z with k by ring. auto.
Qed.

Lemma bpow_m1 : bpow radix2 (-1) = 1/2. Proof. cbn. lra. Qed.

Lemma format_half_int n : (0 <= n < 2 ^ 52)%Z -> format64 (IZR n + 1/2).
Proof.
  intros H. replace (IZR n + 1/2) with (IZR (2 * n + 1) * bpow radix2 (-1)).
  - apply format_scaled; lia.
  - rewrite bpow_m1, plus_IZR, mult_IZR. lra.
Qed.

(** The one bad value below 2^52: 1/2 - 2^-54. *)
Definition bad_half : R := 1/2 - bpow radix2 (-54).

Lemma floor_half_small x : format64 x -> 0 <= x < bpow radix2 52 -> x <> bad_half ->
  Zfloor (rnd (x + 1/2)) = Zfloor (x + 1/2).
Proof.
  intros F [H0 H52] Hbad.
  set (n := Zfloor (x + 1/2)).
  assert (Hn : IZR n <= x + 1/2 < IZR n + 1).
  { unfold n. pose proof (Zfloor_lb (x + 1/2)). pose proof (Zfloor_ub (x+1/2)). lra. }
  assert (n0 : (0 <= n)%Z) by (apply Zfloor_lub; cbn; lra).
  assert (B52 : bpow radix2 52 = IZR (2^52)) by (rewrite (IZR_Zpower radix2) by lia; reflexivity).
  assert (n52 : (n <= 2 ^ 52)%Z).
  { apply Z.lt_succ_r. apply lt_IZR. rewrite succ_IZR, <- B52. lra. }
  apply Zfloor_imp. split.
  - rewrite <- (rnd_id (IZR n)) by (apply format_IZR; lia). apply rnd_le. lra.
  - rewrite plus_IZR.
    destruct (Z.eq_dec n 0) as [En|En].
    + (* x < 1/2 *)
      rewrite En in *. assert (Hx : x < 1/2) by lra.
      assert (Hx2 : x <= 1/2 - bpow radix2 (-53)).
      { destruct (Rle_lt_dec x (1/2 - bpow radix2 (-53))) as [|L]; auto. exfalso.
        assert (Q53 : bpow radix2 (-53) = 2 * bpow radix2 (-54)).
        { replace (-53)%Z with (1 + -54)%Z by ring. rewrite bpow_plus. cbn. lra. }
        assert (P54 : 0 < bpow radix2 (-54)) by apply bpow_gt_0.
        assert (H14 : bpow radix2 (-2) = 1/4) by (cbn; lra).
        destruct (format_decomp x (-1) F) as (M & EM & HM); [|lia|].
        { change (-1 - 1)%Z with (-2)%Z. rewrite H14, bpow_m1. split; [|lra].
          assert (bpow radix2 (-53) <= bpow radix2 (-2)) by (apply bpow_le; lia). lra. }
        change (-1 - 53)%Z with (-54)%Z in EM.
        assert (H12 : 1/2 = IZR (2^53) * bpow radix2 (-54)).
        { rewrite (IZR_Zpower radix2) by lia. rewrite <- bpow_plus. cbn. lra. }
        assert (M = 2^53 - 1)%Z.
        { apply Z.le_antisymm; [lia|]. apply Z.lt_pred_le. 
          apply lt_IZR. apply Rmult_lt_reg_r with (1 := P54). rewrite <- EM.
          replace (Z.pred (2 ^ 53 - 1)) with (2 ^ 53 - 2)%Z by lia. rewrite minus_IZR, Rmult_minus_distr_r, <- H12. lra. }
        apply Hbad. unfold bad_half. rewrite EM, H, minus_IZR, Rmult_minus_distr_r, <- H12. lra. }
      apply Rle_lt_trans with (rnd (1 - bpow radix2 (-53))); [apply rnd_le; lra|].
      rewrite rnd_id; [pose proof (bpow_gt_0 radix2 (-53)); lra|].
      replace (1 - bpow radix2 (-53)) with (IZR (2^53 - 1) * bpow radix2 (-53)).
      * apply format_scaled; lia.
      * rewrite minus_IZR, (IZR_Zpower radix2) by lia. rewrite Rmult_minus_distr_r, <- bpow_plus. cbn; lra.
    + destruct (Z.eq_dec n (2^52)) as [E52|N52].
      { (* x + 1/2 >= 2^52: at most 2^52 + 1/2, rounds to 2^52 *)
        assert (Hx : x <= bpow radix2 52 - 1/2).
        { destruct (format_decomp x 52 F) as (M & EM & HM); [|lia|].
          - split; [|auto]. rewrite E52, <- B52 in Hn.
            replace (bpow radix2 52) with (2 * bpow radix2 51) in Hn by (cbn; lra).
            assert (1 <= bpow radix2 51) by (change 1 with (bpow radix2 0); apply bpow_le; lia).
            change (52 - 1)%Z with 51%Z. lra.
          - change (52 - 53)%Z with (-1)%Z in EM. rewrite bpow_m1 in EM. rewrite EM.
            rewrite B52. assert (IZR M <= IZR (2^53 - 1)) by (apply IZR_le; lia).
            rewrite minus_IZR in H. change (2^53)%Z with (2 * 2^52)%Z in H. rewrite mult_IZR in H. lra. }
        apply Rle_lt_trans with (rnd (IZR (2^52))); [apply rnd_le; lra|].
        rewrite rnd_id by (apply format_IZR; lia). rewrite E52. lra. }
      destruct (Rle_lt_dec x (IZR n)) as [Lx|Gx].
      * apply Rle_lt_trans with (rnd (IZR n + 1/2)); [apply rnd_le; lra|].
        rewrite rnd_id by (apply format_half_int; lia). lra.
      * (* n < x < n + 1/2 *)
        assert (n1 : 1 <= IZR n) by (apply IZR_le; lia).
        assert (Hk0 : exists k, bpow radix2 (k - 1) <= x < bpow radix2 k).
        { destruct (mag radix2 x) as [kk Hkk]. rewrite Rabs_pos_eq in Hkk by lra. exists kk. apply Hkk. lra. }
        destruct Hk0 as [k Hk].
        assert (k1 : (1 <= k)%Z).
        { apply Z.nlt_ge. intros L. assert (bpow radix2 k <= bpow radix2 0) by (apply bpow_le; lia). cbn in *. lra. }
        assert (k52 : (k <= 52)%Z).
        { apply Z.nlt_ge. intros L. assert (bpow radix2 52 <= bpow radix2 (k-1)) by (apply bpow_le; lia). lra. }
        destruct (format_decomp x k F Hk ltac:(lia)) as (M & EM & HM).
        set (u := bpow radix2 (k - 53)) in *. assert (Pu : 0 < u) by apply bpow_gt_0.
        assert (HH : 1/2 = IZR (2 ^ (52 - k)) * u).
        { unfold u. rewrite (IZR_Zpower radix2) by lia. rewrite <- bpow_plus.
          replace (52 - k + (k - 53))%Z with (-1)%Z by ring. rewrite bpow_m1; lra. }
        assert (H1 : 1 = IZR (2 ^ (53 - k)) * u).
        { unfold u. rewrite (IZR_Zpower radix2) by lia. rewrite <- bpow_plus.
          replace (53 - k + (k - 53))%Z with 0%Z by ring. reflexivity. }
        assert (Hpow : bpow radix2 k = IZR (2 ^ k)) by (rewrite (IZR_Zpower radix2) by lia; reflexivity).
        assert (Nk : (n + 1 <= 2 ^ k)%Z).
        { apply Zlt_le_succ. apply lt_IZR. rewrite <- Hpow. lra. }
        set (N := (2 ^ (53 - k) * (n + 1))%Z).
        assert (EN : IZR n + 1 = IZR N * u).
        { unfold N. rewrite mult_IZR, plus_IZR. replace (IZR n + 1) with ((IZR n + 1) * 1) at 1 by ring.
          rewrite H1 at 2. ring. }
        assert (LT : (M + 2 ^ (52 - k) < N)%Z).
        { apply lt_IZR. apply Rmult_lt_reg_r with (1 := Pu). rewrite plus_IZR, Rmult_plus_distr_r.
          rewrite <- EM, <- HH, <- EN. lra. }
        assert (N53 : (N <= 2 ^ 53)%Z).
        { unfold N. apply Z.le_trans with (2 ^ (53 - k) * 2 ^ k)%Z; [apply Z.mul_le_mono_nonneg_l; lia|].
          rewrite <- Z.pow_add_r by lia. replace (53 - k + k)%Z with 53%Z by ring. lia. }
        apply Rle_lt_trans with (rnd (IZR (N - 1) * u)).
        -- apply rnd_le. rewrite EM, HH. rewrite <- Rmult_plus_distr_r, <- plus_IZR.
           apply Rmult_le_compat_r; [lra|]. apply IZR_le. lia.
        -- rewrite rnd_id; [|apply format_scaled; [|lia]].
           ++ rewrite minus_IZR, Rmult_minus_distr_r, <- EN. lra.
           ++ assert (0 < 2 ^ (52-k))%Z by (apply Z.pow_pos_nonneg; lia). lia.
Qed.

(** For x >= 2^53 the addition is absorbed. *)
Lemma rnd_half_big x : format64 x -> bpow radix2 53 <= x -> rnd (x + 1/2) = x.
Proof.
  intros F H. apply Rle_antisym.
  - apply round_N_le_midp; auto; try typeclasses eauto.
    rewrite succ_eq_pos by (apply Rle_trans with (2 := H); apply bpow_ge_0).
    assert (U : 2 <= ulp radix2 fexp64 x).
    { rewrite ulp_neq_0 by (intros E; rewrite E in H; pose proof (bpow_gt_0 radix2 53); lra).
      change 2 with (bpow radix2 1). apply bpow_le. unfold cexp, SpecFloat.fexp.
      assert (54 <= mag radix2 x)%Z by (apply mag_ge_bpow; rewrite Rabs_pos_eq; [exact H|pose proof (bpow_gt_0 radix2 53); lra]).
      lia. }
    lra.
  - rewrite <- (rnd_id x F) at 1. apply rnd_le. lra.
Qed.

Lemma format_big_int x : format64 x -> bpow radix2 52 <= Rabs x -> exists z, x = IZR z.
Proof.
  intros F H. unfold generic_format in F.
  assert (C : (0 <= cexp radix2 fexp64 x)%Z).
  { unfold cexp, SpecFloat.fexp. assert (53 <= mag radix2 x)%Z by (apply mag_ge_bpow; exact H). lia. }
  exists (Ztrunc (scaled_mantissa radix2 fexp64 x) * 2 ^ (cexp radix2 fexp64 x))%Z.
  rewrite F at 1. unfold F2R; cbn [Fnum Fexp]. rewrite mult_IZR. f_equal.
  symmetry. apply (IZR_Zpower radix2). exact C.
Qed.

Lemma ffloor_correct x : B2R (ffloor x) = IZR (Zfloor (B2R x)) /\ is_finite (ffloor x) = is_finite x.
Proof.
  destruct (Bnearbyint_correct 53 1024 _ mode_DN x) as (H1 & H2 & _). unfold ffloor. split; auto.
  rewrite H1. unfold round, F2R, scaled_mantissa, cexp, FIX_exp; cbn. rewrite !Rmult_1_r. reflexivity.
Qed.
Lemma fceil_correct x : B2R (fceil x) = IZR (Zceil (B2R x)) /\ is_finite (fceil x) = is_finite x.
Proof.
  destruct (Bnearbyint_correct 53 1024 _ mode_UP x) as (H1 & H2 & _). unfold fceil. split; auto.
  rewrite H1. unfold round, F2R, scaled_mantissa, cexp, FIX_exp; cbn. rewrite !Rmult_1_r. reflexivity.
Qed.

Lemma fhalf_correct : B2R fhalf = 1/2 /\ is_finite fhalf = true.
Proof. split; [|reflexivity]. vm_compute. lra. Qed.

(** n is a nearest integer to x, halves away from zero. *)
Definition nearest_away (x : R) (n : Z) : Prop :=
  Rabs (x - IZR n) <= 1/2 /\ (Rabs (x - IZR n) = 1/2 -> Rabs x < Rabs (IZR n)).

Lemma nearest_floor x : 0 <= x -> nearest_away x (Zfloor (x + 1/2)).
Proof.
  intros H. set (n := Zfloor (x + 1/2)).
  assert (Hn : IZR n <= x + 1/2 < IZR n + 1).
  { unfold n. pose proof (Zfloor_lb (x + 1/2)). pose proof (Zfloor_ub (x+1/2)). lra. }
  assert (n0 : 0 <= IZR n) by (apply IZR_le; apply Zfloor_lub; cbn; lra).
  split; [apply Rabs_le; lra|]. intros E. rewrite !Rabs_pos_eq by lra.
  unfold Rabs in E. destruct (Rcase_abs (x - IZR n)); lra.
Qed.

Lemma nearest_away_opp x n : nearest_away x n -> nearest_away (- x) (- n).
Proof.
  unfold nearest_away. rewrite opp_IZR. replace (- x - - IZR n) with (- (x - IZR n)) by ring.
  rewrite !Rabs_Ropp. auto.
Qed.

Lemma nearest_away_unique x n m : nearest_away x n -> nearest_away x m -> n = m.
Proof.
  intros [A1 A2] [B1 B2].
  assert (H : (n = m \/ n = m + 1 \/ m = n + 1)%Z).
  { apply Rabs_le_inv in A1. apply Rabs_le_inv in B1.
    assert (H : IZR n < IZR (m + 2)) by (rewrite plus_IZR; lra).
    assert (H0 : IZR m < IZR (n + 2)) by (rewrite plus_IZR; lra). apply lt_IZR in H, H0. lia. }
  assert (Q : forall p q, nearest_away x p -> nearest_away x q -> p = (q + 1)%Z -> False).
  { clear. intros p q [A1 A2] [B1 B2] ->. rewrite plus_IZR in *.
    apply Rabs_le_inv in A1. apply Rabs_le_inv in B1.
    assert (E : x = IZR q + 1/2) by lra.
    rewrite E in A2, B2.
    replace (IZR q + 1 / 2 - (IZR q + 1)) with (- (1/2)) in A2 by field.
    replace (IZR q + 1 / 2 - IZR q) with (1/2) in B2 by field.
    rewrite Rabs_Ropp in A2. rewrite (Rabs_pos_eq (1/2)) in A2, B2 by lra.
    specialize (A2 eq_refl). specialize (B2 eq_refl).
    destruct (Z_le_gt_dec 0 q) as [C|C].
    - assert (0 <= IZR q) by (apply IZR_le; lia). rewrite !Rabs_pos_eq in B2 by lra. lra.
    - assert (IZR q <= -1) by (apply IZR_le; lia). rewrite !Rabs_left1 in A2 by lra. lra. }
  destruct H as [H|[H|H]]; auto; exfalso; eapply Q; eauto; split; auto.
Qed.

Lemma clamp_format_add (x : R) : format64 x -> Rabs x < OMEGA -> 0 <= x -> 
  (x < bpow radix2 52 \/ bpow radix2 53 <= x) -> clamp (x + 1/2) = rnd (x + 1/2).
Proof.
  intros F Hlt H0 H. apply clamp_small. destruct H as [H|H].
  - assert (0 <= rnd (x + 1/2)) by (rewrite <- rnd_0; apply rnd_le; lra).
    rewrite Rabs_pos_eq by lra. apply Rle_lt_trans with (rnd (bpow radix2 53)).
    + apply rnd_le. assert (bpow radix2 52 + 1 <= bpow radix2 53) by (cbn; lra). lra.
    + rewrite rnd_id by (apply generic_format_bpow; unfold SpecFloat.fexp, SpecFloat.emin; lia).
      apply bpow_lt; lia.
  - rewrite rnd_half_big by auto. exact Hlt.
Qed.

Definition round_ok (x : R) : Prop :=
  (Rabs x < bpow radix2 52 /\ Rabs x <> bad_half) \/ bpow radix2 53 <= Rabs x.

Lemma pos_case x : format64 x -> Rabs x < OMEGA -> 0 <= x -> round_ok x ->
  clamp (x + 1/2) = rnd (x + 1/2) /\ nearest_away x (Zfloor (rnd (x + 1/2))).
Proof.
  intros F HO H0 Hok. unfold round_ok in Hok. rewrite Rabs_pos_eq in Hok by lra. split.
  - apply clamp_format_add; auto. tauto.
  - destruct Hok as [[H1 H2]|H1].
    + rewrite floor_half_small by (auto; lra). apply nearest_floor; auto.
    + rewrite rnd_half_big by auto.
      assert (H52 : bpow radix2 52 <= Rabs x).
      { rewrite Rabs_pos_eq by lra. apply Rle_trans with (2 := H1). apply bpow_le; lia. }
      destruct (format_big_int x F H52) as [z ->].
      rewrite Zfloor_IZR. split; [rewrite Rminus_diag_eq by auto; rewrite Rabs_R0; lra|].
      rewrite Rminus_diag_eq by auto. rewrite Rabs_R0; lra.
Qed.

Lemma finite_of_ext (x : f64) : is_nan x = false -> Rabs (ext x) < OMEGA -> is_finite x = true.
Proof.
  destruct x as [s|s| |s m e p]; cbn; auto; intros _ H. exfalso.
  destruct s; [rewrite Rabs_Ropp in H|]; rewrite Rabs_pos_eq in H by (apply (bpow_ge_0 radix2 1024));
    apply (Rlt_irrefl OMEGA); exact H.
Qed.

Lemma sm_round_correct x : is_finite x = true -> round_ok (B2R x) ->
  is_finite (sm_round x) = true /\ exists n, B2R (sm_round x) = IZR n /\ nearest_away (B2R x) n.
Proof.
  intros F Hok. unfold sm_round. destruct fhalf_correct as [Eh Fh].
  assert (Fm : format64 (B2R x)) by apply generic_format_B2R.
  assert (HO : Rabs (B2R x) < OMEGA) by apply abs_B2R_lt_emax.
  assert (Nx : is_nan x = false) by (apply is_nan_finite; auto).
  pose proof (fltb_ext x fzero Nx eq_refl) as HL. rewrite (ext_finite x F) in HL. cbn [ext fzero B2R] in HL.
  assert (CF : forall r, format64 r -> Rabs r < OMEGA -> 0 <= r -> round_ok r -> Rabs (clamp (r + 1/2)) < OMEGA).
  { intros r A B C D. destruct (pos_case r A B C D) as [E _]. revert E. unfold clamp.
    destruct (Rlt_bool_spec (Rabs (rnd (r + 1/2))) OMEGA) as [L|L]; [intros _; exact L|].
    intros E. exfalso. rewrite Rlt_bool_false in E by lra.
    unfold round_ok in D. rewrite (Rabs_pos_eq r) in * by lra.
    destruct D as [[D _]|D].
    - assert (X : rnd (r + 1/2) <= bpow radix2 53).
      { rewrite <- (rnd_id (bpow radix2 53)) by (apply generic_format_bpow; unfold SpecFloat.fexp, SpecFloat.emin; lia).
        apply rnd_le. assert (bpow radix2 52 + 1 <= bpow radix2 53) by (cbn; lra). lra. }
      assert (bpow radix2 53 < OMEGA) by (apply bpow_lt; lia). lra.
    - rewrite rnd_half_big in E by auto. lra. }
  destruct (fltb x fzero) eqn:E.
  - assert (Hneg : B2R x < 0) by (apply HL; auto).
    assert (Fo : format64 (- B2R x)) by (apply generic_format_opp; auto).
    assert (Ho : round_ok (- B2R x)) by (unfold round_ok in *; rewrite Rabs_Ropp; auto).
    destruct (pos_case (- B2R x) Fo ltac:(rewrite Rabs_Ropp; auto) ltac:(lra) Ho) as [P1 P2].
    destruct (fsub_ext x fhalf F Fh) as [N1 E1]. rewrite Eh in E1.
    replace (B2R x - 1/2) with (- (- B2R x + 1/2)) in E1 by ring. rewrite clamp_neg in E1.
    assert (F1 : is_finite (fsub x fhalf) = true).
    { apply finite_of_ext; auto. rewrite E1, Rabs_Ropp. apply CF; auto; [rewrite Rabs_Ropp; auto|lra]. }
    destruct (fceil_correct (fsub x fhalf)) as [C1 C2]. rewrite C2. split; auto.
    exists (- Zfloor (rnd (- B2R x + 1/2)))%Z. split.
    + rewrite C1. rewrite <- (ext_finite _ F1), E1, P1. unfold Zceil. rewrite Ropp_involutive. reflexivity.
    + rewrite <- (Ropp_involutive (B2R x)) at 1. apply nearest_away_opp. exact P2.
  - assert (Hpos : 0 <= B2R x).
    { destruct (Rlt_le_dec (B2R x) 0) as [L|L]; auto. apply HL in L. discriminate. }
    destruct (pos_case (B2R x) Fm HO Hpos Hok) as [P1 P2].
    destruct (fadd_ext x fhalf F Fh) as [N1 E1]. rewrite Eh in E1.
    assert (F1 : is_finite (fadd x fhalf) = true).
    { apply finite_of_ext; auto. rewrite E1. apply CF; auto. }
    destruct (ffloor_correct (fadd x fhalf)) as [C1 C2]. rewrite C2. split; auto.
    exists (Zfloor (rnd (B2R x + 1/2)))%Z. split; auto.
    rewrite C1. rewrite <- (ext_finite _ F1), E1, P1. reflexivity.
Qed.

Lemma cast_int_integral x n bits : is_finite x = true -> B2R x = IZR n ->
  (- 2 ^ (bits - 1) <= n < 2 ^ (bits - 1))%Z -> cast_int bits x = Some n.
Proof.
  intros F E H. unfold cast_int. rewrite F.
  assert (T : Btrunc x = n).
  { apply eq_IZR. rewrite (Btrunc_correct 53 1024 _ x), E.
    unfold round, F2R, scaled_mantissa, cexp, FIX_exp; cbn. rewrite !Rmult_1_r. rewrite Ztrunc_IZR. reflexivity. }
  rewrite T. replace ((- 2 ^ (bits - 1) <=? n) && (n <? 2 ^ (bits - 1)))%Z with true; auto.
  symmetry. apply andb_true_iff. split; [apply Z.leb_le|apply Z.ltb_lt]; lia.
Qed.
