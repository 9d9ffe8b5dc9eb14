From Verif Require Import Float64 Round_Model Round_Proofs Nsec_Model.
From Coq Require Import Psatz.
From Flocq Require Import Relative.
Open Scope R_scope.

Lemma rnd_rel x : bpow radix2 (-1022) <= Rabs x -> Rabs (rnd x - x) <= bpow radix2 (-53) * Rabs x.
Proof.
  intros H. 
  pose proof (relative_error_N_FLT radix2 (-1074) 53 prec53_gt_0 (fun x => negb (Z.even x)) x H) as R.
  replace (/ 2 * bpow radix2 (- (53) + 1)) with (bpow radix2 (-53)) in R; [exact R|].
  replace (- (53) + 1)%Z with (1 + -53)%Z by ring. rewrite bpow_plus. cbn [bpow]. 
  change (IZR (Z.pow_pos radix2 1)) with 2. change (IZR (Z.pow_pos radix2 53)) with 9007199254740992. lra.
Qed.

Lemma rnd_abs_le x e : (-1021 <= e)%Z -> Rabs x <= bpow radix2 e -> Rabs (rnd x) <= bpow radix2 e.
Proof.
  intros He H. apply abs_round_le_generic; auto; try typeclasses eauto.
  apply generic_format_bpow. unfold SpecFloat.fexp, SpecFloat.emin. lia.
Qed.

Lemma fmul_rnd x y e : is_finite x = true -> is_finite y = true -> (-1021 <= e < 1024)%Z ->
  Rabs (B2R x * B2R y) <= bpow radix2 e ->
  B2R (fmul x y) = rnd (B2R x * B2R y) /\ is_finite (fmul x y) = true.
Proof.
  intros Fx Fy He H. destruct (fmul_ext x y Fx Fy) as [N E].
  assert (L : Rabs (rnd (B2R x * B2R y)) < OMEGA).
  { apply Rle_lt_trans with (bpow radix2 e); [apply rnd_abs_le; auto; lia|apply bpow_lt; lia]. }
  rewrite clamp_small in E by exact L.
  assert (F : is_finite (fmul x y) = true) by (apply finite_of_ext; auto; rewrite E; exact L).
  rewrite <- E, ext_finite; auto.
Qed.

Lemma fofZ_rnd z : (Z.abs z <= 2 ^ 100)%Z -> B2R (fofZ z) = rnd (IZR z) /\ is_finite (fofZ z) = true.
Proof.
  intros H. pose proof (binary_normalize_correct 53 1024 _ _ mode_NE z 0 false) as K.
  cbn [round_mode] in K. unfold fofZ.
  assert (E : F2R (Float radix2 z 0) = IZR z) by (unfold F2R; cbn; ring). rewrite E in K.
  rewrite Rlt_bool_true in K; [tauto|].
  apply Rle_lt_trans with (bpow radix2 100); [|apply bpow_lt; lia].
  apply rnd_abs_le; [lia|]. rewrite <- abs_IZR. rewrite <- (IZR_Zpower radix2) by lia. apply IZR_le. exact H.
Qed.

Definition c_em9 : R := 4835703278458517 / 4835703278458516698824704.
Lemma lit_em9_correct : B2R lit_1em9 = c_em9 /\ is_finite lit_1em9 = true.
Proof.
  split; [|reflexivity]. unfold c_em9.
  replace (B2R lit_1em9) with (F2R (Float radix2 4835703278458517 (-82))).
  - unfold F2R; cbn. lra.
  - symmetry. assert (E : B2SF lit_1em9 = SpecFloat.S754_finite false 4835703278458517 (-82)) by (vm_compute; reflexivity).
    destruct lit_1em9 as [s|s| |s m e p]; try discriminate. cbn in E. inversion E; subst. reflexivity.
Qed.
Lemma lit_e9_correct : B2R lit_1e9 = 1000000000 /\ is_finite lit_1e9 = true.
Proof. exact (fofZ_correct (10^9)%Z ltac:(lia)). Qed.

(** The real function computed by nsecToSec and by secToNsec before truncation. *)
Definition sec_of (t : Z) : R := rnd (rnd (IZR t) * c_em9).
Definition back (t : Z) : R := rnd (sec_of t * 1000000000).

Lemma c_bounds : 1 / 1000000000 <= c_em9 <= 1 / 1000000000 * (1 + 7 / 100000000000000000).
Proof. unfold c_em9. lra. Qed.

Lemma bpow_100 : bpow radix2 100 = 1267650600228229401496703205376. Proof. cbn. lra. Qed.
Lemma bpow_63 : bpow radix2 63 = 9223372036854775808. Proof. cbn. lra. Qed.

Lemma nsecToSec_correct t : (Z.abs t <= 2 ^ 63)%Z -> B2R (nsecToSec t) = sec_of t /\ is_finite (nsecToSec t) = true.
Proof.
  intros H. unfold nsecToSec, sec_of. destruct (fofZ_rnd t) as [E F]; [lia|].
  destruct lit_em9_correct as [Ec Fc].
  rewrite <- Ec, <- E. apply fmul_rnd with (e := 100%Z); auto; [lia|].
  rewrite E, Ec, Rabs_mult.
  assert (R1 : Rabs (rnd (IZR t)) <= bpow radix2 63).
  { apply rnd_abs_le; [lia|]. rewrite <- abs_IZR, <- (IZR_Zpower radix2) by lia. apply IZR_le. exact H. }
  pose proof c_bounds as [C1 C2]. rewrite (Rabs_pos_eq c_em9) by lra.
  rewrite bpow_63 in R1. rewrite bpow_100. pose proof (Rabs_pos (rnd (IZR t))). nra.
Qed.

Lemma sec_of_bound t : (Z.abs t <= 2 ^ 63)%Z -> Rabs (sec_of t) <= bpow radix2 40.
Proof.
  intros H. unfold sec_of. apply rnd_abs_le; [lia|]. rewrite Rabs_mult.
  assert (R1 : Rabs (rnd (IZR t)) <= bpow radix2 63).
  { apply rnd_abs_le; [lia|]. rewrite <- abs_IZR, <- (IZR_Zpower radix2) by lia. apply IZR_le. exact H. }
  pose proof c_bounds as [C1 C2]. rewrite (Rabs_pos_eq c_em9) by lra.
  rewrite bpow_63 in R1. replace (bpow radix2 40) with 1099511627776 by (cbn; lra).
  pose proof (Rabs_pos (rnd (IZR t))). nra.
Qed.

Lemma secToNsec_arg t : (Z.abs t <= 2 ^ 63)%Z ->
  B2R (fmul (nsecToSec t) lit_1e9) = back t /\ is_finite (fmul (nsecToSec t) lit_1e9) = true.
Proof.
  intros H. destruct (nsecToSec_correct t H) as [E F]. destruct lit_e9_correct as [E9 F9].
  unfold back. rewrite <- E9, <- E. apply fmul_rnd with (e := 100%Z); auto; [lia|].
  rewrite E, E9, Rabs_mult. pose proof (sec_of_bound t H) as B.
  replace (bpow radix2 40) with 1099511627776 in B by (cbn; lra). rewrite bpow_100.
  rewrite (Rabs_pos_eq 1000000000) by lra. lra.
Qed.

Lemma round_FIX0 (f : R -> Z) x : round radix2 (FIX_exp 0) f x = IZR (f x).
Proof. unfold round, F2R, scaled_mantissa, cexp, FIX_exp; cbn. rewrite !Rmult_1_r. reflexivity. Qed.

Lemma cast_int_trunc x bits : is_finite x = true ->
  (- 2 ^ (bits - 1) <= Ztrunc (B2R x) < 2 ^ (bits - 1))%Z -> cast_int bits x = Some (Ztrunc (B2R x)).
Proof.
  intros F H. unfold cast_int. rewrite F.
  assert (T : Btrunc x = Ztrunc (B2R x)) by (apply eq_IZR; rewrite (Btrunc_correct 53 1024 _ x), round_FIX0; reflexivity).
  rewrite T. replace ((- 2 ^ (bits - 1) <=? Ztrunc (B2R x)) && (Ztrunc (B2R x) <? 2 ^ (bits - 1)))%Z with true; auto.
  symmetry. apply andb_true_iff. split; [apply Z.leb_le|apply Z.ltb_lt]; lia.
Qed.
Lemma cast_int_Some x bits n : cast_int bits x = Some n -> is_finite x = true /\ n = Ztrunc (B2R x).
Proof.
  unfold cast_int. destruct (is_finite x); [|discriminate].
  assert (T : Btrunc x = Ztrunc (B2R x)) by (apply eq_IZR; rewrite (Btrunc_correct 53 1024 _ x), round_FIX0; reflexivity).
  rewrite T. destruct (_ && _); [|discriminate]. intros E; inversion E; auto.
Qed.

Lemma back_opp t : back (- t) = - back t.
Proof.
  unfold back, sec_of. rewrite opp_IZR, rnd_opp, Ropp_mult_distr_l_reverse, rnd_opp, Ropp_mult_distr_l_reverse, rnd_opp.
  reflexivity.
Qed.

Lemma p53 : bpow radix2 (-53) = 1 / 9007199254740992. Proof. cbn. lra. Qed.

(** gap below a positive format number *)
Lemma pred_gap u : format64 u -> bpow radix2 (-1000) <= u -> pred radix2 fexp64 u <= u - bpow radix2 (-53) * u.
Proof.
  intros F Hu. assert (P : 0 < u) by (pose proof (bpow_gt_0 radix2 (-1000)); lra).
  rewrite pred_eq_pos by lra. unfold pred_pos.
  assert (Hm : bpow radix2 (mag radix2 u - 1) <= u < bpow radix2 (mag radix2 u)).
  { destruct (mag radix2 u) as [k Hk]. cbn. rewrite Rabs_pos_eq in Hk by lra. apply Hk. lra. }
  assert (Mk : (-999 <= mag radix2 u)%Z).
  { apply mag_ge_bpow. rewrite Rabs_pos_eq by lra. exact Hu. }
  destruct (Req_bool_spec u (bpow radix2 (mag radix2 u - 1))) as [E|E].
  - assert (X : bpow radix2 (fexp64 (mag radix2 u - 1)) = bpow radix2 (-53) * u).
    { rewrite E at 3. rewrite <- bpow_plus. f_equal. unfold SpecFloat.fexp, SpecFloat.emin. lia. }
    rewrite X. lra.
  - rewrite ulp_neq_0 by lra.
    assert (X : bpow radix2 (cexp radix2 fexp64 u) = bpow radix2 (-53) * bpow radix2 (mag radix2 u)).
    { rewrite <- bpow_plus. f_equal. unfold cexp, SpecFloat.fexp, SpecFloat.emin. lia. }
    rewrite X. pose proof (bpow_gt_0 radix2 (-53)). nra.
Qed.

Lemma back_exact_pos t : (0 < t < 2 ^ 52)%Z -> IZR t <= back t < IZR t + 1.
Proof.
  intros [H0 H52]. unfold back, sec_of.
  rewrite (rnd_id (IZR t)) by (apply format_IZR; lia).
  assert (T1 : 1 <= IZR t) by (apply IZR_le; lia).
  assert (T52 : IZR t <= 4503599627370495) by (apply IZR_le; lia).
  set (x := IZR t * c_em9).
  assert (Cx : c_em9 = 4835703278458517 / 4835703278458516698824704) by reflexivity.
  assert (Xp : 0 < x) by (unfold x; rewrite Cx; nra).
  assert (Hn : bpow radix2 (-1022) <= Rabs x).
  { rewrite Rabs_pos_eq by lra. apply Rle_trans with (bpow radix2 (-40)); [apply bpow_le; lia|].
    replace (bpow radix2 (-40)) with (1 / 1099511627776) by (cbn; lra). unfold x; rewrite Cx. nra. }
  pose proof (rnd_rel x Hn) as RX. rewrite (Rabs_pos_eq x), p53 in RX by lra. apply Rabs_le_inv in RX.
  set (y := rnd x) in *.
  split.
  - apply round_N_ge_midp; try typeclasses eauto; [apply format_IZR; lia|].
    pose proof (pred_gap (IZR t) ltac:(apply format_IZR; lia)) as G. rewrite p53 in G.
    assert (G' : pred radix2 fexp64 (IZR t) <= IZR t - 1 / 9007199254740992 * IZR t).
    { apply G. apply Rle_trans with (bpow radix2 0); [apply bpow_le; lia|cbn; lra]. }
    assert (L : IZR t - 1 / 18014398509481984 * IZR t < y * 1000000000).
    { unfold x in RX. rewrite Cx in RX. lra. }
    lra.
  - destruct (Rlt_le_dec (IZR t) 2251799813685248) as [S51|S51].
    + apply Rle_lt_trans with (rnd (IZR t + 1/2)).
      * apply rnd_le. unfold x in RX; rewrite Cx in RX. lra.
      * rewrite rnd_id; [lra|]. apply format_half_int. lia.
    + (* 2^51 <= t < 2^52 *)
      assert (AE : Rabs (y - x) <= / 2147483648).
      { assert (U : Rabs (y - x) <= / 2 * ulp radix2 fexp64 x).
        { unfold y. apply error_le_half_ulp; typeclasses eauto. }
        assert (UL : ulp radix2 fexp64 x <= bpow radix2 (-30)).
        { rewrite ulp_neq_0 by lra. apply bpow_le. unfold cexp, SpecFloat.fexp, SpecFloat.emin.
          assert (mag radix2 x <= 23)%Z; [|lia]. apply mag_le_bpow; [lra|]. rewrite Rabs_pos_eq by lra.
          replace (bpow radix2 23) with 8388608 by (cbn; lra). unfold x; rewrite Cx; nra. }
        replace (bpow radix2 (-30)) with (/ 1073741824) in UL by (cbn; lra). lra. }
      apply Rabs_le_inv in AE.
      assert (W : y * 1000000000 < IZR t + 3/4).
      { unfold x in AE. rewrite Cx in AE. lra. }
      assert (FH : format64 (IZR t + 1/2)) by (apply format_half_int; lia).
      apply Rle_lt_trans with (IZR t + 1/2); [|lra].
      apply round_N_le_midp; auto; try typeclasses eauto.
      rewrite succ_eq_pos by lra.
      assert (UH : ulp radix2 fexp64 (IZR t + 1/2) = 1/2).
      { rewrite ulp_neq_0 by lra. unfold cexp. rewrite (mag_unique_pos radix2 _ 52).
        - unfold SpecFloat.fexp, SpecFloat.emin. cbn. lra.
        - replace (bpow radix2 (52 - 1)) with 2251799813685248 by (cbn; lra).
          replace (bpow radix2 52) with 4503599627370496 by (cbn; lra). lra. }
      rewrite UH. lra.
Qed.

Lemma Ztrunc_between t z : (0 < t)%Z -> IZR t <= z < IZR t + 1 -> Ztrunc z = t.
Proof.
  intros H [H1 H2]. assert (0 < IZR t) by (apply IZR_lt; lia). rewrite Ztrunc_floor by lra.
  apply Zfloor_imp. rewrite plus_IZR. lra.
Qed.

Lemma back_trunc t : (Z.abs t < 2 ^ 52)%Z -> Ztrunc (back t) = t.
Proof.
  intros H. destruct (Z.lt_trichotomy t 0) as [L|[E|G]].
  - assert (K : Ztrunc (back (- t)) = (- t)%Z) by (apply Ztrunc_between; [lia|apply back_exact_pos; lia]).
    rewrite back_opp, Ztrunc_opp in K. lia.
  - subst t. unfold back, sec_of. rewrite rnd_0, Rmult_0_l, rnd_0, Rmult_0_l, rnd_0.
    change 0 with (IZR 0). apply Ztrunc_IZR.
  - apply Ztrunc_between; [lia|]. apply back_exact_pos; lia.
Qed.

(** Relative bound over the whole usable range. *)
Lemma back_bound_pos t : (0 < t <= 2 ^ 62)%Z -> Rabs (back t - IZR t) <= IZR t / 1125899906842624.
Proof.
  intros [H0 H62]. unfold back, sec_of.
  assert (T1 : 1 <= IZR t) by (apply IZR_le; lia).
  assert (N1 : bpow radix2 (-1022) <= Rabs (IZR t)).
  { rewrite Rabs_pos_eq by lra. apply Rle_trans with (bpow radix2 0); [apply bpow_le; lia|cbn; lra]. }
  pose proof (rnd_rel (IZR t) N1) as R1. rewrite (Rabs_pos_eq (IZR t)), p53 in R1 by lra. apply Rabs_le_inv in R1.
  set (a := rnd (IZR t)) in *.
  assert (Cx : c_em9 = 4835703278458517 / 4835703278458516698824704) by reflexivity.
  assert (P40 : bpow radix2 (-40) = 1 / 1099511627776) by (cbn; lra).
  assert (L40 : bpow radix2 (-1022) <= bpow radix2 (-40)) by (apply bpow_le; lia).
  assert (Ap : 9/10 <= a) by lra.
  assert (N2 : bpow radix2 (-1022) <= Rabs (a * c_em9)).
  { rewrite Rabs_pos_eq by (rewrite Cx; nra). rewrite P40 in L40. rewrite Cx. lra. }
  pose proof (rnd_rel (a * c_em9) N2) as R2. rewrite (Rabs_pos_eq (a * c_em9)), p53 in R2 by (rewrite Cx; nra).
  apply Rabs_le_inv in R2. set (y := rnd (a * c_em9)) in *. rewrite Cx in R2.
  assert (Yp : 8 / 10000000000 <= y) by lra.
  assert (N3 : bpow radix2 (-1022) <= Rabs (y * 1000000000)).
  { rewrite Rabs_pos_eq by lra. rewrite P40 in L40. lra. }
  pose proof (rnd_rel (y * 1000000000) N3) as R3. rewrite (Rabs_pos_eq (y * 1000000000)), p53 in R3 by lra.
  apply Rabs_le_inv in R3. set (z := rnd (y * 1000000000)) in *.
  apply Rabs_le. lra.
Qed.

Lemma back_bound t : (Z.abs t <= 2 ^ 62)%Z -> Rabs (back t - IZR t) <= Rabs (IZR t) / 1125899906842624.
Proof.
  intros H. destruct (Z.lt_trichotomy t 0) as [L|[E|G]].
  - pose proof (back_bound_pos (- t) ltac:(lia)) as K. rewrite back_opp, opp_IZR in K.
    replace (- back t - - IZR t) with (- (back t - IZR t)) in K by ring. rewrite Rabs_Ropp in K.
    assert (IZR t < 0) by (apply IZR_lt; lia). rewrite (Rabs_left (IZR t)) by lra. exact K.
  - subst t. unfold back, sec_of. rewrite rnd_0, Rmult_0_l, rnd_0, Rmult_0_l, rnd_0.
    rewrite Rminus_0_r, Rabs_R0. lra.
  - assert (0 < IZR t) by (apply IZR_lt; lia). rewrite (Rabs_pos_eq (IZR t)) by lra. apply back_bound_pos; lia.
Qed.

Lemma Ztrunc_err z : Rabs (IZR (Ztrunc z) - z) < 1.
Proof.
  destruct (Rle_lt_dec 0 z) as [H|H].
  - rewrite Ztrunc_floor by auto. pose proof (Zfloor_lb z). pose proof (Zfloor_ub z). apply Rabs_lt. lra.
  - rewrite Ztrunc_ceil by lra. pose proof (Zceil_ub z). pose proof (Zceil_lb z). apply Rabs_lt. lra.
Qed.

Lemma Ztrunc_le_mono x y : x <= y -> (Ztrunc x <= Ztrunc y)%Z.
Proof. apply Ztrunc_le. Qed.
