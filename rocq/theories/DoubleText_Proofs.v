(** Lemmas for C109. *)
From Coq Require Import Reals Lra Qreals.
From Flocq Require Import Core Round_odd.
From Verif Require Import Float64 Timer_Model TimeString_Props PTree_Model PTree_Proofs PTree_Typed_Props Strings_Model.
From Verif Require Import DoubleText_Model.
Import ListNotations.
Open Scope R_scope.

Definition r10 : radix := Build_radix 10 eq_refl.
Lemma tenq_R X : Q2R (tenq X) = bpow r10 X.
Proof.
  unfold tenq. destruct (Z.leb_spec 0 X).
  - rewrite Q2R_inject. rewrite <- (IZR_Zpower r10) by auto. reflexivity.
  - unfold Q2R. cbn [Qnum Qden]. rewrite Z2Pos.id by (apply Z.pow_pos_nonneg; lia).
    change 10%Z with (radix_val r10). rewrite (IZR_Zpower r10) by lia. rewrite <- bpow_opp. rewrite Z.opp_involutive. lra.
Qed.

(** ** the decimal exponent *)
Lemma find_exp_spec fuel : forall X0 q, bpow r10 (X0 - Z.of_nat fuel) <= Q2R q -> Q2R q < bpow r10 (X0 + 1) ->
  bpow r10 (find_exp fuel X0 q) <= Q2R q < bpow r10 (find_exp fuel X0 q + 1) /\ (X0 - Z.of_nat fuel <= find_exp fuel X0 q <= X0)%Z.
Proof.
  induction fuel as [|fuel IH]; intros X0 q L U; cbn [find_exp]; destruct (Qle_bool (tenq X0) q) eqn:B.
  - apply Qle_bool_iff, Qle_Rle in B. rewrite tenq_R in B. split; [split; auto|lia].
  - rewrite Z.sub_0_r in L. split; [split; auto|lia].
  - apply Qle_bool_iff, Qle_Rle in B. rewrite tenq_R in B. split; [split; auto|lia].
  - assert (N : Q2R q < bpow r10 X0).
    { apply Rnot_le_lt. intros G. rewrite <- tenq_R in G. apply Rle_Qle, Qle_bool_iff in G. congruence. }
    destruct (IH (X0 - 1)%Z q) as [A C].
    + replace (X0 - 1 - Z.of_nat fuel)%Z with (X0 - Z.of_nat (S fuel))%Z by lia. auto.
    + now replace (X0 - 1 + 1)%Z with X0 by lia.
    + split; auto. lia.
Qed.
Lemma bpow2_10 a : (0 <= a)%Z -> bpow radix2 a <= bpow r10 a.
Proof.
  intros H. rewrite <- (IZR_Zpower radix2), <- (IZR_Zpower r10) by auto. apply IZR_le. apply Z.pow_le_mono_l. cbn. lia.
Qed.
Lemma decexp_spec q : bpow radix2 (-1074) <= Q2R q -> Q2R q < bpow radix2 1024 ->
  bpow r10 (decexp q) <= Q2R q < bpow r10 (decexp q + 1).
Proof.
  intros L U. apply (find_exp_spec 700 330 q).
  - apply Rle_trans with (2 := L). change (330 - Z.of_nat 700)%Z with (Z.opp 370). change (-1074)%Z with (Z.opp 1074).
    rewrite !bpow_opp. apply Rinv_le; [apply bpow_gt_0|].
    rewrite <- (IZR_Zpower radix2), <- (IZR_Zpower r10) by lia. apply IZR_le. apply Z.leb_le. vm_compute. reflexivity.
  - apply Rlt_le_trans with (1 := U).
    rewrite <- (IZR_Zpower radix2), <- (IZR_Zpower r10) by lia. apply IZR_le. apply Z.leb_le. vm_compute. reflexivity.
Qed.

(** ** the digits *)
Lemma Qround_even_mono a q b : IZR a <= Q2R q -> Q2R q <= IZR b -> (a <= Qround_even q <= b)%Z.
Proof.
  intros A B. pose proof (Qround_even_err q) as E. apply Rabs_le_inv in E. split.
  - unfold Qround_even. assert (a <= Qfloor q)%Z.
    { apply le_IZR. rewrite <- Q2R_inject in A. apply Rle_Qle in A. apply Qfloor_resp_le in A. rewrite Qfloor_Z in A. now apply IZR_le. }
    destruct (Qcompare _ _); [destruct (Z.even _)| |]; lia.
  - apply le_IZR. apply Rnot_lt_le. intros G. apply lt_IZR in G.
    assert (G' : IZR b + 1 <= IZR (Qround_even q)) by (rewrite <- plus_IZR; apply IZR_le; lia). lra.
Qed.
(** D * 10^(X-p+1) is within half a unit of the p-th digit *)
Lemma sci_spec p q : (1 <= p)%nat -> bpow radix2 (-1074) <= Q2R q -> Q2R q < bpow radix2 1024 ->
  let '(D, X) := sci p q in
  (10 ^ (Z.of_nat p - 1) <= D < 10 ^ Z.of_nat p)%Z /\
  Rabs (IZR D * bpow r10 (X - Z.of_nat p + 1) - Q2R q) <= / 2 * bpow r10 (1 - Z.of_nat p) * Q2R q.
Proof.
  intros Hp L U. unfold sci. set (X := decexp q). destruct (decexp_spec q L U) as [X1 X2]. fold X in X1, X2.
  set (k := (Z.of_nat p - 1 - X)%Z). set (D := Qround_even (q * tenq k)).
  assert (EQ : Q2R (q * tenq k) = Q2R q * bpow r10 k) by (rewrite Q2R_mult, tenq_R; auto).
  assert (Bk : 0 < bpow r10 k) by apply bpow_gt_0.
  assert (R0 : (10 ^ (Z.of_nat p - 1) <= D <= 10 ^ Z.of_nat p)%Z).
  { apply Qround_even_mono; rewrite EQ; change 10%Z with (radix_val r10); rewrite (IZR_Zpower r10) by lia.
    - replace (Z.of_nat p - 1)%Z with (X + k)%Z by (unfold k; lia). rewrite bpow_plus. apply Rmult_le_compat_r; lra.
    - replace (Z.of_nat p) with ((X + 1) + k)%Z by (unfold k; lia). rewrite bpow_plus. apply Rmult_le_compat_r; lra. }
  assert (ER : Rabs (IZR D * bpow r10 (X - Z.of_nat p + 1) - Q2R q) <= / 2 * bpow r10 (1 - Z.of_nat p) * Q2R q).
  { pose proof (Qround_even_err (q * tenq k)) as E. fold D in E. rewrite EQ in E.
    set (h := bpow r10 (X - Z.of_nat p + 1)).
    assert (HK : h * bpow r10 k = 1).
    { unfold h. rewrite <- bpow_plus. replace (X - Z.of_nat p + 1 + k)%Z with 0%Z by (unfold k; lia). reflexivity. }
    assert (h0 : 0 < h) by apply bpow_gt_0.
    replace (IZR D * h - Q2R q) with ((IZR D - Q2R q * bpow r10 k) * h).
    2:{ transitivity (IZR D * h - Q2R q * (h * bpow r10 k)); [ring|]. rewrite HK. ring. }
    rewrite Rabs_mult, (Rabs_pos_eq h) by lra.
    apply Rle_trans with (1 / 2 * h). { apply Rmult_le_compat_r; lra. }
    assert (HX : h = bpow r10 (1 - Z.of_nat p) * bpow r10 X) by (unfold h; rewrite <- bpow_plus; f_equal; lia).
    rewrite HX. assert (0 < bpow r10 (1 - Z.of_nat p)) by apply bpow_gt_0.
    replace (1 / 2 * (bpow r10 (1 - Z.of_nat p) * bpow r10 X)) with (/ 2 * bpow r10 (1 - Z.of_nat p) * bpow r10 X) by field.
    apply Rmult_le_compat_l; [|lra]. apply Rlt_le. apply Rmult_lt_0_compat; lra. }
  destruct (Z.eqb_spec D (10 ^ Z.of_nat p)) as [E|E]; [|split; [lia|exact ER]].
  assert (P1 : (10 ^ Z.of_nat p = 10 * 10 ^ (Z.of_nat p - 1))%Z).
  { rewrite <- Z.pow_succ_r by lia. f_equal. lia. }
  assert (P0 : (0 < 10 ^ (Z.of_nat p - 1))%Z) by (apply Z.pow_pos_nonneg; lia).
  split; [lia|]. rewrite E, P1, mult_IZR in ER.
  replace (X + 1 - Z.of_nat p + 1)%Z with (1 + (X - Z.of_nat p + 1))%Z by lia. rewrite bpow_plus.
  change (bpow r10 1) with 10. rewrite (Rmult_comm 10) in ER. rewrite Rmult_assoc in ER. exact ER.
Qed.

(** ** rounding a value near a double *)
Lemma round_near x v : format64 x -> 0 < x -> Rabs (v - x) < / 2 * bpow radix2 (-53) * x -> rnd v = x.
Proof.
  intros F P H. apply Rabs_lt_inv in H. assert (V := fexp_correct 53 1024 eq_refl).
  assert (Hk : bpow radix2 (mag radix2 x - 1) <= x < bpow radix2 (mag radix2 x)).
  { pose proof (bpow_mag_le radix2 x ltac:(lra)) as K1. pose proof (bpow_mag_gt radix2 x) as K2.
    rewrite Rabs_pos_eq in K1, K2 by lra. auto. }
  assert (B : forall e, bpow radix2 (-53) * bpow radix2 e <= bpow radix2 (fexp64 e)).
  { intros e. rewrite <- bpow_plus. apply bpow_le. unfold SpecFloat.fexp, SpecFloat.emin. lia. }
  assert (B0 : 0 < bpow radix2 (-53)) by apply bpow_gt_0.
  apply Rle_antisym.
  - apply round_N_le_midp; auto. rewrite succ_eq_pos by lra. rewrite ulp_neq_0 by lra. unfold cexp.
    specialize (B (mag radix2 x)). assert (bpow radix2 (-53) * x <= bpow radix2 (-53) * bpow radix2 (mag radix2 x)) by (apply Rmult_le_compat_l; lra). lra.
  - apply round_N_ge_midp; auto. rewrite pred_eq_pos by lra. unfold pred_pos.
    destruct (Req_bool_spec x (bpow radix2 (mag radix2 x - 1))) as [E|E].
    + specialize (B (mag radix2 x - 1)%Z). rewrite <- E in B. lra.
    + rewrite ulp_neq_0 by lra. unfold cexp. specialize (B (mag radix2 x)).
      assert (bpow radix2 (-53) * x <= bpow radix2 (-53) * bpow radix2 (mag radix2 x)) by (apply Rmult_le_compat_l; lra). lra.
Qed.
Lemma digits17 p : (17 <= p)%nat -> bpow r10 (1 - Z.of_nat p) < bpow radix2 (-53).
Proof.
  intros H. apply Rle_lt_trans with (bpow r10 (-16)); [apply bpow_le; lia|].
  change (-16)%Z with (Z.opp 16). change (-53)%Z with (Z.opp 53). rewrite !bpow_opp. apply Rinv_lt.
  - apply bpow_gt_0.
  - rewrite <- (IZR_Zpower radix2), <- (IZR_Zpower r10) by lia. apply IZR_lt. vm_compute. reflexivity.
Qed.

(** ** reading a decimal number *)
Lemma round_odd_R v : IZR (round_odd v) = IZR (Zrnd_odd (Q2R v)).
Proof.
  f_equal. unfold round_odd, Zrnd_odd. rewrite (floor_bridge v (Q2R v) eq_refl).
  destruct (Req_EM_T (Q2R v) (IZR (Qfloor v))) as [E|E]; destruct (Qeq_bool (inject_Z (Qfloor v)) v) eqn:B; auto.
  - exfalso. apply Qeq_bool_neq in B. apply B. apply eqR_Qeq. rewrite Q2R_inject. auto.
  - exfalso. apply E. apply Qeq_bool_iff in B. apply Qeq_eqR in B. rewrite Q2R_inject in B. auto.
  - destruct (Z.even (Qfloor v)); auto. symmetry. rewrite Zceil_floor_neq; rewrite (floor_bridge v (Q2R v) eq_refl); auto.
Qed.
Lemma rnd_odd_fix y : rnd (IZR (Zrnd_odd (y * bpow radix2 1080)) * bpow radix2 (-1080)) = rnd y.
Proof.
  assert (V := fexp_correct 53 1024 eq_refl).
  assert (NE : Exists_NE radix2 fexp64).
  { apply (@exists_NE_FLT radix2 (-1074) 53). right. lia. }
  assert (NF : Exists_NE radix2 (FIX_exp (-1080))) by (right; intros e; unfold FIX_exp; split; intros; lia).
  assert (VF : Valid_exp (FIX_exp (-1080))) by apply FIX_exp_valid.
  etransitivity; [|apply (round_N_odd radix2 eq_refl fexp64 (FIX_exp (-1080)) (fun z => negb (Z.even z)))].
  - reflexivity.
  - intros e. unfold FIX_exp, SpecFloat.fexp, SpecFloat.emin. lia.
Qed.

(** The real number written. *)
Definition decimal (neg : bool) (m e : Z) : R := (if neg then -1 else 1) * (IZR m * bpow r10 e).
Lemma of_dec_spec neg m e : (0 <= m)%Z ->
  (Rabs (rnd (decimal neg m e)) < OMEGA ->
     exists x, of_dec neg m e = Some x /\ is_finite x = true /\ B2R x = rnd (decimal neg m e) /\ Bsign x = neg) /\
  (OMEGA <= Rabs (rnd (decimal neg m e)) -> of_dec neg m e = None).
Proof.
  intros Hm. unfold of_dec. set (v := (inject_Z m * tenq e * inject_Z (2 ^ 1080))%Q). set (z := round_odd v).
  assert (QV : Q2R v = IZR m * bpow r10 e * bpow radix2 1080).
  { unfold v. rewrite !Q2R_mult, !Q2R_inject, tenq_R. apply f_equal. change (2 ^ 1080)%Z with (Zpower radix2 1080). apply (IZR_Zpower radix2). lia. }
  assert (P : 0 <= IZR m * bpow r10 e). { apply Rmult_le_pos; [now apply (IZR_le 0)|apply bpow_ge_0]. }
  assert (Z0 : (0 <= z)%Z).
  { unfold z. apply le_IZR. rewrite round_odd_R, QV.
    assert (G : 0 <= IZR m * bpow r10 e * bpow radix2 1080) by (apply Rmult_le_pos; [auto|apply bpow_ge_0]).
    apply IZR_le. unfold Zrnd_odd. assert (0 <= Zfloor (IZR m * bpow r10 e * bpow radix2 1080))%Z by (apply Zfloor_lub; auto).
    assert (0 <= Zceil (IZR m * bpow r10 e * bpow radix2 1080))%Z.
    { apply le_IZR. apply Rle_trans with (1 := G). apply Zceil_ub. }
    destruct (Req_EM_T _ _); auto. destruct (Z.even _); auto. }
  set (zs := (if neg then - z else z)%Z).
  assert (FR : F2R (Float radix2 zs (-1080)) = (if neg then -1 else 1) * (IZR z * bpow radix2 (-1080))).
  { unfold F2R, zs. cbn [Fnum Fexp]. destruct neg; rewrite ?opp_IZR; ring. }
  assert (RE : round radix2 fexp64 (round_mode mode_NE) (F2R (Float radix2 zs (-1080))) = rnd (decimal neg m e)).
  { change (round_mode mode_NE) with ZnearestE. rewrite FR. unfold decimal.
    assert (R1 : rnd (IZR z * bpow radix2 (-1080)) = rnd (IZR m * bpow r10 e)).
    { unfold z. rewrite round_odd_R, QV. apply rnd_odd_fix. }
    destruct neg; [|now rewrite !Rmult_1_l].
    assert (N1 : forall a, -1 * a = - a) by (intros; ring). rewrite !N1, !rnd_opp, R1. auto. }
  pose proof (binary_normalize_correct 53 1024 eq_refl eq_refl mode_NE zs (-1080) neg) as BC. cbn zeta in BC. rewrite RE in BC.
  set (x := binary_normalize 53 1024 eq_refl eq_refl mode_NE zs (-1080) neg) in *.
  split; intros B.
  - rewrite Rlt_bool_true in BC by auto. destruct BC as (B1 & B2 & B3). exists x. rewrite B2. repeat split; auto.
    rewrite B3, FR. pose proof (bpow_gt_0 radix2 (-1080)) as BP. destruct (Z.eq_dec z 0) as [E|E].
    + rewrite E. rewrite Rcompare_Eq; auto. ring.
    + assert (0 < IZR z * bpow radix2 (-1080)) by (apply Rmult_lt_0_compat; auto; apply IZR_lt; lia).
      destruct neg; [rewrite Rcompare_Lt by lra|rewrite Rcompare_Gt by lra]; auto.
  - rewrite Rlt_bool_false in BC by auto. destruct (is_finite x) eqn:F; auto. exfalso.
    assert (SF : is_finite_SF (B2SF x) = true) by (rewrite is_finite_SF_B2SF; auto). rewrite BC in SF.
    unfold binary_overflow in SF. cbn in SF. discriminate.
Qed.
