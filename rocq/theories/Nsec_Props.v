(** C18-C20. *)
From Verif Require Import Float64 Round_Model Round_Proofs Nsec_Model Nsec_Proofs.
Open Scope R_scope.

(** C18: the round trip is exact below 2^52 ns (52 days); within 1 ns + 2^-50 |t| up to 2^62 ns (146 years), where the
    conversion is always defined. *)
Theorem sec_nsec_roundtrip :
  (forall t : Z, (Z.abs t < 2 ^ 52)%Z -> secToNsec (nsecToSec t) = Some t) /\
  (forall t : Z, (Z.abs t <= 2 ^ 62)%Z -> exists t', secToNsec (nsecToSec t) = Some t' /\
     Rabs (IZR t' - IZR t) <= 1 + Rabs (IZR t) / 2 ^ 50).
Proof.
  assert (E50 : (2:R) ^ 50 = 1125899906842624) by lra.
  assert (Main : forall t : Z, (Z.abs t <= 2 ^ 62)%Z -> secToNsec (nsecToSec t) = Some (Ztrunc (back t)) /\
     Rabs (IZR (Ztrunc (back t)) - IZR t) <= 1 + Rabs (IZR t) / 2 ^ 50).
  { intros t H. destruct (secToNsec_arg t ltac:(lia)) as [E F].
    pose proof (back_bound t H) as B. pose proof (Ztrunc_err (back t)) as T.
    assert (HT : Rabs (IZR t) <= 4611686018427387904).
    { rewrite <- abs_IZR. apply IZR_le. lia. }
    apply Rabs_le_inv in B. apply Rabs_lt_inv in T. pose proof (Rabs_pos (IZR t)).
    assert (HT' := HT). apply Rabs_le_inv in HT'.
    assert (KK : Rabs (IZR t) / 1125899906842624 <= 4097) by lra.
    split.
    - unfold secToNsec. rewrite cast_int_trunc; auto; rewrite E; auto.
      change (64 - 1)%Z with 63%Z.
      split; [apply le_IZR | apply lt_IZR]; [rewrite opp_IZR|]; change (IZR (2 ^ 63)) with 9223372036854775808; lra.
    - rewrite E50. apply Rabs_le. lra. }
  split.
  - intros t H. destruct (Main t ltac:(lia)) as [E _]. rewrite E, back_trunc; auto.
  - intros t H. destruct (Main t H) as [E B]. eauto.
Qed.

(** Both conversions are monotone. *)
Theorem sec_nsec_monotone :
  (forall t u : Z, (Z.abs t <= 2 ^ 63)%Z -> (Z.abs u <= 2 ^ 63)%Z -> (t <= u)%Z ->
     B2R (nsecToSec t) <= B2R (nsecToSec u)) /\
  (forall x y t u, is_finite x = true -> is_finite y = true -> B2R x <= B2R y ->
     secToNsec x = Some t -> secToNsec y = Some u -> (t <= u)%Z).
Proof.
  split.
  - intros t u Ht Hu H. rewrite (proj1 (nsecToSec_correct t Ht)), (proj1 (nsecToSec_correct u Hu)).
    unfold sec_of. apply rnd_le. apply Rmult_le_compat_r; [pose proof c_bounds; lra|]. apply rnd_le. apply IZR_le; auto.
  - intros x y t u Fx Fy H Ex Ey. unfold secToNsec in *.
    apply cast_int_Some in Ex, Ey. destruct Ex as [F1 ->], Ey as [F2 ->].
    apply Ztrunc_le_mono. destruct lit_e9_correct as [E9 F9].
    destruct (fmul_ext x lit_1e9 Fx F9) as [_ A1]. destruct (fmul_ext y lit_1e9 Fy F9) as [_ A2].
    rewrite ext_finite in A1, A2 by auto. rewrite A1, A2. apply clamp_le.
    apply Rmult_le_compat_r; [rewrite E9; lra|auto].
Qed.

(** Beyond 2^52 the round trip is not exact, and at the top of the int64 range it is undefined. *)
Theorem sec_nsec_limits :
  secToNsec (nsecToSec 8757208318859427) = Some 8757208318859428%Z /\ secToNsec (nsecToSec 9223372036854775807) = None.
Proof. vm_compute. auto. Qed.

(** C19 is false of the code: isValid is inverted. *)
Theorem isValid_refuted : exists t, (-9223372036854775808 <= t <= 9223372036854775807)%Z /\ t <> getInvalidTime /\ isValid t = false.
Proof. exists 0%Z. repeat split; discriminate. Qed.
Theorem isValid_partial : getInvalidTime = (-9223372036854775808)%Z /\ (forall t, isValid t = true <-> t = (-9223372036854775808)%Z) /\
  (forall t, is_int64 t <-> (-9223372036854775808 <= t <= 9223372036854775807)%Z).
Proof.
  split; [reflexivity|]. split; [|intros t; reflexivity]. intros t. unfold isValid. rewrite Z.eqb_eq. change getInvalidTime with (-9223372036854775808)%Z. split; auto.
Qed.

(** C20: with a nanosecond system clock (libstdc++) nothing is lost; with a tick of [p] ns the
    round trip truncates towards zero by less than one tick. *)
Theorem chrono_roundtrip :
  (forall t, is_int64 t -> chronoToNsec 1 (nsecToChrono 1 t) = t) /\
  (forall c, is_int64 c -> nsecToChrono 1 (chronoToNsec 1 c) = c) /\
  (forall p t, (0 < p)%Z -> (Z.abs (chronoToNsec p (nsecToChrono p t) - t) < p)%Z /\
     (Z.abs (chronoToNsec p (nsecToChrono p t)) <= Z.abs t)%Z) /\
  (forall p c, (0 < p)%Z -> nsecToChrono p (chronoToNsec p c) = c).
Proof.
  unfold chronoToNsec, nsecToChrono. repeat split.
  - intros. rewrite Z.quot_1_r. lia.
  - intros. rewrite Z.mul_1_r. apply Z.quot_1_r.
  - pose proof (Z.quot_rem' t p). pose proof (Z.rem_bound_abs t p ltac:(lia)).
    replace (Z.quot t p * p - t)%Z with (- Z.rem t p)%Z by lia. lia.
  - pose proof (Z.quot_rem' t p).
    destruct (Z_le_gt_dec 0 t).
    + pose proof (Z.rem_bound_pos t p ltac:(lia) ltac:(lia)). assert (0 <= Z.quot t p)%Z by (apply Z.quot_pos; lia). nia.
    + assert (E : (Z.quot t p = - Z.quot (- t) p)%Z) by (rewrite Z.quot_opp_l; lia).
      pose proof (Z.quot_rem' (- t) p). pose proof (Z.rem_bound_pos (- t) p ltac:(lia) ltac:(lia)).
      assert (0 <= Z.quot (- t) p)%Z by (apply Z.quot_pos; lia). rewrite E. nia.
  - intros. apply Z.quot_mul. lia.
Qed.

Example ex_sec : secToNsec (nsecToSec 1234567890123456) = Some 1234567890123456%Z /\
  secToNsec (nsecToSec 1385544192123456789) = Some 1385544192123457024%Z.
Proof. vm_compute. auto. Qed.

Print Assumptions sec_nsec_roundtrip.
Print Assumptions sec_nsec_monotone.
Print Assumptions sec_nsec_limits.
Print Assumptions isValid_refuted.
Print Assumptions isValid_partial.
Print Assumptions chrono_roundtrip.
