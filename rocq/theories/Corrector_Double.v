(** C23, C24 in doubles: slope, offset and local time of the timestamp correctors for double and for int64, for timestamps that are whole numbers below
    2^52 (for double: whole numbers of the unit in use). *)
From Coq Require Import Reals Lra Psatz.
From Flocq Require Import Core.
From Verif Require Import Float64 Round_Model Round_Proofs Nsec_Model Nsec_Proofs Quadratic_Props Corrector_Model Corrector_I64 ShowProgress_Props.
Open Scope R_scope.

(** ** Specification: the straight line through two points *)
Definition line_at (x1 y1 x2 y2 r : R) : R := y1 + (y2 - y1) / (x2 - x1) * (r - x1).
(** a double that is a whole number below 2^52 *)
Definition whole (x : f64) : Prop := is_finite x = true /\ exists z, B2R x = IZR z /\ (Z.abs z <= 2 ^ 52)%Z.

(** ** Proofs *)
Notation eps := (bpow radix2 (-53)).
Lemma eps_val : eps = / 9007199254740992. Proof. reflexivity. Qed.
Lemma rnd_err x : x = 0 \/ bpow radix2 (-1022) <= Rabs x -> Rabs (rnd x - x) <= eps * Rabs x.
Proof. intros [-> |H]; [rewrite rnd_0, Rminus_0_r, Rabs_R0; lra | now apply rnd_rel]. Qed.
Lemma ratio_small d a : (0 < a)%Z -> (a <= 2 ^ 53)%Z -> IZR d / IZR a = 0 \/ bpow radix2 (-53) <= Rabs (IZR d / IZR a).
Proof.
  intros A B. destruct (Z.eq_dec d 0) as [-> |N]; [left; unfold Rdiv; ring|]. right.
  assert (A0 : 0 < IZR a) by (apply IZR_lt; lia). unfold Rdiv. rewrite Rabs_mult, (Rabs_pos_eq (/ IZR a)) by (apply Rlt_le, Rinv_0_lt_compat; auto).
  rewrite <- abs_IZR. assert (D1 : 1 <= IZR (Z.abs d)) by (apply IZR_le; lia). rewrite eps_val.
  apply Rle_trans with (1 * / IZR a).
  - rewrite Rmult_1_l. apply Rinv_le_contravar; auto. apply (IZR_le a (2 ^ 53)). exact B.
  - apply Rmult_le_compat_r; auto. apply Rlt_le, Rinv_0_lt_compat; auto.
Qed.
Lemma whole_sub x y : whole x -> whole y -> exists z, B2R (fsub x y) = IZR z /\ IZR z = B2R x - B2R y /\ (Z.abs z <= 2 ^ 53)%Z /\ is_finite (fsub x y) = true.
Proof.
  intros (Fx & a & Ea & La) (Fy & b & Eb & Lb). exists (a - b)%Z. assert (L : (Z.abs (a - b) <= 2 ^ 53)%Z) by (change (2 ^ 53)%Z with (2 ^ 52 + 2 ^ 52)%Z; lia).
  destruct (fsub_fact x y 53 Fx Fy ltac:(lia)) as (F & _ & E).
  { rewrite Ea, Eb, <- minus_IZR, <- abs_IZR, <- (IZR_Zpower radix2) by lia. apply IZR_le. exact L. }
  rewrite E, Ea, Eb, <- minus_IZR. split; [apply rnd_id, format_IZR; exact L|auto].
Qed.
Lemma eps_small : 0 < eps < / 1000.
Proof. rewrite eps_val. split; [apply Rinv_0_lt_compat; lra | apply Rinv_lt_contravar; lra]. Qed.
Lemma tiny : bpow radix2 (-1021) <= eps. Proof. apply bpow_le. lia. Qed.
Lemma sum_err (yz : Z) B E : format64 B -> Rabs (B - E) <= (2 * eps + eps * eps) * Rabs E ->
  Rabs (rnd (IZR yz + B) - (IZR yz + E)) <= eps * (Rabs (IZR yz) + 4 * Rabs E).
Proof.
  intros FB H. destruct eps_small as [E0 E1]. pose proof (Rabs_pos E) as PE. pose proof (Rabs_pos (IZR yz)) as PY.
  assert (LB : Rabs B <= (1 + eps) * (1 + eps) * Rabs E).
  { replace B with ((B - E) + E) by ring. apply Rle_trans with (1 := Rabs_triang _ _). nra. }
  assert (S1 : Rabs (rnd (IZR yz + B) - (IZR yz + B)) <= eps * (Rabs (IZR yz) + Rabs B)).
  { destruct (Z.eq_dec yz 0) as [-> |NZ].
    - rewrite Rplus_0_l, (rnd_id B FB), Rminus_diag_eq, Rabs_R0 by reflexivity. pose proof (Rabs_pos B). nra.
    - assert (Y1 : 1 <= Rabs (IZR yz)) by (rewrite <- abs_IZR; apply IZR_le; lia).
      destruct (Rle_or_lt (bpow radix2 (-1022)) (Rabs (IZR yz + B))) as [L|L].
      + apply Rle_trans with (1 := rnd_rel _ L). apply Rmult_le_compat_l; [lra|apply Rabs_triang].
      + assert (R1 : Rabs (rnd (IZR yz + B)) <= bpow radix2 (-1021)).
        { apply rnd_abs_le; [lia|]. apply Rle_trans with (bpow radix2 (-1022)); [lra|apply bpow_le; lia]. }
        assert (T : bpow radix2 (-1022) + bpow radix2 (-1021) <= eps).
        { apply Rle_trans with (bpow radix2 (-1021) + bpow radix2 (-1021)); [apply Rplus_le_compat_r, bpow_le; lia|].
          replace (bpow radix2 (-1021) + bpow radix2 (-1021)) with (bpow radix2 (1 + -1021)) by (rewrite bpow_plus; change (bpow radix2 1) with 2; ring). apply bpow_le. lia. }
        unfold Rminus. apply Rle_trans with (1 := Rabs_triang _ _). rewrite Rabs_Ropp. pose proof (Rabs_pos B). nra. }
  replace (rnd (IZR yz + B) - (IZR yz + E)) with ((rnd (IZR yz + B) - (IZR yz + B)) + (B - E)) by ring.
  apply Rle_trans with (1 := Rabs_triang _ _).
  assert (X : (1 + eps) * (1 + eps) + (2 + eps) <= 4) by nra.
  apply Rle_trans with (eps * (Rabs (IZR yz) + (1 + eps) * (1 + eps) * Rabs E) + (2 * eps + eps * eps) * Rabs E).
  { apply Rplus_le_compat; auto. apply Rle_trans with (1 := S1). apply Rmult_le_compat_l; lra. }
  replace (eps * (Rabs (IZR yz) + (1 + eps) * (1 + eps) * Rabs E) + (2 * eps + eps * eps) * Rabs E) with (eps * (Rabs (IZR yz) + ((1 + eps) * (1 + eps) + (2 + eps)) * Rabs E)) by ring.
  apply Rmult_le_compat_l; [lra|]. apply Rplus_le_compat_l. apply Rmult_le_compat_r; auto.
Qed.
Lemma rnd_ge_eps x : x = 0 \/ eps <= Rabs x -> rnd x = 0 \/ eps <= Rabs (rnd x).
Proof.
  intros [-> |H]; [left; apply rnd_0|right]. assert (F : format64 eps) by (apply generic_format_bpow; unfold SpecFloat.fexp, SpecFloat.emin; lia).
  unfold Rabs in H. destruct (Rcase_abs x) as [N|N].
  - assert (rnd x <= - eps). { rewrite <- (rnd_id (- eps)) by (now apply generic_format_opp). apply rnd_le. lra. }
    destruct eps_small. rewrite Rabs_left1 by lra. lra.
  - assert (eps <= rnd x). { rewrite <- (rnd_id eps F) at 1. apply rnd_le. lra. } rewrite Rabs_right; [lra|]. destruct eps_small. lra.
Qed.
Lemma prod_ge a b : a = 0 \/ eps <= Rabs a -> b = 0 \/ 1 <= Rabs b -> a * b = 0 \/ eps <= Rabs (a * b).
Proof.
  intros [-> |A] [-> |B]; [left; ring | left; ring | left; ring|]. right. rewrite Rabs_mult. destruct eps_small.
  replace eps with (eps * 1) by ring. apply Rmult_le_compat; lra.
Qed.
Lemma int_ge z : IZR z = 0 \/ 1 <= Rabs (IZR z).
Proof. destruct (Z.eq_dec z 0) as [-> |N]; [left; reflexivity|right]. rewrite <- abs_IZR. apply IZR_le. lia. Qed.
Lemma ge_eps_tiny x : x = 0 \/ eps <= Rabs x -> x = 0 \/ bpow radix2 (-1022) <= Rabs x.
Proof. intros [->|H]; auto. right. apply Rle_trans with (2 := H). apply bpow_le. lia. Qed.
Lemma int_bound z e : (0 <= e)%Z -> (Z.abs z <= 2 ^ e)%Z -> Rabs (IZR z) <= bpow radix2 e.
Proof. intros P H. rewrite <- abs_IZR, <- (IZR_Zpower radix2) by lia. apply IZR_le. exact H. Qed.
Lemma ratio_bound dy dx : (Z.abs dy <= 2 ^ 53)%Z -> (0 < dx)%Z -> Rabs (IZR dy / IZR dx) <= bpow radix2 53.
Proof.
  intros A B. assert (D : 1 <= IZR dx) by (apply IZR_le; lia). unfold Rdiv. rewrite Rabs_mult, (Rabs_pos_eq (/ IZR dx)) by (apply Rlt_le, Rinv_0_lt_compat; lra).
  pose proof (int_bound dy 53 ltac:(lia) A) as X. apply Rle_trans with (Rabs (IZR dy)); auto.
  apply Rmult_le_reg_r with (IZR dx); [lra|]. rewrite Rmult_assoc, Rinv_l by lra. pose proof (Rabs_pos (IZR dy)). nra.
Qed.

(** the slope *)
Lemma slope_err (Y X : f64) dy dx : is_finite Y = true -> is_finite X = true -> B2R Y = IZR dy -> B2R X = IZR dx ->
  (Z.abs dy <= 2 ^ 53)%Z -> (0 < dx <= 2 ^ 53)%Z ->
  is_finite (fdiv Y X) = true /\ B2R (fdiv Y X) = rnd (IZR dy / IZR dx) /\ Rabs (B2R (fdiv Y X) - IZR dy / IZR dx) <= eps * Rabs (IZR dy / IZR dx).
Proof.
  intros FY FX EY EX A B. pose proof (ratio_bound dy dx A (proj1 B)) as RB.
  destruct (fdiv_fact Y X 53 FY FX) as (F & _ & E); [rewrite EX; apply not_0_IZR; lia | lia | rewrite EY, EX; exact RB|].
  rewrite E, EY, EX. split; auto. split; auto. apply rnd_err. apply ge_eps_tiny. apply ratio_small; lia.
Qed.
(** the line *)
Lemma line_err (Y1 Y X Q : f64) y1 dy dx dr : is_finite Y1 = true -> is_finite Y = true -> is_finite X = true -> is_finite Q = true ->
  B2R Y1 = IZR y1 -> B2R Y = IZR dy -> B2R X = IZR dx -> B2R Q = IZR dr ->
  (Z.abs y1 <= 2 ^ 53)%Z -> (Z.abs dy <= 2 ^ 53)%Z -> (0 < dx <= 2 ^ 53)%Z -> (Z.abs dr <= 2 ^ 53)%Z ->
  let E := IZR dy / IZR dx * IZR dr in
  is_finite (fadd Y1 (fmul (fdiv Y X) Q)) = true /\
  Rabs (B2R (fadd Y1 (fmul (fdiv Y X) Q)) - (IZR y1 + E)) <= eps * (Rabs (IZR y1) + 4 * Rabs E).
Proof.
  intros F1 FY FX FQ E1 EY EX EQ B1 B2 B3 B4 E. destruct eps_small as [E0 E1'].
  destruct (slope_err Y X dy dx FY FX EY EX B2 B3) as (FS & ES & SE). pose proof (ratio_bound dy dx B2 (proj1 B3)) as RB.
  set (s := IZR dy / IZR dx) in *. set (S := rnd s) in *. pose proof (rnd_abs_le s 53 ltac:(lia) RB) as SB. fold S in SB.
  assert (PB : Rabs (S * IZR dr) <= bpow radix2 106).
  { change 106%Z with (53 + 53)%Z. rewrite bpow_plus, Rabs_mult. apply Rmult_le_compat; auto using Rabs_pos. apply int_bound; auto. lia. }
  destruct (fmul_fact (fdiv Y X) Q 106 FS FQ ltac:(lia)) as (FM & MB & EM); [rewrite ES, EQ; exact PB|]. rewrite ES, EQ in EM.
  assert (PE : Rabs (B2R (fmul (fdiv Y X) Q) - S * IZR dr) <= eps * Rabs (S * IZR dr)).
  { rewrite EM. apply rnd_err. apply ge_eps_tiny. apply prod_ge; [|apply int_ge]. apply rnd_ge_eps, ratio_small; lia. }
  rewrite ES in SE. set (P := B2R (fmul (fdiv Y X) Q)) in *.
  assert (BE : Rabs (P - E) <= (2 * eps + eps * eps) * Rabs E).
  { assert (X1 : Rabs (S * IZR dr - E) <= eps * Rabs E).
    { unfold E. replace (S * IZR dr - s * IZR dr) with ((S - s) * IZR dr) by ring. rewrite !Rabs_mult. pose proof (Rabs_pos (IZR dr)). nra. }
    assert (X2 : Rabs (S * IZR dr) <= (1 + eps) * Rabs E).
    { replace (S * IZR dr) with ((S * IZR dr - E) + E) by ring. apply Rle_trans with (1 := Rabs_triang _ _). lra. }
    replace (P - E) with ((P - S * IZR dr) + (S * IZR dr - E)) by ring. apply Rle_trans with (1 := Rabs_triang _ _). nra. }
  assert (AB : Rabs (B2R Y1 + P) <= bpow radix2 107).
  { rewrite E1. apply Rle_trans with (1 := Rabs_triang _ _). change 107%Z with (1 + 106)%Z. rewrite bpow_plus. change (bpow radix2 1) with 2.
    pose proof (int_bound y1 53 ltac:(lia) B1) as I1. assert (bpow radix2 53 <= bpow radix2 106) by (apply bpow_le; lia). lra. }
  destruct (fadd_ext Y1 (fmul (fdiv Y X) Q) F1 FM) as [NA XA]. fold P in XA. pose proof (rnd_abs_le _ 107 ltac:(lia) AB) as RA.
  assert (L : Rabs (rnd (B2R Y1 + P)) < OMEGA) by (apply Rle_lt_trans with (1 := RA); apply bpow_lt; lia).
  rewrite clamp_small in XA by exact L. assert (FA : is_finite (fadd Y1 (fmul (fdiv Y X) Q)) = true) by (apply finite_of_ext; auto; rewrite XA; exact L).
  rewrite ext_finite in XA by auto. split; auto. rewrite XA, E1. apply sum_err; auto. unfold P. apply fin_format.
Qed.
(** the offset *)
Lemma offset_err (Y1 N Y X : f64) y1 x1 dy dx : is_finite Y1 = true -> is_finite N = true -> is_finite Y = true -> is_finite X = true ->
  B2R Y1 = IZR y1 -> B2R N = IZR (- x1) -> B2R Y = IZR dy -> B2R X = IZR dx ->
  (Z.abs y1 <= 2 ^ 53)%Z -> (Z.abs x1 <= 2 ^ 53)%Z -> (Z.abs dy <= 2 ^ 53)%Z -> (0 < dx <= 2 ^ 53)%Z ->
  let E := IZR dy / IZR dx * (- IZR x1) in
  is_finite (fadd Y1 (fdiv (fmul N Y) X)) = true /\
  Rabs (B2R (fadd Y1 (fdiv (fmul N Y) X)) - (IZR y1 + E)) <= eps * (Rabs (IZR y1) + 4 * Rabs E).
Proof.
  intros F1 FN FY FX E1 EN EY EX B1 B2 B3 B4 E. destruct eps_small as [E0 E1'].
  assert (DX : 1 <= IZR dx) by (apply IZR_le; lia).
  set (m := IZR (- x1) * IZR dy).
  assert (MI : m = IZR (- x1 * dy)) by (unfold m; now rewrite mult_IZR).
  assert (PB : Rabs m <= bpow radix2 106).
  { unfold m. change 106%Z with (53 + 53)%Z. rewrite bpow_plus, Rabs_mult. apply Rmult_le_compat; auto using Rabs_pos; apply int_bound; auto; lia. }
  destruct (fmul_fact N Y 106 FN FY ltac:(lia)) as (FM & MB & EM); [rewrite EN, EY; exact PB|]. rewrite EN, EY in EM. fold m in EM.
  set (M := B2R (fmul N Y)) in *.
  assert (ME : Rabs (M - m) <= eps * Rabs m).
  { rewrite EM. apply rnd_err, ge_eps_tiny. rewrite MI. destruct (int_ge (- x1 * dy)) as [Z|G]; auto. right. lra. }
  assert (MG : M = 0 \/ 1 <= Rabs M).
  { rewrite EM, MI. destruct (Z.eq_dec (- x1 * dy) 0) as [-> |NZ]; [left; apply rnd_0|right]. destruct (Z_lt_le_dec (- x1 * dy) 0) as [L|L].
    - assert (rnd (IZR (- x1 * dy)) <= -1). { rewrite <- (rnd_id (-1)) by (apply (format_IZR (-1)); lia). apply rnd_le. apply IZR_le. lia. } rewrite Rabs_left1; lra.
    - assert (1 <= rnd (IZR (- x1 * dy))). { rewrite <- (rnd_id 1) by (apply (format_IZR 1); lia). apply rnd_le. apply IZR_le. lia. } rewrite Rabs_right; lra. }
  assert (IV : 0 < / IZR dx <= 1).
  { split; [apply Rinv_0_lt_compat; lra|]. apply Rle_trans with (/ 1); [apply Rinv_le_contravar; lra | rewrite Rinv_1; lra]. }
  assert (IE : eps <= / IZR dx). { rewrite eps_val. apply Rinv_le_contravar; [lra|]. apply (IZR_le dx (2 ^ 53)). lia. }
  assert (QB : Rabs (M / IZR dx) <= bpow radix2 106).
  { unfold Rdiv. rewrite Rabs_mult, (Rabs_pos_eq (/ IZR dx)) by lra. pose proof (Rabs_pos M). nra. }
  destruct (fdiv_fact (fmul N Y) X 106 FM FX) as (FQ & QB' & EQ); [rewrite EX; lra | lia | rewrite EX; exact QB|]. rewrite EX in EQ. fold M in EQ.
  set (P := B2R (fdiv (fmul N Y) X)) in *.
  assert (PE : Rabs (P - M / IZR dx) <= eps * Rabs (M / IZR dx)).
  { rewrite EQ. apply rnd_err, ge_eps_tiny. destruct MG as [Z|G]; [left; rewrite Z; unfold Rdiv; ring|right].
    unfold Rdiv. rewrite Rabs_mult, (Rabs_pos_eq (/ IZR dx)) by lra. nra. }
  assert (EE : E = m / IZR dx). { unfold E, m. rewrite opp_IZR. unfold Rdiv. ring. }
  assert (BE : Rabs (P - E) <= (2 * eps + eps * eps) * Rabs E).
  { assert (X1 : Rabs (M / IZR dx - E) <= eps * Rabs E).
    { rewrite EE. replace (M / IZR dx - m / IZR dx) with ((M - m) * / IZR dx) by (unfold Rdiv; ring). unfold Rdiv. rewrite !Rabs_mult, (Rabs_pos_eq (/ IZR dx)) by lra.
      pose proof (Rabs_pos m). nra. }
    assert (X2 : Rabs (M / IZR dx) <= (1 + eps) * Rabs E).
    { replace (M / IZR dx) with ((M / IZR dx - E) + E) by ring. apply Rle_trans with (1 := Rabs_triang _ _). lra. }
    replace (P - E) with ((P - M / IZR dx) + (M / IZR dx - E)) by ring. apply Rle_trans with (1 := Rabs_triang _ _). nra. }
  assert (AB : Rabs (B2R Y1 + P) <= bpow radix2 107).
  { rewrite E1. apply Rle_trans with (1 := Rabs_triang _ _). change 107%Z with (1 + 106)%Z. rewrite bpow_plus. change (bpow radix2 1) with 2.
    pose proof (int_bound y1 53 ltac:(lia) B1) as I1. assert (bpow radix2 53 <= bpow radix2 106) by (apply bpow_le; lia). lra. }
  destruct (fadd_ext Y1 (fdiv (fmul N Y) X) F1 FQ) as [NA XA]. fold P in XA. pose proof (rnd_abs_le _ 107 ltac:(lia) AB) as RA.
  assert (L : Rabs (rnd (B2R Y1 + P)) < OMEGA) by (apply Rle_lt_trans with (1 := RA); apply bpow_lt; lia).
  rewrite clamp_small in XA by exact L. assert (FA : is_finite (fadd Y1 (fdiv (fmul N Y) X)) = true) by (apply finite_of_ext; auto; rewrite XA; exact L).
  rewrite ext_finite in XA by auto. split; auto. rewrite XA, E1. apply sum_err; auto. unfold P. apply fin_format.
Qed.

(** ** The correctors *)
(** The two hull points a corrector uses. *)
Definition uses {T : TimeType} (c : core T) (x1 y1 x2 y2 : time_t T) : Prop :=
  nth_error (points c) (mid c) = Some (mkP x1 y1) /\ nth_error (points c) (S (mid c)) = Some (mkP x2 y2).
Lemma uses_segment {T : TimeType} (c : core T) x1 y1 x2 y2 : uses c x1 y1 x2 y2 ->
  Nat.ltb (length (hull c)) 2 = false /\ segment c = Some (mkP x1 y1, mkP x2 y2).
Proof.
  intros [A B]. split.
  - apply Nat.ltb_ge. assert (L : (S (mid c) < length (points c))%nat) by (apply nth_error_Some; congruence). unfold points in L. rewrite rev_length in L. lia.
  - unfold segment. rewrite A, B. reflexivity.
Qed.
(** The double corrector: when it uses the hull points (x1, y1) and (x2, y2), with x1 < x2 and all numbers whole, slope, offset and local time
    are those of the exact line up to a few units in the last place. *)
Theorem corrector_double_exact (c : core F64Time) (x1 y1 x2 y2 r : f64) : uses c x1 y1 x2 y2 ->
  whole x1 -> whole y1 -> whole x2 -> whole y2 -> whole r -> B2R x1 < B2R x2 ->
  let k := (B2R y2 - B2R y1) / (B2R x2 - B2R x1) in
  (exists s, getSlope c = Ret s tt /\ Rabs (B2R s - k) <= eps * Rabs k) /\
  (exists o, getOffset c = Ret o tt /\ Rabs (B2R o - line_at (B2R x1) (B2R y1) (B2R x2) (B2R y2) 0) <= eps * (Rabs (B2R y1) + 4 * Rabs (k * B2R x1))) /\
  (exists t, getLocalTime c r = Ret t tt /\
     Rabs (B2R t - line_at (B2R x1) (B2R y1) (B2R x2) (B2R y2) (B2R r)) <= eps * (Rabs (B2R y1) + 4 * Rabs (k * (B2R r - B2R x1)))).
Proof.
  intros U W1 W2 W3 W4 W5 LT k. destruct (uses_segment c _ _ _ _ U) as [L S].
  destruct (whole_sub y2 y1 W4 W2) as (dy & Ey & Dy & By & Fy). destruct (whole_sub x2 x1 W3 W1) as (dx & Ex & Dx & Bx & Fx).
  destruct (whole_sub r x1 W5 W1) as (dr & Er & Dr & Br & Fr).
  destruct W1 as (F1 & z1 & E1 & L1). destruct W2 as (F2 & z2 & E2 & L2).
  assert (PX : (0 < dx <= 2 ^ 53)%Z). { split; [apply lt_IZR; lra|lia]. }
  assert (K : k = IZR dy / IZR dx) by (unfold k; rewrite Dy, Dx; reflexivity).
  assert (L53 : forall z, (Z.abs z <= 2 ^ 52)%Z -> (Z.abs z <= 2 ^ 53)%Z) by (intros z Hz; change (2 ^ 53)%Z with (2 * 2 ^ 52)%Z; lia).
  split; [|split].
  - unfold getSlope. rewrite L, S. cbn. eexists. split; [reflexivity|]. rewrite K. apply (slope_err _ _ dy dx); auto.
  - unfold getOffset. rewrite L, S. cbn. eexists. split; [reflexivity|].
    destruct (offset_err y1 (fneg x1) (fsub y2 y1) (fsub x2 x1) z2 z1 dy dx) as [_ O]; auto.
    { unfold fneg. now rewrite is_finite_Bopp. }
    { unfold fneg. rewrite B2R_Bopp, E1, opp_IZR. reflexivity. }
    unfold line_at. fold k. rewrite K, E2, E1. replace (IZR dy / IZR dx * (0 - IZR z1)) with (IZR dy / IZR dx * - IZR z1) by ring.
    replace (Rabs (IZR dy / IZR dx * IZR z1)) with (Rabs (IZR dy / IZR dx * - IZR z1)); [exact O|]. rewrite <- Rabs_Ropp. f_equal. ring.
  - unfold getLocalTime. rewrite L, S. cbn. eexists. split; [reflexivity|].
    destruct (line_err y1 (fsub y2 y1) (fsub x2 x1) (fsub r x1) z2 dy dx dr) as [_ O]; auto.
    unfold line_at. fold k. rewrite K, <- Dr, E2. exact O.
Qed.
(** The int64 corrector: slope and offset are doubles; the local time is the truncation of the double, when that is an int64. *)
Theorem corrector_int64_exact (c : core I64Time) (x1 y1 x2 y2 r : Z) : uses c x1 y1 x2 y2 ->
  (Z.abs x1 <= 2 ^ 52)%Z -> (Z.abs y1 <= 2 ^ 52)%Z -> (Z.abs x2 <= 2 ^ 52)%Z -> (Z.abs y2 <= 2 ^ 52)%Z -> (Z.abs r <= 2 ^ 52)%Z -> (x1 < x2)%Z ->
  let k := (IZR y2 - IZR y1) / (IZR x2 - IZR x1) in
  (exists s, getSlope c = Ret s tt /\ Rabs (B2R s - k) <= eps * Rabs k) /\
  (exists o, getOffset c = Ret o tt /\ Rabs (B2R o - line_at (IZR x1) (IZR y1) (IZR x2) (IZR y2) 0) <= eps * (Rabs (IZR y1) + 4 * Rabs (k * IZR x1))) /\
  (forall t, getLocalTime c r = Ret t tt ->
     Rabs (IZR t - line_at (IZR x1) (IZR y1) (IZR x2) (IZR y2) (IZR r)) < 1 + eps * (Rabs (IZR y1) + 4 * Rabs (k * (IZR r - IZR x1)))) /\
  (Rabs (line_at (IZR x1) (IZR y1) (IZR x2) (IZR y2) (IZR r)) <= IZR (2 ^ 62) -> exists t, getLocalTime c r = Ret t tt).
Proof.
  intros U B1 B2 B3 B4 B5 LT k. destruct (uses_segment c _ _ _ _ U) as [L S].
  change (2 ^ 52)%Z with 4503599627370496%Z in *.
  assert (CK : forall z, (Z.abs z <= 9007199254740992)%Z -> chk64 z = Some z).
  { intros z Hz. unfold chk64. replace ((- 2 ^ 63 <=? z)%Z && (z <? 2 ^ 63)%Z)%bool with true; auto. symmetry. apply andb_true_iff. split; [apply Z.leb_le | apply Z.ltb_lt]; lia. }
  assert (FZ : forall z, (Z.abs z <= 9007199254740992)%Z -> B2R (fofZ z) = IZR z /\ is_finite (fofZ z) = true) by (intros z Hz; apply fofZ_correct; exact Hz).
  set (dy := (y2 - y1)%Z) in *. set (dx := (x2 - x1)%Z) in *. set (dr := (r - x1)%Z) in *.
  assert (By : (Z.abs dy <= 9007199254740992)%Z) by (unfold dy; lia). assert (Bx : (0 < dx <= 9007199254740992)%Z) by (unfold dx; lia).
  assert (Br : (Z.abs dr <= 9007199254740992)%Z) by (unfold dr; lia).
  assert (K : k = IZR dy / IZR dx) by (unfold k, dy, dx; rewrite !minus_IZR; reflexivity).
  destruct (FZ dy By) as [Ey Fy]. destruct (FZ dx ltac:(lia)) as [Ex Fx]. destruct (FZ dr Br) as [Er Fr]. destruct (FZ y1 ltac:(lia)) as [E1 F1].
  destruct (FZ (- x1)%Z ltac:(lia)) as [En Fn].
  split; [|split; [|split]].
  - unfold getSlope. rewrite L, S. cbn. fold dy dx. rewrite !CK by lia. cbn. eexists. split; [reflexivity|]. rewrite K. apply (slope_err _ _ dy dx); auto.
  - unfold getOffset. rewrite L, S. cbn. fold dy dx. rewrite !CK by lia. cbn. eexists. split; [reflexivity|].
    destruct (offset_err (fofZ y1) (fofZ (- x1)) (fofZ dy) (fofZ dx) y1 x1 dy dx) as [_ O]; auto; try (change (2 ^ 53)%Z with 9007199254740992%Z; lia).
    unfold line_at. fold k. rewrite K. replace (IZR dy / IZR dx * (0 - IZR x1)) with (IZR dy / IZR dx * - IZR x1) by ring.
    replace (Rabs (IZR dy / IZR dx * IZR x1)) with (Rabs (IZR dy / IZR dx * - IZR x1)); [exact O|]. rewrite <- Rabs_Ropp. f_equal. ring.
  - intros t. unfold getLocalTime. rewrite L, S. cbn. fold dy dx dr. rewrite !CK by lia. cbn.
    destruct (line_err (fofZ y1) (fofZ dy) (fofZ dx) (fofZ dr) y1 dy dx dr) as [FO O]; auto; try (change (2 ^ 53)%Z with 9007199254740992%Z; lia).
    set (v := fadd (fofZ y1) (fmul (fdiv (fofZ dy) (fofZ dx)) (fofZ dr))) in *.
    destruct (cast_int 64 v) as [t'|] eqn:CI; [|discriminate]. intros X. injection X as ->.
    assert (T : t = Ztrunc (B2R v)). { exact (proj2 (cast_int_Some _ _ _ CI)). }
    assert (TR : Rabs (IZR (Ztrunc (B2R v)) - B2R v) < 1). { set (x := B2R v). destruct (Rle_or_lt 0 x) as [P | P].
      - rewrite Ztrunc_floor by exact P. pose proof (Zfloor_lb x). pose proof (Zfloor_ub x). apply Rabs_def1; lra.
      - rewrite Ztrunc_ceil by lra. unfold Zceil. pose proof (Zfloor_lb (- x)). pose proof (Zfloor_ub (- x)). rewrite opp_IZR. apply Rabs_def1; lra. }
    unfold line_at. fold k. rewrite K. replace (IZR r - IZR x1) with (IZR dr) by (unfold dr; apply minus_IZR).
    rewrite T. replace (IZR (Ztrunc (B2R v)) - (IZR y1 + IZR dy / IZR dx * IZR dr)) with ((IZR (Ztrunc (B2R v)) - B2R v) + (B2R v - (IZR y1 + IZR dy / IZR dx * IZR dr))) by ring.
    apply Rle_lt_trans with (1 := Rabs_triang _ _). apply Rplus_lt_le_compat; [exact TR | exact O].
  - unfold getLocalTime. rewrite L, S. cbn. fold dy dx dr. rewrite !CK by lia. cbn.
    destruct (line_err (fofZ y1) (fofZ dy) (fofZ dx) (fofZ dr) y1 dy dx dr) as [FO O]; auto; try (change (2 ^ 53)%Z with 9007199254740992%Z; lia).
    set (v := fadd (fofZ y1) (fmul (fdiv (fofZ dy) (fofZ dx)) (fofZ dr))) in *.
    unfold line_at. fold k. rewrite K. replace (IZR r - IZR x1) with (IZR dr) by (unfold dr; apply minus_IZR). intros H.
    set (q := IZR dy / IZR dx * IZR dr) in *. assert (Y : Rabs (IZR y1) <= 4503599627370496) by (rewrite <- abs_IZR; apply IZR_le; exact B2).
    rewrite eps_val in O. change (2 ^ 62)%Z with 4611686018427387904%Z in H.
    assert (V : - 9223372036854775807 < B2R v < 9223372036854775807). { assert (Q : Rabs q <= 4616189618054758400).
      { replace q with ((IZR y1 + q) - IZR y1) by ring. unfold Rminus. apply Rle_trans with (1 := Rabs_triang _ _). rewrite Rabs_Ropp. lra. }
      assert (O' : Rabs (B2R v - (IZR y1 + q)) <= 4096) by lra.
      apply Rabs_le_inv in O'. apply Rabs_le_inv in H. lra. }
    rewrite cast_int_trunc; [eexists; reflexivity | exact FO |]. change (2 ^ (64 - 1))%Z with 9223372036854775808%Z.
    assert (A : (-9223372036854775807 <= Ztrunc (B2R v))%Z) by (rewrite <- (Ztrunc_IZR (-9223372036854775807)); apply Ztrunc_le; lra).
    assert (B : (Ztrunc (B2R v) <= 9223372036854775807)%Z) by (rewrite <- (Ztrunc_IZR 9223372036854775807); apply Ztrunc_le; lra). lia.
Qed.
(** A corrector fed three points: it uses the segment from (10, 1000) to (20, 1100). *)
Example corrector_int64_uses : exists c, match correctTimestamp (newCorrector I64Time) (10 : time_t I64Time)%Z 1000%Z with
    | Ret _ c1 => match correctTimestamp c1 (20 : time_t I64Time)%Z 1100%Z with
        | Ret _ c2 => main c2 = c | _ => False end | _ => False end /\ uses c (10 : time_t I64Time)%Z 1000%Z 20%Z 1100%Z.
Proof. eexists. split; [reflexivity|]. split; reflexivity. Qed.
Example corrector_double_uses : exists c, match correctTimestamp (newCorrector F64Time) (fofZ 10 : time_t F64Time) (fofZ 1000) with
    | Ret _ c1 => match correctTimestamp c1 (fofZ 20 : time_t F64Time) (fofZ 1100) with
        | Ret _ c2 => main c2 = c | _ => False end | _ => False end /\ uses c (fofZ 10 : time_t F64Time) (fofZ 1000) (fofZ 20) (fofZ 1100).
Proof. eexists. split; [reflexivity|]. split; reflexivity. Qed.
