(** C152: the Jacobian of EulerRodriguez' angular velocity in binary64. *)
From Coq Require Import Reals Psatz List Permutation.
From Verif Require GTest_Props DenseN Unc_FloatModel Unc_FloatProps.
From Verif Require Import Float64 Nsec_Proofs TimerTable_Num Round_Proofs Kin_Angle_Props Kin_Float_Model Kin_FloatExp_Model Kin_FloatR_Model Kin_FloatMat_Model Kin_FloatS_Model Kin_FloatER_Model.
From Verif Require Import LinAlg Kin_Quat_Props Kin_Trans_Model Kin_Trans_Props Kin_Rot_Model Kin_Rot_Props Kin_Float_Geom Kin_Float_Num Kin_Float_Props Kin_Float_Matrix Kin_FloatR_Props Kin_FloatExp_Props Kin_FloatMat_Props Kin_FloatS_Props.
Import ListNotations.
Open Scope R_scope.

Lemma round_step (x X B e : R) : Rabs (x - X) <= e -> Rabs X <= B -> Rabs (rnd x - X) <= e + u * (B + e) + eta.
Proof.
  intros E M. pose proof u53_pos as UP. pose proof (rnd_err x) as R.
  assert (Rabs x <= B + e) by (replace x with ((x - X) + X) by ring; apply Rle_trans with (1 := Rabs_triang _ _); lra).
  assert (u * Rabs x <= u * (B + e)) by (apply Rmult_le_compat_l; lra).
  replace (rnd x - X) with ((rnd x - x) + (x - X)) by ring. apply Rle_trans with (1 := Rabs_triang _ _). lra.
Qed.
Lemma prod_step (x X y Y e d A B : R) : Rabs (x - X) <= e -> Rabs (y - Y) <= d -> Rabs X <= A -> Rabs Y <= B -> Rabs (x * y - X * Y) <= e * (B + d) + A * d.
Proof.
  intros E D MX MY. replace (x * y - X * Y) with ((x - X) * y + X * (y - Y)) by ring. apply Rle_trans with (1 := Rabs_triang _ _). rewrite !Rabs_mult.
  assert (Rabs y <= B + d) by (replace y with ((y - Y) + Y) by ring; apply Rle_trans with (1 := Rabs_triang _ _); lra).
  apply Rplus_le_compat; apply Rmult_le_compat; auto using Rabs_pos.
Qed.
Lemma eta_le k : (-1075 <= k)%Z -> eta <= bpow radix2 k. Proof. intros. apply bpow_le. lia. Qed.

(** the vector a *)
Lemma er_a_comp (rd x : f64) r n : is_finite rd = true -> is_finite x = true -> 0 < r <= 1 -> bpow radix2 (-202) <= r -> Rabs (2 * B2R rd - 2 * r) <= 74 / 10 * (u * (2 * r)) -> Rabs (B2R x) <= n -> n <= bpow radix2 100 ->
  let b := fmul (fmul (fmul (fofZ (-4)) rd) rd) x in is_finite b = true /\ Rabs (B2R b - - 4 * r * r * B2R x) <= 185 / 10 * u * (4 * r * r * Rabs (B2R x)) + eta.
Proof.
  intros FR FX [R0 R1] RL E X N. cbv zeta. pose proof u53_pos as UP. pose proof u_val as UV. pose proof eta_pos as EP. destruct (fofZ_correct (-4) ltac:(lia)) as [V4 F4].
  assert (ED : Rabs (B2R rd - r) <= 74 / 10 * (u * r)) by (apply Rabs_le_inv in E; apply Rabs_le; lra).
  assert (UR : 0 < u * r) by (apply Rmult_lt_0_compat; lra). assert (URS : u * r <= / 100000 * r) by (apply Rmult_le_compat_r; rewrite ?UV; lra).
  assert (ER2 : eta <= / 1000 * (u * (r * r))).
  { assert (RR : bpow radix2 (-404) <= r * r) by (change (-404)%Z with (-202 + -202)%Z; rewrite bpow_plus; pose proof (bpow_ge_0 radix2 (-202)); apply Rmult_le_compat; lra).
    assert (U1 : bpow radix2 (-64) <= / 1000 * u) by (rewrite UV; replace (bpow radix2 (-64)) with (/ 18446744073709551616) by (cbn; lra); lra).
    apply Rle_trans with (bpow radix2 (-64) * bpow radix2 (-404)); [rewrite <- bpow_plus; apply bpow_le; lia|]. rewrite <- Rmult_assoc. pose proof (bpow_ge_0 radix2 (-64)). pose proof (bpow_ge_0 radix2 (-404)). apply Rmult_le_compat; lra. }
  assert (RSQ : 0 < r * r <= r) by (split; [apply Rmult_lt_0_compat; lra|replace r with (r * 1) at 3 by ring; apply Rmult_le_compat_l; lra]).
  assert (URR : 0 < u * (r * r)) by (apply Rmult_lt_0_compat; lra).
  assert (ER1 : eta <= / 1000 * (u * r)) by (apply Rle_trans with (1 := ER2); apply Rmult_le_compat_l; [lra|]; apply Rmult_le_compat_l; lra).
  assert (RB : Rabs (B2R rd) <= 1001 / 1000) by (apply Rabs_le_inv in ED; apply Rabs_le; lra).
  (* -4.0 * rd *)
  destruct (fmul_rnd (fofZ (-4)) rd 3 F4 FR ltac:(lia)) as [V1 F1]; [rewrite V4, <- room8, Rabs_mult; rewrite (Rabs_left (-4)) by lra; lra|]. rewrite V4 in V1. set (x1 := fmul (fofZ (-4)) rd) in *. clearbody x1.
  assert (E1 : Rabs (B2R x1 - - 4 * r) <= 341 / 10 * (u * r)).
  { rewrite V1. eapply Rle_trans; [apply (round_step _ _ (4 * r) (296 / 10 * (u * r)))|].
    - replace (-4 * B2R rd - - 4 * r) with (- 4 * (B2R rd - r)) by ring. rewrite Rabs_mult, (Rabs_left (-4)) by lra. lra.
    - rewrite Rabs_left by lra. lra.
    - assert (u * (4 * r + 296 / 10 * (u * r)) <= u * (4 * r + 1 / 10 * r)) by (apply Rmult_le_compat_l; lra). lra. }
  assert (B1 : Rabs (B2R x1) <= 41 / 10) by (apply Rabs_le_inv in E1; apply Rabs_le; lra).
  (* (-4.0 * rd) * rd *)
  destruct (fmul_rnd x1 rd 3 F1 FR ltac:(lia)) as [V2 F2]; [rewrite <- room8, Rabs_mult; apply Rle_trans with (41 / 10 * (1001 / 1000)); [apply Rmult_le_compat; auto using Rabs_pos|lra]|]. set (c := fmul x1 rd) in *. clearbody c.
  assert (E2 : Rabs (B2R c - - 4 * r * r) <= 685 / 10 * (u * (r * r))).
  { rewrite V2. eapply Rle_trans; [apply (round_step _ _ (4 * (r * r)) (641 / 10 * (u * (r * r))))|].
    - eapply Rle_trans; [apply (prod_step _ _ _ _ _ _ (4 * r) r E1 ED)|]; [rewrite Rabs_left by lra; lra|rewrite Rabs_pos_eq; lra|].
      replace (341 / 10 * (u * r) * (r + 74 / 10 * (u * r)) + 4 * r * (74 / 10 * (u * r))) with ((637 / 10 + 341 / 10 * (74 / 10) * u) * (u * (r * r))) by field. apply Rmult_le_compat_r; [lra|rewrite UV; lra].
    - rewrite Rabs_left by lra. lra.
    - assert (u * (4 * (r * r) + 641 / 10 * (u * (r * r))) <= u * (4 * (r * r) + 1 / 10 * (r * r))) by (apply Rmult_le_compat_l; [lra|]; assert (u * (r * r) <= / 1000 * (r * r)) by (apply Rmult_le_compat_r; rewrite ?UV; lra); lra). lra. }
  assert (URR2 : u * (r * r) <= / 1000 * (r * r)) by (apply Rmult_le_compat_r; rewrite ?UV; lra).
  assert (B2 : Rabs (B2R c) <= 41 / 10) by (apply Rabs_le_inv in E2; apply Rabs_le; lra). pose proof (Rabs_pos (B2R x)) as X0. set (m := Rabs (B2R x)) in *.
  destruct (fmul_rnd c x 103 F2 FX ltac:(lia)) as [V3 F3].
  { rewrite Rabs_mult. fold m. apply Rle_trans with (8 * bpow radix2 100); [apply Rmult_le_compat; try lra; apply Rabs_pos|]. change 8 with (bpow radix2 3). rewrite <- bpow_plus. apply bpow_le. lia. }
  split; [exact F3|]. rewrite V3. assert (RM : 0 <= r * r * m) by (apply Rmult_le_pos; lra). assert (URM : 0 <= u * (r * r * m)) by (apply Rmult_le_pos; lra).
  eapply Rle_trans; [apply (round_step _ _ (4 * (r * r * m)) (685 / 10 * (u * (r * r * m))))|].
  - replace (B2R c * B2R x - -4 * r * r * B2R x) with ((B2R c - - 4 * r * r) * B2R x) by ring. rewrite Rabs_mult. fold m. replace (685 / 10 * (u * (r * r * m))) with (685 / 10 * (u * (r * r)) * m) by ring. apply Rmult_le_compat_r; lra.
  - rewrite Rabs_mult. fold m. rewrite Rabs_left by lra. lra.
  - assert (u * (r * r * m) <= / 1000 * (r * r * m)) by (apply Rmult_le_compat_r; rewrite ?UV; lra).
    assert (u * (4 * (r * r * m) + 685 / 10 * (u * (r * r * m))) <= u * (4 * (r * r * m) + 1 / 10 * (r * r * m))) by (apply Rmult_le_compat_l; lra). lra.
Qed.

(** a component of p x pdot *)
Lemma er_cross_row t (a0 a1 a2 : f64) (q : F3) n : Permutation (leaves t) [0; 1; 2]%nat -> is_finite a0 = true -> is_finite a1 = true -> is_finite a2 = true -> finite3 q ->
  Rabs (B2R a0) <= n -> Rabs (B2R a1) <= n -> Rabs (B2R a2) <= n -> n <= bpow radix2 100 -> norm1 (val3 q) <= bpow radix2 700 ->
  let w := frowdot t (mkF3 a0 a1 a2) q in let W := B2R a0 * B2R (fx q) + B2R a1 * B2R (fy q) + B2R a2 * B2R (fz q) in
  is_finite w = true /\ Rabs (B2R w - W) <= 31 / 10 * u * (n * norm1 (val3 q)) + 6 * eta /\ Rabs W <= n * norm1 (val3 q).
Proof.
  intros P F0 F1 F2 (G0 & G1 & G2) A0 A1 A2 N Q w W. pose proof u53_pos as UP. pose proof u_val as UV. assert (N0 : 0 <= n) by (pose proof (Rabs_pos (B2R a0)); lra).
  unfold norm1, val3 in *. cbn [vx vy vz] in *. pose proof (Rabs_pos (B2R (fx q))) as Q0. pose proof (Rabs_pos (B2R (fy q))) as Q1. pose proof (Rabs_pos (B2R (fz q))) as Q2.
  assert (PB : forall x y, Rabs x <= n -> Rabs y <= bpow radix2 700 -> Rabs x * Rabs y <= bpow radix2 900).
  { intros x y X Y. apply Rle_trans with (bpow radix2 100 * bpow radix2 700); [apply Rmult_le_compat; auto using Rabs_pos; lra|]. rewrite <- bpow_plus. apply bpow_le. lia. }
  destruct (Unc_FloatProps.fdot_err 3 t (fat3 (mkF3 a0 a1 a2)) (fat3 q)) as [F E].
  { unfold Unc_FloatProps.dim_ok. cbn. lra. }
  { exact P. }
  { intros [|[|[|i]]] I; [| | |lia]; cbn [fat3 fx fy fz]; refine (conj _ (conj _ _)); try assumption; apply PB; auto; lra. }
  change (Unc_FloatModel.fdotn t (fat3 (mkF3 a0 a1 a2)) (fat3 q)) with w in *. split; [exact F|].
  pose proof (Unc_FloatProps.g_small 3) as G. cbn [INR] in G. specialize (G ltac:(rewrite UV; lra)). pose proof (Unc_FloatProps.g_pos 3) as GP.
  unfold DenseN.dotn, Unc_FloatProps.absv, Unc_FloatProps.vv in E. cbn [DenseN.sumn fat3 fx fy fz INR] in E. rewrite !Rplus_0_l in E. fold W in E. set (r := B2R w) in *. clearbody r.
  set (S := Rabs (B2R (fx q)) + Rabs (B2R (fy q)) + Rabs (B2R (fz q))) in *. assert (S0 : 0 <= S) by (unfold S; lra).
  assert (T : Rabs (B2R a0) * Rabs (B2R (fx q)) + Rabs (B2R a1) * Rabs (B2R (fy q)) + Rabs (B2R a2) * Rabs (B2R (fz q)) <= n * S).
  { pose proof (Rmult_le_compat_r _ _ _ Q0 A0). pose proof (Rmult_le_compat_r _ _ _ Q1 A1). pose proof (Rmult_le_compat_r _ _ _ Q2 A2). unfold S. lra. }
  assert (NS : 0 <= n * S) by (apply Rmult_le_pos; lra). split.
  - eapply Rle_trans; [exact E|]. assert (GT : Unc_FloatProps.g 3 * (Rabs (B2R a0) * Rabs (B2R (fx q)) + Rabs (B2R a1) * Rabs (B2R (fy q)) + Rabs (B2R a2) * Rabs (B2R (fz q))) <= 101 / 100 * (1 + 1 + 1) * u * (n * S)).
    { apply Rle_trans with (Unc_FloatProps.g 3 * (n * S)); [apply Rmult_le_compat_l; auto|]. apply Rmult_le_compat_r; [lra|exact G]. }
    assert (0 <= u * (n * S)) by (apply Rmult_le_pos; lra). lra.
  - unfold W. apply Rle_trans with (1 := Rabs_triang _ _). pose proof (Rabs_triang (B2R a0 * B2R (fx q)) (B2R a1 * B2R (fy q))). rewrite !Rabs_mult in *. lra.
Qed.

(** one entry: q b - w b + f x *)
Lemma er_entry (q b w f x : f64) (a W S Q n : R) : is_finite q = true -> is_finite b = true -> is_finite w = true -> is_finite f = true -> is_finite x = true ->
  0 <= n -> n <= bpow radix2 100 -> 0 <= Q -> Q <= bpow radix2 700 -> Rabs a <= 2 -> Rabs a * n <= 1 -> 0 <= S <= 2 ->
  Rabs (B2R q) <= Q -> Rabs (B2R x) <= Q -> Rabs (B2R b - a) <= 185 / 10 * u * Rabs a + eta -> Rabs (B2R w - W) <= 31 / 10 * u * (n * Q) + 6 * eta -> Rabs W <= n * Q -> Rabs (B2R f - S) <= 9 * u * S ->
  let r := fadd (fsub (fmul q b) (fmul w b)) (fmul f x) in
  is_finite r = true /\ Rabs (B2R r - (B2R q * a - W * a + S * B2R x)) <= 95 * u * Q + 20 * eta.
Proof.
  intros FQ FB FW FF FX N0 N1 Q0 Q1 A2 AN [S0 S2] QB XB EB EW WB EF r. pose proof u53_pos as UP. pose proof u_val as UV. pose proof eta_pos as EP. pose proof (Rabs_pos a) as A0.
  assert (UQ : 0 <= u * Q) by (apply Rmult_le_pos; lra). assert (UQS : u * Q <= / 1000 * Q) by (apply Rmult_le_compat_r; rewrite ?UV; lra).
  assert (ES : eta <= / 1000000 * u) by (apply Rle_trans with (bpow radix2 (-80)); [apply bpow_le; lia|]; rewrite UV; replace (bpow radix2 (-80)) with (/ 1208925819614629174706176) by (cbn; lra); lra).
  assert (EQ : eta * Q <= / 1000000 * (u * Q)) by (rewrite <- Rmult_assoc; apply Rmult_le_compat_r; lra).
  assert (EN : eta * n <= / 1000000 * u).
  { apply Rle_trans with (eta * bpow radix2 100); [apply Rmult_le_compat_l; lra|]. rewrite <- bpow_plus. apply Rle_trans with (bpow radix2 (-80)); [apply bpow_le; lia|]; rewrite UV; replace (bpow radix2 (-80)) with (/ 1208925819614629174706176) by (cbn; lra); lra. }
  assert (EU : eta * u <= / 1000 * eta) by (rewrite Rmult_comm; apply Rmult_le_compat_r; rewrite ?UV; lra). assert (EE : eta * eta <= / 1000 * eta) by (apply Rmult_le_compat_r; [lra|]; rewrite UV in ES; lra).
  assert (UA : 0 <= u * Rabs a <= 2 * u) by (split; [apply Rmult_le_pos; lra|rewrite (Rmult_comm 2); apply Rmult_le_compat_l; lra]).
  assert (B700 : 100 * bpow radix2 700 <= bpow radix2 900).
  { apply Rle_trans with (bpow radix2 7 * bpow radix2 700); [apply Rmult_le_compat_r; [apply bpow_ge_0|change (bpow radix2 7) with 128; lra]|rewrite <- bpow_plus; apply bpow_le; lia]. }
  assert (EB7 : eta <= bpow radix2 700) by (apply bpow_le; lia).
  (* q b *)
  assert (D1 : Rabs (B2R q * B2R b - B2R q * a) <= 371 / 10 * (u * Q)).
  { replace (B2R q * B2R b - B2R q * a) with (B2R q * (B2R b - a)) by ring. rewrite Rabs_mult. apply Rle_trans with (Q * (37 * u + eta)); [apply Rmult_le_compat; auto using Rabs_pos; lra|]. lra. }
  assert (M1 : Rabs (B2R q * a) <= 2 * Q) by (rewrite Rabs_mult, (Rmult_comm 2); apply Rmult_le_compat; auto using Rabs_pos).
  assert (T1 : is_finite (fmul q b) = true /\ Rabs (B2R (fmul q b) - B2R q * a) <= 392 / 10 * (u * Q) + eta).
  { destruct (fmul_rnd q b 900 FQ FB ltac:(lia)) as [V F]; [apply Rabs_le_inv in D1, M1; apply Rle_trans with (3 * Q); [apply Rabs_le; lra|lra]|]. split; [exact F|]. rewrite V.
    eapply Rle_trans; [apply (round_step _ _ _ _ D1 M1)|]. assert (u * (2 * Q + 371 / 10 * (u * Q)) <= u * (2 * Q + / 20 * Q)) by (apply Rmult_le_compat_l; lra). lra. }
  (* w b *)
  assert (WA : Rabs (W * a) <= Q). { rewrite Rabs_mult. apply Rle_trans with (n * Q * Rabs a); [apply Rmult_le_compat_r; lra|]. replace (n * Q * Rabs a) with (Rabs a * n * Q) by ring. rewrite <- (Rmult_1_l Q) at 2. apply Rmult_le_compat_r; lra. }
  assert (NQ : 0 <= n * Q) by (apply Rmult_le_pos; lra).
  assert (D2 : Rabs (B2R w * B2R b - W * a) <= 22 * (u * Q) + 13 * eta).
  { eapply Rle_trans; [apply (prod_step _ _ _ _ _ _ (n * Q) (Rabs a) EW EB WB); lra|].
    assert (P1 : n * Q * Rabs a <= Q) by (replace (n * Q * Rabs a) with (Rabs a * n * Q) by ring; rewrite <- (Rmult_1_l Q) at 2; apply Rmult_le_compat_r; lra).
    assert (P2 : u * (n * Q * Rabs a) <= u * Q) by (apply Rmult_le_compat_l; lra). assert (P3 : eta * n * Q <= / 1000000 * (u * Q)) by (rewrite <- Rmult_assoc; apply Rmult_le_compat_r; lra).
    assert (P4 : u * (u * (n * Q * Rabs a)) <= / 1000 * (u * Q)) by (apply Rle_trans with (u * (u * Q)); [apply Rmult_le_compat_l; lra|]; apply Rmult_le_compat_r; rewrite ?UV; lra).
    assert (P5 : u * (eta * n * Q) <= / 1000 * (u * Q)) by (apply Rle_trans with (u * (/ 1000000 * (u * Q))); [apply Rmult_le_compat_l; lra|]; assert (u * (u * Q) <= 1 * (u * Q)) by (apply Rmult_le_compat_r; rewrite ?UV; lra); lra).
    assert (P6 : eta * (u * Rabs a) <= / 500 * eta) by (apply Rle_trans with (eta * (2 * u)); [apply Rmult_le_compat_l; lra|lra]). assert (P7 : eta * Rabs a <= 2 * eta) by (rewrite (Rmult_comm 2); apply Rmult_le_compat_l; lra).
    replace ((31 / 10 * u * (n * Q) + 6 * eta) * (Rabs a + (185 / 10 * u * Rabs a + eta)) + n * Q * (185 / 10 * u * Rabs a + eta))
      with (216 / 10 * (u * (n * Q * Rabs a)) + 31 / 10 * (185 / 10) * (u * (u * (n * Q * Rabs a))) + 31 / 10 * (u * (eta * n * Q)) + 6 * (eta * Rabs a) + 6 * (185 / 10) * (eta * (u * Rabs a)) + 6 * (eta * eta) + eta * n * Q) by field. lra. }
  assert (T2 : is_finite (fmul w b) = true /\ Rabs (B2R (fmul w b) - W * a) <= 231 / 10 * (u * Q) + 142 / 10 * eta).
  { destruct (fmul_rnd w b 900 FW FB ltac:(lia)) as [V F]; [apply Rabs_le_inv in D2, WA; apply Rle_trans with (2 * Q + 13 * eta); [apply Rabs_le; lra|lra]|]. split; [exact F|]. rewrite V.
    eapply Rle_trans; [apply (round_step _ _ _ _ D2 WA)|]. assert (u * (Q + (22 * (u * Q) + 13 * eta)) <= u * (Q + (/ 20 * Q + 13 * eta))) by (apply Rmult_le_compat_l; lra). lra. }
  (* f x *)
  assert (US : u * S <= 2 * u) by (rewrite (Rmult_comm 2); apply Rmult_le_compat_l; lra).
  assert (D3 : Rabs (B2R f * B2R x - S * B2R x) <= 18 * (u * Q)).
  { replace (B2R f * B2R x - S * B2R x) with ((B2R f - S) * B2R x) by ring. rewrite Rabs_mult. apply Rle_trans with (18 * u * Q); [apply Rmult_le_compat; auto using Rabs_pos; lra|lra]. }
  assert (M3 : Rabs (S * B2R x) <= 2 * Q) by (rewrite Rabs_mult, (Rabs_pos_eq S) by lra; apply Rmult_le_compat; auto using Rabs_pos).
  assert (T3 : is_finite (fmul f x) = true /\ Rabs (B2R (fmul f x) - S * B2R x) <= 201 / 10 * (u * Q) + eta).
  { destruct (fmul_rnd f x 900 FF FX ltac:(lia)) as [V F]; [apply Rabs_le_inv in D3, M3; apply Rle_trans with (3 * Q); [apply Rabs_le; lra|lra]|]. split; [exact F|]. rewrite V.
    eapply Rle_trans; [apply (round_step _ _ _ _ D3 M3)|]. assert (u * (2 * Q + 18 * (u * Q)) <= u * (2 * Q + / 20 * Q)) by (apply Rmult_le_compat_l; lra). lra. }
  destruct T1 as [F1 E1], T2 as [F2 E2], T3 as [F3 E3]. unfold r. set (t1 := fmul q b) in *. set (t2 := fmul w b) in *. set (t3 := fmul f x) in *. clearbody t1 t2 t3. clear r.
  assert (D4 : Rabs (B2R t1 - B2R t2 - (B2R q * a - W * a)) <= 623 / 10 * (u * Q) + 152 / 10 * eta) by (apply Rabs_le_inv in E1, E2; apply Rabs_le; lra).
  assert (M4 : Rabs (B2R q * a - W * a) <= 3 * Q) by (apply Rabs_le_inv in M1, WA; apply Rabs_le; lra).
  assert (T4 : is_finite (fsub t1 t2) = true /\ Rabs (B2R (fsub t1 t2) - (B2R q * a - W * a)) <= 656 / 10 * (u * Q) + 163 / 10 * eta).
  { destruct (fsub_rnd t1 t2 900 F1 F2 ltac:(lia)) as [V F]; [apply Rabs_le_inv in D4, M4; apply Rle_trans with (5 * Q + 16 * eta); [apply Rabs_le; lra|lra]|]. split; [exact F|]. rewrite V.
    eapply Rle_trans; [apply (round_step _ _ _ _ D4 M4)|]. assert (u * (3 * Q + (623 / 10 * (u * Q) + 152 / 10 * eta)) <= u * (3 * Q + (/ 10 * Q + 152 / 10 * eta))) by (apply Rmult_le_compat_l; lra). lra. }
  destruct T4 as [F4 E4]. set (t4 := fsub t1 t2) in *. clearbody t4.
  assert (D5 : Rabs (B2R t4 + B2R t3 - (B2R q * a - W * a + S * B2R x)) <= 857 / 10 * (u * Q) + 173 / 10 * eta) by (apply Rabs_le_inv in E3, E4; apply Rabs_le; lra).
  assert (M5 : Rabs (B2R q * a - W * a + S * B2R x) <= 5 * Q) by (apply Rabs_le_inv in M3, M4; apply Rabs_le; lra).
  destruct (fadd_rnd t4 t3 900 F4 F3 ltac:(lia)) as [V F]; [apply Rabs_le_inv in D5, M5; apply Rle_trans with (8 * Q + 18 * eta); [apply Rabs_le; lra|lra]|]. split; [exact F|]. rewrite V.
  eapply Rle_trans; [apply (round_step _ _ _ _ D5 M5)|]. assert (u * (5 * Q + (857 / 10 * (u * Q) + 173 / 10 * eta)) <= u * (5 * Q + (/ 10 * Q + 173 / 10 * eta))) by (apply Rmult_le_compat_l; lra). lra.
Qed.

Theorem float_er_jacobian L o p q : lib_ok L -> (forall i, Permutation (leaves (o i)) [0; 1; 2]%nat) -> finite3 p -> finite3 q -> norm3 (val3 p) <= bpow radix2 100 -> norm1 (val3 q) <= bpow radix2 700 ->
  close33 (fer_dp L o p q) (fst (er_J (val3 p) (val3 q))) (95 * u * norm1 (val3 q) + 20 * eta).
Proof.
  intros OK PO FP FQ NU QU. assert (NU2 : norm3 (val3 p) <= bpow radix2 290) by (apply Rle_trans with (1 := NU); apply bpow_le; lia).
  destruct (er_scale2 L p OK FP NU2) as [[FF FE] [FR RE]]. cbv zeta in *. pose proof FP as (PX & PY & PZ). pose proof FQ as (QX & QY & QZ). pose proof (norm3_pos (val3 p)) as N0. pose proof (norm3_sq (val3 p)) as NS.
  set (n := norm3 (val3 p)) in *. set (n2 := dot3 (val3 p) (val3 p)) in *. assert (P2 : 0 <= n2) by (rewrite <- NS; apply Rmult_le_pos; lra).
  assert (IP : 0 < / (1 + n2)) by (apply Rinv_0_lt_compat; lra). set (r := 1 / (1 + n2)). assert (RV : r * (1 + n2) = 1) by (unfold r; field; lra). assert (R0 : 0 < r) by (unfold r, Rdiv; lra).
  assert (SV : 2 / (1 + n2) = 2 * r) by (unfold r; field; lra). rewrite SV in *.
  assert (RN : 0 <= r * n2) by (apply Rmult_le_pos; lra). assert (R1 : r <= 1) by lra.
  assert (RL : bpow radix2 (-202) <= r).
  { apply Rmult_le_reg_r with (1 + n2); [lra|]. rewrite RV. assert (B2 : n2 <= bpow radix2 200) by (rewrite <- NS; change 200%Z with (100 + 100)%Z; rewrite bpow_plus; apply Rmult_le_compat; lra).
    assert (B3 : 1 <= bpow radix2 200) by (change 1 with (bpow radix2 0); apply bpow_le; lia). apply Rle_trans with (bpow radix2 (-202) * (2 * bpow radix2 200)); [apply Rmult_le_compat_l; [apply bpow_ge_0|lra]|].
    change 2 with (bpow radix2 1). rewrite <- !bpow_plus. change 1 with (bpow radix2 0). apply bpow_le. lia. }
  pose proof (comp3 (val3 p)) as CM. fold n in CM. unfold val3 in CM. cbn [vx vy vz] in CM.
  destruct CM as (MX & MY & MZ).
  (* a *)
  assert (TWO : 2 * r * n <= 1).
  { pose proof (Rle_0_sqr (n - 1)) as Z. unfold Rsqr in Z. rewrite <- RV, <- NS. assert (r * (2 * n) <= r * (1 + n * n)) by (apply Rmult_le_compat_l; lra). lra. }
  assert (RNN : 0 <= 2 * r * n) by (apply Rmult_le_pos; lra).
  assert (AB : forall x, Rabs x <= n -> Rabs (-4 * r * r * x) = 4 * r * r * Rabs x /\ Rabs (-4 * r * r * x) <= 2 /\ Rabs (-4 * r * r * x) * n <= 1).
  { intros x X. pose proof (Rabs_pos x) as X0. assert (RR : 0 <= r * r) by (apply Rmult_le_pos; lra). assert (EQ : Rabs (-4 * r * r * x) = 4 * r * r * Rabs x).
    { rewrite !Rabs_mult, (Rabs_left (-4)), (Rabs_pos_eq r) by lra. ring. }
    rewrite EQ. split; [reflexivity|]. assert (L1 : 4 * r * r * Rabs x <= 2 * r * (2 * r * n)) by (replace (2 * r * (2 * r * n)) with (4 * (r * r) * n) by ring; replace (4 * r * r * Rabs x) with (4 * (r * r) * Rabs x) by ring; apply Rmult_le_compat_l; lra). split.
    - apply Rle_trans with (1 := L1). apply Rle_trans with (2 * r * 1); [apply Rmult_le_compat_l; lra|lra].
    - apply Rle_trans with (2 * r * (2 * r * n) * n); [apply Rmult_le_compat_r; lra|]. replace (2 * r * (2 * r * n) * n) with ((2 * r * n) * (2 * r * n)) by ring. replace 1 with (1 * 1) by ring. apply Rmult_le_compat; lra. }
  assert (CA : forall x : f64, is_finite x = true -> Rabs (B2R x) <= n -> let b := fmul (fmul (fmul (fofZ (-4)) (fdiv fone (fadd fone (fdot3 L p)))) (fdiv fone (fadd fone (fdot3 L p)))) x in
    is_finite b = true /\ Rabs (B2R b - -4 * r * r * B2R x) <= 185 / 10 * u * Rabs (-4 * r * r * B2R x) + eta /\ Rabs (-4 * r * r * B2R x) <= 2 /\ Rabs (-4 * r * r * B2R x) * n <= 1).
  { intros x FX X b. destruct (AB _ X) as (EQ & A2 & AN). destruct (er_a_comp _ x r n FR FX (conj R0 R1) RL RE X NU) as [FB EB]. fold b in FB, EB. rewrite EQ in *. auto. }
  destruct (CA _ PX MX) as (FAX & EAX & AX2 & AXN). destruct (CA _ PY MY) as (FAY & EAY & AY2 & AYN). destruct (CA _ PZ MZ) as (FAZ & EAZ & AZ2 & AZN). clear CA.
  destruct (fneg_val _ PX) as [NPX VPX]. destruct (fneg_val _ PY) as [NPY VPY]. destruct (fneg_val _ PZ) as [NPZ VPZ]. destruct (fneg_val _ QX) as [NQX VQX]. destruct (fneg_val _ QY) as [NQY VQY]. destruct (fneg_val _ QZ) as [NQZ VQZ].
  assert (MXN : Rabs (B2R (fneg (fx p))) <= n) by (rewrite VPX, Rabs_Ropp; exact MX). assert (MYN : Rabs (B2R (fneg (fy p))) <= n) by (rewrite VPY, Rabs_Ropp; exact MY). assert (MZN : Rabs (B2R (fneg (fz p))) <= n) by (rewrite VPZ, Rabs_Ropp; exact MZ).
  assert (Z0 : Rabs (B2R fzero) <= n) by (change (B2R fzero) with 0; rewrite Rabs_R0; exact N0). assert (FZ0 : is_finite fzero = true) by reflexivity.
  destruct (er_cross_row (o 0%nat) fzero (fneg (fz p)) (fy p) q n (PO 0%nat) FZ0 NPZ PY FQ Z0 MZN MY NU QU) as (FW0 & EW0 & WB0).
  destruct (er_cross_row (o 1%nat) (fz p) fzero (fneg (fx p)) q n (PO 1%nat) PZ FZ0 NPX FQ MZ Z0 MXN NU QU) as (FW1 & EW1 & WB1).
  destruct (er_cross_row (o 2%nat) (fneg (fy p)) (fx p) fzero q n (PO 2%nat) NPY PX FZ0 FQ MYN MX Z0 NU QU) as (FW2 & EW2 & WB2).
  rewrite ?VPX, ?VPY, ?VPZ in EW0, WB0, EW1, WB1, EW2, WB2. change (B2R fzero) with 0 in EW0, WB0, EW1, WB1, EW2, WB2.
  set (Q := norm1 (val3 q)) in *. assert (QB : 0 <= Q /\ Rabs (B2R (fx q)) <= Q /\ Rabs (B2R (fy q)) <= Q /\ Rabs (B2R (fz q)) <= Q).
  { unfold Q, norm1, val3. cbn [vx vy vz]. pose proof (Rabs_pos (B2R (fx q))). pose proof (Rabs_pos (B2R (fy q))). pose proof (Rabs_pos (B2R (fz q))). repeat split; lra. }
  destruct QB as (Q0 & BX & BY & BZ). assert (BXN : Rabs (B2R (fneg (fx q))) <= Q) by (rewrite VQX, Rabs_Ropp; exact BX). assert (BYN : Rabs (B2R (fneg (fy q))) <= Q) by (rewrite VQY, Rabs_Ropp; exact BY). assert (BZN : Rabs (B2R (fneg (fz q))) <= Q) by (rewrite VQZ, Rabs_Ropp; exact BZ).
  assert (B0 : Rabs (B2R fzero) <= Q) by (change (B2R fzero) with 0; rewrite Rabs_R0; exact Q0).
  assert (S02 : 0 <= 2 * r <= 2) by lra.
  apply close33_by; unfold fer_dp, er_J; cbv zeta; cbn [fst]; unfold fcrossMx, fm3, madd3, msub3, outer3, mscale3, crossMx, m3, mv3; cbn [fr0 fr1 fr2 fx fy fz r30 r31 r32]; fold n2; fold r; unfold add3, sub3, scale3, dot3; cbn [vx vy vz];
    (match goal with |- _ /\ Rabs (B2R (fadd (fsub (fmul ?qq ?bb) (fmul ?ww _)) (fmul ?f ?xx)) - _) <= _ =>
      match goal with EB : Rabs (B2R bb - ?a) <= _, EW : Rabs (B2R ww - ?W) <= _, AN : Rabs ?a * n <= 1 |- _ =>
        pose proof (er_entry qq bb ww f xx a W (2 * r) Q n ltac:(assumption) ltac:(assumption) ltac:(assumption) ltac:(assumption) ltac:(assumption) N0 NU Q0 QU ltac:(assumption) AN S02 ltac:(assumption) ltac:(assumption) EB EW ltac:(assumption) FE) as [FIN ERR] end end);
    (split; [exact FIN|]); (eapply Rle_trans; [|exact ERR]); right; f_equal; f_equal; rewrite ?VQX, ?VQY, ?VQZ, ?VPX, ?VPY, ?VPZ; change (B2R fzero) with 0; unfold val3; cbn [vx vy vz]; ring.
Qed.
(** a library, orders and arguments meeting the hypotheses *)
Example er_jacobian_case : let o := fun _ : nat => SAdd (SAdd (SLeaf 0) (SLeaf 1)) (SLeaf 2) in let p := mkF3 fone fone fzero in let q := mkF3 fzero fone fone in
  lib_ok rounded_lib /\ (forall i, Permutation (leaves (o i)) [0; 1; 2]%nat) /\ finite3 p /\ finite3 q /\ norm3 (val3 p) <= bpow radix2 100 /\ norm1 (val3 q) <= bpow radix2 700.
Proof.
  intros o p q. destruct (fofZ_correct 1 ltac:(lia)) as [V F]. fold fone in V, F. unfold p, q, val3, norm1, norm3, dot3, finite3. cbn [fx fy fz vx vy vz]. rewrite V. change (B2R fzero) with 0. rewrite Rabs_R0, Rabs_R1.
  refine (conj rounded_lib_ok (conj (fun _ => Permutation_refl _) (conj (conj F (conj F eq_refl)) (conj (conj eq_refl (conj F F)) (conj _ _))))).
  - apply Rle_trans with 2; [|change 2 with (bpow radix2 1); apply bpow_le; lia]. rewrite <- (sqrt_square 2) by lra. apply sqrt_le_1_alt. lra.
  - apply Rle_trans with 2; [lra|]. change 2 with (bpow radix2 1). apply bpow_le. lia.
Qed.
