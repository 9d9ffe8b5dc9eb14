(** C15 in IEEE double arithmetic: solveQuadratic is backward stable, and never refuses a polynomial with real roots. *)
From Coq Require Import Reals Lra Psatz.
From Flocq Require Import Core Relative Plus_error Mult_error.
From Verif Require Import Float64 Round_Model Round_Proofs Round_Props Nsec_Model Nsec_Proofs.
Open Scope R_scope.

Notation u := (bpow radix2 (-53)).
Lemma u_val : u = / 9007199254740992. Proof. reflexivity. Qed.
(** t is a product of at most k factors of the form 1 + e or 1 / (1 + e), |e| <= 2^-53 *)
Definition W : R := / (1 - u).
Definition B (k : nat) (t : R) : Prop := (1 - u) ^ k <= t <= W ^ k.
Lemma u_small : 0 < u < / 1000000. Proof. rewrite u_val. lra. Qed.
Lemma W_pos : 1 <= W. Proof. unfold W. pose proof u_small. rewrite <- Rinv_1. apply Rinv_le; lra. Qed.
Lemma lo_pos k : 0 < (1 - u) ^ k. Proof. pose proof u_small. apply pow_lt. lra. Qed.
Lemma lo_le1 k : (1 - u) ^ k <= 1. Proof. pose proof u_small. apply Rle_trans with (1 ^ k); [apply pow_incr; lra|rewrite pow1; lra]. Qed.
Lemma hi_ge1 k : 1 <= W ^ k. Proof. apply pow_R1_Rle. apply W_pos. Qed.
Lemma B_pos k t : B k t -> 0 < t. Proof. intros [H _]. pose proof (lo_pos k). lra. Qed.
Lemma B_mul j k s t : B j s -> B k t -> B (j + k) (s * t).
Proof.
  intros [A1 A2] [C1 C2]. pose proof (lo_pos j). pose proof (lo_pos k). unfold B. rewrite !pow_add. split; apply Rmult_le_compat; lra.
Qed.
Lemma WW : W * (1 - u) = 1. Proof. unfold W. pose proof u_small. field. lra. Qed.
Lemma inv_lo k : / (1 - u) ^ k = W ^ k.
Proof. unfold W. pose proof u_small. rewrite pow_inv. reflexivity. Qed.
Lemma inv_hi k : / W ^ k = (1 - u) ^ k.
Proof. rewrite <- inv_lo. rewrite Rinv_inv. reflexivity. Qed.
Lemma B_inv k t : B k t -> B k (/ t).
Proof.
  intros H. pose proof (B_pos k t H) as P. destruct H as [A1 A2]. pose proof (lo_pos k). split.
  - rewrite <- inv_hi. apply Rinv_le; lra.
  - rewrite <- inv_lo. apply Rinv_le; lra.
Qed.
Lemma B_eps e : Rabs e <= u -> B 1 (1 + e).
Proof.
  intros H. apply Rabs_le_inv in H. pose proof u_small. unfold B. rewrite !pow_1. split; [lra|]. apply Rle_trans with (1 + u); [lra|].
  pose proof WW. unfold W. apply Rmult_le_reg_r with (1 - u); [lra|]. rewrite Rinv_l by lra. nra.
Qed.
Lemma B_one k : B k 1. Proof. split; [apply lo_le1|apply hi_ge1]. Qed.
Lemma B_sqrt t : B 2 t -> B 1 (sqrt t).
Proof.
  intros H. pose proof u_small. pose proof W_pos. destruct H as [A1 A2]. unfold B. rewrite !pow_1. split.
  - rewrite <- (sqrt_pow2 (1 - u)) by lra. apply sqrt_le_1_alt. exact A1.
  - rewrite <- (sqrt_pow2 W) by lra. apply sqrt_le_1_alt. exact A2.
Qed.
(** a perturbed sum of terms of equal sign *)
Lemma B_sum k p q t : 0 <= p -> 0 <= q -> B k t -> exists t', B k t' /\ p * t + q = (p + q) * t'.
Proof.
  intros P Q H. destruct (Req_dec (p + q) 0) as [Z|Z].
  - exists 1. split; [apply B_one|]. assert (p = 0) by lra. assert (q = 0) by lra. subst. ring.
  - exists ((p * t + q) / (p + q)). split; [|field; auto]. pose proof (lo_le1 k). pose proof (hi_ge1 k). destruct H as [A1 A2]. assert (0 < p + q) by lra.
    split; apply Rmult_le_reg_r with (p + q); auto; unfold Rdiv; rewrite Rmult_assoc, Rinv_l by lra; nra.
Qed.
Lemma B_close k t : (k <= 6)%nat -> B k t -> Rabs (t - 1) <= 7 * u.
Proof.
  intros K [A1 A2]. assert (L6 : (1 - u) ^ 6 <= (1 - u) ^ k).
  { pose proof u_small. replace 6%nat with (k + (6 - k))%nat by lia. rewrite pow_add. pose proof (lo_pos k). pose proof (lo_le1 (6 - k)). nra. }
  assert (H6 : W ^ k <= W ^ 6) by (apply Rle_pow; [apply W_pos|auto]).
  assert (X1 : 1 - 7 * u <= (1 - u) ^ 6) by (rewrite u_val; cbn [pow]; lra).
  assert (X2 : W ^ 6 <= 1 + 7 * u).
  { rewrite <- inv_lo. apply Rmult_le_reg_r with ((1 - u) ^ 6); [apply lo_pos|]. rewrite Rinv_l by (pose proof (lo_pos 6); lra). rewrite u_val. cbn [pow]. lra. }
  apply Rabs_le. lra.
Qed.

(** rounding as a factor *)
Lemma rnd_B x : x = 0 \/ bpow radix2 (-1022) <= Rabs x -> exists t, B 1 t /\ rnd x = x * t.
Proof.
  intros [Z|H].
  - exists 1. split; [apply B_one|]. rewrite Z, rnd_0. ring.
  - pose proof (rnd_rel x H) as R. assert (X : 0 < Rabs x) by (pose proof (bpow_gt_0 radix2 (-1022)); lra).
    assert (N : x <> 0) by (intros ->; rewrite Rabs_R0 in X; lra).
    exists (1 + (rnd x - x) / x). split; [|field; auto]. apply B_eps. unfold Rdiv. rewrite Rabs_mult, Rabs_inv.
    apply Rmult_le_reg_r with (Rabs x); auto. rewrite Rmult_assoc, Rinv_l by lra. lra.
Qed.
Lemma rnd_plus_B x y : format64 x -> format64 y -> exists t, B 1 t /\ rnd (x + y) = (x + y) * t.
Proof.
  intros Fx Fy. destruct (FLT_plus_error_N_ex radix2 (-1074) 53 (fun x => negb (Z.even x)) x y Fx Fy) as (e & H & E).
  exists (1 + e). split; [|exact E]. apply B_eps. apply Rle_trans with (1 := H).
  unfold u_ro. change (bpow radix2 (- (53) + 1)) with (/ 4503599627370496). rewrite u_val.
  apply Rmult_le_reg_r with (1 + / 2 * / 4503599627370496); [lra|]. unfold Rdiv. rewrite Rmult_assoc, Rinv_l by lra. lra.
Qed.

Lemma fin_format (x : f64) : format64 (B2R x). Proof. apply generic_format_B2R. Qed.
Lemma fmul_fact x y e : is_finite x = true -> is_finite y = true -> (-1021 <= e < 1024)%Z -> Rabs (B2R x * B2R y) <= bpow radix2 e ->
  is_finite (fmul x y) = true /\ Rabs (B2R (fmul x y)) <= bpow radix2 e /\ B2R (fmul x y) = rnd (B2R x * B2R y).
Proof. intros Fx Fy E H. destruct (fmul_rnd x y e Fx Fy E H) as [R F]. rewrite R. repeat split; auto. apply rnd_abs_le; auto. lia. Qed.
Lemma fsub_fact x y e : is_finite x = true -> is_finite y = true -> (-1021 <= e < 1024)%Z -> Rabs (B2R x - B2R y) <= bpow radix2 e ->
  is_finite (fsub x y) = true /\ Rabs (B2R (fsub x y)) <= bpow radix2 e /\ B2R (fsub x y) = rnd (B2R x - B2R y).
Proof.
  intros Fx Fy E H. destruct (fsub_ext x y Fx Fy) as [N X]. assert (R : Rabs (rnd (B2R x - B2R y)) <= bpow radix2 e) by (apply rnd_abs_le; auto; lia).
  assert (L : Rabs (rnd (B2R x - B2R y)) < OMEGA) by (apply Rle_lt_trans with (1 := R); apply bpow_lt; lia).
  rewrite clamp_small in X by exact L. assert (F : is_finite (fsub x y) = true) by (apply finite_of_ext; auto; rewrite X; exact L).
  rewrite ext_finite in X by auto. rewrite X. auto.
Qed.
Lemma fdiv_fact x y e : is_finite x = true -> is_finite y = true -> B2R y <> 0 -> (-1021 <= e < 1024)%Z -> Rabs (B2R x / B2R y) <= bpow radix2 e ->
  is_finite (fdiv x y) = true /\ Rabs (B2R (fdiv x y)) <= bpow radix2 e /\ B2R (fdiv x y) = rnd (B2R x / B2R y).
Proof.
  intros Fx Fy N E H. assert (R : Rabs (rnd (B2R x / B2R y)) <= bpow radix2 e) by (apply rnd_abs_le; auto; lia).
  pose proof (Bdiv_correct 53 1024 _ _ mode_NE x y N) as C. cbn [round_mode] in C. rewrite Rlt_bool_true in C.
  2:{ apply Rle_lt_trans with (1 := R). apply bpow_lt. lia. }
  destruct C as (C1 & C2 & _). unfold fdiv. rewrite C1, C2, Fx. auto.
Qed.
Lemma fsqrt_fact x : is_finite x = true -> 0 <= B2R x -> is_finite (fsqrt x) = true /\ B2R (fsqrt x) = rnd (sqrt (B2R x)).
Proof.
  intros F P. destruct (Bsqrt_correct 53 1024 _ _ mode_NE x) as (C1 & C2 & _). unfold fsqrt. rewrite C1, C2. split; auto.
  destruct x as [s|s| |s m e p]; try discriminate F; auto. destruct s; auto. exfalso.
  assert (B2R (B754_finite true m e p) < 0); [|lra]. unfold B2R. apply F2R_lt_0. reflexivity.
Qed.
Lemma scale_exact x k : format64 x -> (0 <= k)%Z -> rnd (bpow radix2 k * x) = bpow radix2 k * x.
Proof. intros F K. apply rnd_id. rewrite Rmult_comm. apply (mult_bpow_pos_exact_FLT radix2 (-1074) 53); auto. Qed.
Lemma B_close2 t : B 2 t -> Rabs (t - 1) <= 3 * u.
Proof.
  intros [A1 A2]. assert (X1 : 1 - 3 * u <= (1 - u) ^ 2) by (rewrite u_val; cbn [pow]; lra).
  assert (X2 : W ^ 2 <= 1 + 3 * u).
  { rewrite <- inv_lo. apply Rmult_le_reg_r with ((1 - u) ^ 2); [apply lo_pos|]. rewrite Rinv_l by (pose proof (lo_pos 2); lra). rewrite u_val. cbn [pow]. lra. }
  apply Rabs_le. lra.
Qed.
Lemma B_half k t : (k <= 6)%nat -> B k t -> 1 / 2 <= t <= 2.
Proof. intros K H. pose proof (B_close k t K H) as C. apply Rabs_le_inv in C. pose proof u_small. lra. Qed.

(** the range in which nothing over- or underflows: zero, or between 2^-200 and 2^200 in magnitude *)
Definition moderate (x : R) : Prop := x = 0 \/ bpow radix2 (-200) <= Rabs x <= bpow radix2 200.
Lemma abs_mul_le x y i j : Rabs x <= bpow radix2 i -> Rabs y <= bpow radix2 j -> Rabs (x * y) <= bpow radix2 (i + j).
Proof. intros X Y. rewrite Rabs_mult, bpow_plus. apply Rmult_le_compat; auto using Rabs_pos. Qed.
Lemma abs_mul_ge x y i j : bpow radix2 i <= Rabs x -> bpow radix2 j <= Rabs y -> bpow radix2 (i + j) <= Rabs (x * y).
Proof. intros X Y. rewrite Rabs_mult, bpow_plus. apply Rmult_le_compat; auto using bpow_ge_0. Qed.
Lemma abs_div_le x y i j : Rabs x <= bpow radix2 i -> bpow radix2 j <= Rabs y -> Rabs (x / y) <= bpow radix2 (i - j).
Proof.
  intros X Y. unfold Rdiv. rewrite Rabs_mult, Rabs_inv. unfold Zminus. rewrite bpow_plus, bpow_opp. pose proof (bpow_gt_0 radix2 j).
  apply Rmult_le_compat; auto using Rabs_pos. { apply Rlt_le, Rinv_0_lt_compat. lra. } apply Rinv_le; auto.
Qed.
Lemma abs_div_ge x y i j : bpow radix2 i <= Rabs x -> y <> 0 -> Rabs y <= bpow radix2 j -> bpow radix2 (i - j) <= Rabs (x / y).
Proof.
  intros X N Y. unfold Rdiv. rewrite Rabs_mult, Rabs_inv. unfold Zminus. rewrite bpow_plus, bpow_opp. pose proof (Rabs_pos_lt y N).
  apply Rmult_le_compat; auto using bpow_ge_0. apply Rlt_le, Rinv_0_lt_compat, bpow_gt_0. apply Rinv_le; auto.
Qed.
Lemma abs_sub_le x y i : Rabs x <= bpow radix2 i -> Rabs y <= bpow radix2 i -> Rabs (x - y) <= bpow radix2 (i + 1).
Proof.
  intros X Y. rewrite bpow_plus. change (bpow radix2 1) with 2. unfold Rminus. apply Rle_trans with (1 := Rabs_triang _ _). rewrite Rabs_Ropp. lra.
Qed.
Lemma up i j x : (i <= j)%Z -> Rabs x <= bpow radix2 i -> Rabs x <= bpow radix2 j.
Proof. intros L H. apply Rle_trans with (1 := H). apply bpow_le, L. Qed.
Lemma down i j x : (j <= i)%Z -> bpow radix2 i <= Rabs x -> bpow radix2 j <= Rabs x.
Proof. intros L H. apply Rle_trans with (2 := H). apply bpow_le, L. Qed.
Lemma moderate_le x : moderate x -> Rabs x <= bpow radix2 200.
Proof. intros [->|H]; [rewrite Rabs_R0; apply bpow_ge_0|tauto]. Qed.

(** the discriminant as it is computed *)
Definition disc (a b c : f64) : f64 := fsub (fmul b b) (fmul (fmul (fofZ 4) c) a).
Lemma disc_value a b c : is_finite a = true -> is_finite b = true -> is_finite c = true -> moderate (B2R a) -> moderate (B2R b) -> moderate (B2R c) ->
  is_finite (disc a b c) = true /\ Rabs (B2R (disc a b c)) <= bpow radix2 404 /\
  B2R (disc a b c) = rnd (rnd (B2R b * B2R b) - rnd (4 * B2R c * B2R a)).
Proof.
  intros Fa Fb Fc Ma Mb Mc. apply moderate_le in Ma, Mb, Mc. unfold disc.
  destruct (fofZ_correct 4 ltac:(lia)) as [E4 F4].
  destruct (fmul_fact b b 400 Fb Fb ltac:(lia) (abs_mul_le _ _ 200 200 Mb Mb)) as (F1 & B1 & R1).
  assert (X4 : Rabs (B2R (fofZ 4)) <= bpow radix2 2) by (rewrite E4, Rabs_pos_eq by lra; change (bpow radix2 2) with 4; lra).
  destruct (fmul_fact (fofZ 4) c 202 F4 Fc ltac:(lia) (abs_mul_le _ _ 2 200 X4 Mc)) as (F2 & B2 & R2).
  assert (R2' : B2R (fmul (fofZ 4) c) = 4 * B2R c).
  { rewrite R2, E4. change 4 with (bpow radix2 2). apply scale_exact; [apply fin_format|lia]. }
  destruct (fmul_fact (fmul (fofZ 4) c) a 402 F2 Fa ltac:(lia) (abs_mul_le _ _ 202 200 B2 Ma)) as (F3 & B3 & R3). rewrite R2' in R3.
  destruct (fsub_fact (fmul b b) (fmul (fmul (fofZ 4) c) a) 404 F1 F3 ltac:(lia)) as (F5 & B5 & R5).
  { apply up with 403%Z; [lia|]. apply (abs_sub_le _ _ 402); auto. apply up with 400%Z; [lia|auto]. }
  rewrite R1, R3 in R5. auto.
Qed.
Lemma ltb_zero (x : f64) : is_finite x = true -> fltb x (fofZ 0) = Rlt_bool (B2R x) 0.
Proof.
  intros F. destruct (fofZ_correct 0 ltac:(lia)) as [E0 F0]. destruct (Rlt_bool_spec (B2R x) 0) as [H|H].
  - apply fltb_ext; auto using is_nan_finite. rewrite !ext_finite by auto. rewrite E0. exact H.
  - apply Bool.not_true_is_false. rewrite fltb_ext by (auto using is_nan_finite). rewrite !ext_finite by auto. rewrite E0. lra.
Qed.

(** ** A polynomial with real roots is never refused ... *)
Theorem solveQuadratic_accepts a b c : is_finite a = true -> is_finite b = true -> is_finite c = true ->
  moderate (B2R a) -> moderate (B2R b) -> moderate (B2R c) -> 0 <= B2R b * B2R b - 4 * B2R a * B2R c -> solveQuadratic FArith a b c <> None.
Proof.
  intros Fa Fb Fc Ma Mb Mc D. destruct (disc_value a b c Fa Fb Fc Ma Mb Mc) as (F & _ & R).
  unfold solveQuadratic. cbn [FArith num a_add a_sub a_mul a_div a_sqrt a_opp a_ltb a_ofZ]. change (fsub (fmul b b) (fmul (fmul (fofZ 4) c) a)) with (disc a b c).
  rewrite ltb_zero by auto. rewrite Rlt_bool_false; [discriminate|]. rewrite R. rewrite <- rnd_0 at 1. apply rnd_le.
  assert (rnd (4 * B2R c * B2R a) <= rnd (B2R b * B2R b)) by (apply rnd_le; lra). lra.
Qed.
(** ... and what is returned are the roots, each with a relative error of at most 7 * 2^-53, of the polynomial with c changed by at most 3 * 2^-53. *)
Theorem solveQuadratic_stable a b c x1 x2 : is_finite a = true -> is_finite b = true -> is_finite c = true ->
  moderate (B2R a) -> moderate (B2R b) -> moderate (B2R c) -> B2R a <> 0 -> B2R b <> 0 \/ B2R c <> 0 ->
  solveQuadratic FArith a b c = Some (x1, x2) ->
  is_finite x1 = true /\ is_finite x2 = true /\
  exists c' r1 r2, Rabs (c' - B2R c) <= 3 * bpow radix2 (-53) * Rabs (B2R c) /\
    (forall x, B2R a * x * x + B2R b * x + c' = B2R a * (x - r1) * (x - r2)) /\
    Rabs (B2R x1 - r1) <= 7 * bpow radix2 (-53) * Rabs r1 /\ Rabs (B2R x2 - r2) <= 7 * bpow radix2 (-53) * Rabs r2.
Proof.
  intros Fa Fb Fc Ma Mb Mc Na Nbc. destruct (disc_value a b c Fa Fb Fc Ma Mb Mc) as (F & BD & R).
  unfold solveQuadratic. cbn [FArith num a_add a_sub a_mul a_div a_sqrt a_opp a_ltb a_ofZ]. change (fsub (fmul b b) (fmul (fmul (fofZ 4) c) a)) with (disc a b c).
  rewrite !ltb_zero by auto. destruct (Rlt_bool_spec (B2R (disc a b c)) 0) as [N|D0]; [discriminate|].
  set (d := disc a b c) in *. destruct (fsqrt_fact d F D0) as [FS RS]. set (s := fsqrt d) in *.
  destruct (fofZ_correct 2 ltac:(lia)) as [E2 F2].
  set (ra := B2R a) in *. set (rb := B2R b) in *. set (rc := B2R c) in *.
  pose proof (moderate_le _ Ma) as Ua. pose proof (moderate_le _ Mb) as Ub. pose proof (moderate_le _ Mc) as Uc.
  assert (La : bpow radix2 (-200) <= Rabs ra) by (destruct Ma as [Z|[H _]]; [contradiction|exact H]).
  (* the factors of the discriminant *)
  destruct (rnd_B (rb * rb)) as (t1 & T1 & E1).
  { destruct Mb as [Z|[H _]]; [left; rewrite Z; ring|right]. apply down with (-200 + -200)%Z; [lia|]. now apply abs_mul_ge. }
  destruct (rnd_B (4 * rc * ra)) as (t2 & T2 & E2').
  { destruct Mc as [Z|[H _]]; [left; rewrite Z; ring|right]. apply down with (2 + -200 + -200)%Z; [lia|]. apply abs_mul_ge; auto. apply abs_mul_ge; auto.
    rewrite Rabs_pos_eq by lra. change (bpow radix2 2) with 4. lra. }
  assert (Fr : forall z, format64 (rnd z)) by (intros; apply generic_format_round; typeclasses eauto).
  destruct (rnd_plus_B (rnd (rb * rb)) (- rnd (4 * rc * ra)) (Fr _) (generic_format_opp _ _ _ (Fr _))) as (t3 & T3 & E3).
  change (rnd (rb * rb) + - rnd (4 * rc * ra)) with (rnd (rb * rb) - rnd (4 * rc * ra)) in E3. rewrite <- R in E3. rewrite E1, E2' in E3.
  pose proof (B_pos _ _ T1) as P1. pose proof (B_pos _ _ T2) as P2. pose proof (B_pos _ _ T3) as P3.
  set (c' := rc * (t2 / t1)). set (D' := rb * rb - 4 * ra * c').
  assert (ED : B2R d = D' * (t1 * t3)).
  { rewrite E3. unfold D', c'. field. lra. }
  assert (D'0 : 0 <= D'). { assert (0 < t1 * t3) by (apply Rmult_lt_0_compat; auto). rewrite ED in D0. nra. }
  set (s' := sqrt D').
  assert (ES0 : sqrt (B2R d) = s' * sqrt (t1 * t3)) by (rewrite ED; apply sqrt_mult; [auto|apply Rlt_le, Rmult_lt_0_compat; auto]).
  destruct (rnd_B (sqrt (B2R d))) as (t4 & T4 & E4).
  { destruct (Req_dec (B2R d) 0) as [Z|Z]; [left; rewrite Z; apply sqrt_0|right].
    assert (bpow radix2 (-1074) <= B2R d).
    { rewrite <- (Rabs_pos_eq (B2R d)) by auto. apply (abs_B2R_ge_emin 53 1024). destruct d as [sg|sg| |sg m e p]; try discriminate F; auto; exfalso; apply Z; reflexivity. }
    rewrite Rabs_pos_eq by apply sqrt_pos. apply Rle_trans with (sqrt (bpow radix2 (-1074))); [|now apply sqrt_le_1_alt].
    replace (-1074)%Z with (-537 + -537)%Z by lia. rewrite bpow_plus, sqrt_square by apply bpow_ge_0. apply bpow_le. lia. }
  assert (T5 : B 2 (sqrt (t1 * t3) * t4)) by (apply (B_mul 1 1); auto; apply B_sqrt; apply (B_mul 1 1); auto).
  assert (ES : B2R s = s' * (sqrt (t1 * t3) * t4)) by (rewrite RS, E4, ES0; ring). set (t5 := sqrt (t1 * t3) * t4) in *.
  assert (S0 : 0 <= s') by apply sqrt_pos.
  assert (US : Rabs (B2R s) <= bpow radix2 202).
  { rewrite RS. apply rnd_abs_le; [lia|]. rewrite Rabs_pos_eq by apply sqrt_pos. apply Rle_trans with (sqrt (bpow radix2 404)).
    - apply sqrt_le_1_alt. apply Rle_trans with (2 := BD). apply Rle_abs.
    - replace 404%Z with (202 + 202)%Z by lia. rewrite bpow_plus, sqrt_square by apply bpow_ge_0. lra. }
  (* the numerator *)
  set (n := if Rlt_bool rb 0 then fsub s b else fsub (fneg s) b). set (n' := if Rlt_bool rb 0 then s' - rb else - s' - rb).
  assert (NN : is_finite n = true /\ Rabs (B2R n) <= bpow radix2 204 /\ exists t6, B 3 t6 /\ B2R n = n' * t6).
  { unfold n, n'. destruct (Rlt_bool_spec rb 0) as [Lb|Lb].
    - destruct (fsub_fact s b 204 FS Fb ltac:(lia)) as (F6 & B6 & R6).
      { apply up with (202 + 1)%Z; [lia|]. apply abs_sub_le; auto. apply up with 200%Z; [lia|auto]. }
      repeat split; auto. destruct (rnd_plus_B (B2R s) (- rb) (fin_format s) (generic_format_opp _ _ _ (fin_format b))) as (t7 & T7 & E7).
      destruct (B_sum 2 s' (- rb) t5 S0 ltac:(lra) T5) as (t8 & T8 & E8). exists (t8 * t7). split; [apply (B_mul 2 1); auto|].
      rewrite R6. unfold Rminus. fold rb. rewrite E7, ES, E8. ring.
    - destruct (fsub_fact (fneg s) b 204) as (F6 & B6 & R6); auto.
      { unfold fneg. now rewrite is_finite_Bopp. } { lia. }
      { unfold fneg. rewrite B2R_Bopp. apply up with (202 + 1)%Z; [lia|]. apply abs_sub_le; [now rewrite Rabs_Ropp|]. apply up with 200%Z; [lia|auto]. }
      repeat split; auto. unfold fneg in *. rewrite B2R_Bopp in R6.
      destruct (rnd_plus_B (- B2R s) (- rb) (generic_format_opp _ _ _ (fin_format s)) (generic_format_opp _ _ _ (fin_format b))) as (t7 & T7 & E7).
      destruct (B_sum 2 s' rb t5 S0 ltac:(lra) T5) as (t8 & T8 & E8). exists (t8 * t7). split; [apply (B_mul 2 1); auto|].
      rewrite R6. unfold Rminus. fold rb. rewrite E7, ES. replace (- (s' * t5) + - rb) with (- (s' * t5 + rb)) by ring. rewrite E8. ring. }
  destruct NN as (Fn & Un & t6 & T6 & En).
  assert (Ln' : bpow radix2 (-200) <= Rabs n').
  { assert (An : Rabs n' = s' + Rabs rb).
    { unfold n'. destruct (Rlt_bool_spec rb 0) as [Lb|Lb].
      - rewrite (Rabs_left rb) by auto. rewrite Rabs_pos_eq by lra. ring.
      - rewrite (Rabs_pos_eq rb) by auto. replace (- s' - rb) with (- (s' + rb)) by ring. rewrite Rabs_Ropp. apply Rabs_pos_eq. lra. }
    rewrite An. destruct Mb as [Z|[H _]]; [|lra]. rewrite Z, Rabs_R0, Rplus_0_r.
    destruct Nbc as [X|X]; [contradiction|]. destruct Mc as [Z2|[Hc _]]; [contradiction|].
    assert (DD : D' = Rabs (4 * (t2 / t1) * (ra * rc))).
    { assert (DE : D' = - (4 * (t2 / t1) * (ra * rc))) by (unfold D', c'; rewrite Z; field; lra).
      rewrite <- (Rabs_pos_eq D') by auto. rewrite DE. apply Rabs_Ropp. }
    assert (T9 : 1 / 2 <= t2 / t1) by (apply (B_half 2); [lia|]; unfold Rdiv; apply (B_mul 1 1); auto; now apply B_inv).
    unfold s'. apply Rle_trans with (sqrt (bpow radix2 (-200 + -200))); [rewrite bpow_plus, sqrt_square by apply bpow_ge_0; lra|].
    apply sqrt_le_1_alt. rewrite DD. rewrite (Rabs_mult (4 * _)). rewrite (Rabs_pos_eq (4 * (t2 / t1))) by lra.
    pose proof (abs_mul_ge ra rc (-200) (-200) La Hc) as Q. pose proof (Rabs_pos (ra * rc)). nra. }
  assert (Nn' : n' <> 0) by (intros Z; rewrite Z, Rabs_R0 in Ln'; pose proof (bpow_gt_0 radix2 (-200)); lra).
  pose proof (B_pos _ _ T6) as P6. pose proof (B_half 3 t6 ltac:(lia) T6) as H6.
  assert (Ln : bpow radix2 (-201) <= Rabs (B2R n)).
  { rewrite En, Rabs_mult, (Rabs_pos_eq t6) by lra. change (-201)%Z with (-200 + -1)%Z. rewrite bpow_plus. apply Rmult_le_compat; auto using bpow_ge_0.
    change (bpow radix2 (-1)) with (/ 2). lra. }
  assert (Nn : B2R n <> 0) by (intros Z; rewrite Z, Rabs_R0 in Ln; pose proof (bpow_gt_0 radix2 (-201)); lra).
  (* 2a and 2c are exact *)
  assert (X2 : Rabs (B2R (fofZ 2)) <= bpow radix2 1) by (rewrite E2, Rabs_pos_eq by lra; change (bpow radix2 1) with 2; lra).
  destruct (fmul_fact (fofZ 2) a 201 F2 Fa ltac:(lia) (abs_mul_le _ _ 1 200 X2 Ua)) as (FA & BA & RA).
  destruct (fmul_fact (fofZ 2) c 201 F2 Fc ltac:(lia) (abs_mul_le _ _ 1 200 X2 Uc)) as (FC & BC & RC).
  rewrite E2 in RA, RC. change 2 with (bpow radix2 1) in RA, RC. rewrite scale_exact in RA, RC by (apply fin_format || lia).
  change (bpow radix2 1) with 2 in RA, RC. fold ra in RA. fold rc in RC.
  assert (LA : bpow radix2 (-199) <= Rabs (B2R (fmul (fofZ 2) a))).
  { rewrite RA. change (-199)%Z with (1 + -200)%Z. apply abs_mul_ge; auto. rewrite Rabs_pos_eq by lra. change (bpow radix2 1) with 2. lra. }
  assert (NA : B2R (fmul (fofZ 2) a) <> 0) by (rewrite RA; intros Z; apply Na; lra).
  destruct (fdiv_fact n (fmul (fofZ 2) a) 500 Fn FA NA ltac:(lia)) as (G1 & _ & Q1).
  { apply up with (204 - -199)%Z; [lia|]. now apply abs_div_le. }
  destruct (fdiv_fact (fmul (fofZ 2) c) n 500 FC Fn Nn ltac:(lia)) as (G2 & _ & Q2).
  { apply up with (201 - -201)%Z; [lia|]. now apply abs_div_le. }
  fold rb. intros EQ. change (Some (fdiv n (fmul (fofZ 2) a), fdiv (fmul (fofZ 2) c) n) = Some (x1, x2)) in EQ.
  assert (EX1 : x1 = fdiv n (fmul (fofZ 2) a)) by congruence. assert (EX2 : x2 = fdiv (fmul (fofZ 2) c) n) by congruence. clear EQ. subst x1 x2.
  split; auto. split; auto.
  destruct (rnd_B (B2R n / B2R (fmul (fofZ 2) a))) as (t7 & T7 & E7).
  { right. apply down with (-201 - 201)%Z; [lia|]. now apply abs_div_ge. }
  destruct (rnd_B (B2R (fmul (fofZ 2) c) / B2R n)) as (t8 & T8 & E8).
  { destruct Mc as [Z|[H _]]; [left; rewrite RC; fold rc; rewrite Z; unfold Rdiv; ring|right].
    apply down with (-199 - 204)%Z; [lia|]. apply abs_div_ge; auto. rewrite RC. change (-199)%Z with (1 + -200)%Z. apply abs_mul_ge; auto.
    rewrite Rabs_pos_eq by lra. change (bpow radix2 1) with 2. lra. }
  exists c', (n' / (2 * ra)), (2 * c' / n'). split; [|split; [|split]].
  - replace (c' - rc) with ((t2 / t1 - 1) * rc) by (unfold c'; ring). rewrite Rabs_mult. apply Rmult_le_compat_r; [apply Rabs_pos|].
    apply B_close2. unfold Rdiv. apply (B_mul 1 1); auto. now apply B_inv.
  - assert (NBC : rb <> 0 \/ c' <> 0).
    { destruct Nbc as [X|X]; [left; auto|right]. unfold c'. apply Rmult_integral_contrapositive_currified; auto. apply Rgt_not_eq. apply Rdiv_lt_0_compat; auto. }
    destruct (solveQuadratic_partial ra rb c' Na) as [_ H]. destruct (H D'0 NBC) as (y1 & y2 & SE & RT). 
    assert (SE' : Some (n' / (2 * ra), 2 * c' / n') = Some (y1, y2)).
    { rewrite <- SE. unfold solveQuadratic. cbn [RArith num a_add a_sub a_mul a_div a_sqrt a_opp a_ltb a_ofZ].
      replace (rb * rb - 4 * c' * ra) with D' by (unfold D'; ring). rewrite Rlt_bool_false by auto. reflexivity. }
    injection SE' as -> ->. exact RT.
  - rewrite Q1, E7, RA, En. replace (n' * t6 / (2 * ra) * t7 - n' / (2 * ra)) with ((t6 * t7 - 1) * (n' / (2 * ra))) by (field; auto).
    rewrite Rabs_mult. apply Rmult_le_compat_r; [apply Rabs_pos|]. apply (B_close 4); [lia|]. apply (B_mul 3 1); auto.
  - rewrite Q2, E8, RC, En. set (t9 := t1 * / t2 * / t6 * t8).
    assert (ERC : rc = c' * (t1 * / t2)) by (unfold c'; field; lra).
    replace (2 * rc / (n' * t6) * t8 - 2 * c' / n') with ((t9 - 1) * (2 * c' / n')) by (rewrite ERC; unfold t9; field; lra).
    rewrite Rabs_mult. apply Rmult_le_compat_r; [apply Rabs_pos|]. apply (B_close 6); [lia|].
    unfold t9. apply (B_mul 5 1); auto. apply (B_mul 2 3); [apply (B_mul 1 1); auto; now apply B_inv|now apply B_inv].
Qed.
(** Imaginary roots are not always refused: here b^2 - 4ac = -3, which rounding hides. *)
Theorem solveQuadratic_imaginary_refuted : exists a b c, moderate (B2R a) /\ moderate (B2R b) /\ moderate (B2R c) /\ B2R b * B2R b - 4 * B2R a * B2R c < 0 /\
  solveQuadratic FArith a b c <> None.
Proof.
  exists (fofZ 111), (fofZ 1073741829), (fofZ 2596670079604201).
  destruct (fofZ_correct 111 ltac:(lia)) as [-> _]. destruct (fofZ_correct 1073741829 ltac:(lia)) as [-> _]. destruct (fofZ_correct 2596670079604201 ltac:(lia)) as [-> _].
  assert (M : forall z, (1 <= z <= 2 ^ 53)%Z -> moderate (IZR z)).
  { intros z Z. right. assert (1 <= IZR z) by (apply IZR_le; lia). rewrite Rabs_pos_eq by lra. split.
    - apply Rle_trans with (bpow radix2 0); [apply bpow_le; lia|change (bpow radix2 0) with 1; lra].
    - apply Rle_trans with (bpow radix2 53); [|apply bpow_le; lia]. rewrite <- (IZR_Zpower radix2) by lia. apply IZR_le. cbn [radix_val radix2]. lia. }
  split; [apply M; lia|]. split; [apply M; lia|]. split; [apply M; lia|]. split; [lra|].
  assert (S : (match solveQuadratic FArith (fofZ 111) (fofZ 1073741829) (fofZ 2596670079604201) with Some _ => true | None => false end) = true) by (vm_compute; reflexivity).
  intros N. rewrite N in S. discriminate S.
Qed.
(** the hypotheses of solveQuadratic_stable are met by x^2 - 5x + 6 *)
Example solveQuadratic_case : exists x1 x2, solveQuadratic FArith (fofZ 1) (fofZ (-5)) (fofZ 6) = Some (x1, x2) /\ B2R x1 = 3 /\ B2R x2 = 2.
Proof.
  eexists. eexists. split; [reflexivity|]. split.
  - replace (fdiv _ _) with (fofZ 3) by (apply BinarySingleNaN.B2SF_inj; vm_compute; reflexivity). apply (fofZ_correct 3). lia.
  - replace (fdiv _ _) with (fofZ 2) by (apply BinarySingleNaN.B2SF_inj; vm_compute; reflexivity). apply (fofZ_correct 2). lia.
Qed.
Print Assumptions solveQuadratic_stable.
