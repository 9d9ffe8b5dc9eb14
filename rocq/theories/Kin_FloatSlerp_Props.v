(** C148: qslerp, lerp, slerpTransformations and interpolateTransformations in binary64. *)
From Coq Require Import Reals Psatz List Permutation Lia.
From Flocq Require Plus_error Relative.
From Verif Require Import PiBound Float64 Nsec_Proofs TimerTable_Num Round_Proofs Kin_Angle_Props Kin_Float_Model Kin_FloatExp_Model Kin_FloatR_Model Kin_FloatMat_Model Kin_FloatParam_Model Kin_FloatLog_Model.
From Verif Require Import LinAlg Kin_Quat_Props Kin_Trans_Model Kin_Trans_Props Kin_Rot_Model Kin_Rot_Props Kin_Interp_Props Kin_Float_Geom Kin_Float_Num Kin_Float_Props Kin_Float_Matrix Kin_FloatR_Props Kin_FloatExp_Props Kin_FloatMat_Props Kin_FloatParam_Props Kin_FloatParam_RV Kin_FloatT_Model Kin_FloatT_Props Kin_FloatLog_Geom Kin_FloatLog_Props Kin_Quat_Model.
Import ListNotations.
Open Scope R_scope.

(** ** which of the two quaternions of the same rotation is nearer *)
Lemma sqnorm_close E q : eigen_ok E -> finite4 q -> norm4 (val4 q) <= 3 -> is_finite (fsquaredNorm E q) = true /\ Rabs (B2R (fsquaredNorm E q) - norm4 (val4 q) * norm4 (val4 q)) <= 41 / 10 * u * (norm4 (val4 q) * norm4 (val4 q)) + u / 1000.
Proof.
  intros OK (Q0 & Q1 & Q2 & Q3) NU. pose proof (norm4_pos (val4 q)) as NP. set (N := norm4 (val4 q)) in *. pose proof u53_pos as UP. pose proof eta_smaller as ES.
  assert (NB : N * N <= BIG). { apply Rle_trans with (bpow radix2 4); [change (bpow radix2 4) with 16; replace 16 with (4 * 4) by ring; apply Rmult_le_compat; lra|apply bpow_le; lia]. }
  set (x := fun i => fmul (fat4 q i) (fat4 q i)). set (a := fun i => B2R (fat4 q i) * B2R (fat4 q i)).
  assert (A0 : forall i, 0 <= a i) by (intros i; unfold a; apply Rle_0_sqr).
  assert (FI : forall i, is_finite (fat4 q i) = true) by (intros [|[|[|i]]]; assumption).
  assert (AS : Rsum (map a (leaves (order E))) = N * N).
  { rewrite (Rsum_perm _ _ (Permutation_map a OK)). unfold N. rewrite norm4_sq. unfold dot4, val4, a. cbn [map Rsum fold_right fat4 e0 e1 e2 e3]. ring. }
  assert (AI : forall i, a i <= N * N).
  { intros i. unfold N. rewrite norm4_sq. unfold dot4, val4, a. cbn [e0 e1 e2 e3]. pose proof (A0 0%nat). pose proof (A0 1%nat). pose proof (A0 2%nat). pose proof (A0 3%nat). unfold a in *. cbn [fat4] in *.
    destruct i as [|[|[|i]]]; cbn [fat4]; lra. }
  assert (XA : forall i, nr (x i) (a i) (a i) (101 / 100) 2).
  { intros i. assert (AA : Rabs (B2R (fat4 q i)) * Rabs (B2R (fat4 q i)) = a i) by (unfold a, Rabs; destruct (Rcase_abs _); ring).
    unfold x. pose proof (nr_mul_exact (fat4 q i) (fat4 q i) (FI i) (FI i)) as NM. rewrite AA in NM. apply NM. specialize (AI i). lra. }
  assert (LN : INR (length (leaves (order E))) = 4) by (rewrite (Permutation_length OK); cbn; lra).
  destruct (tree_nr x a (order E) A0 XA) as [(FZ & _ & EZ) _]; [lra|lra|]. rewrite LN, AS in EZ. change (fsum_tree x (order E)) with (fsquaredNorm E q) in FZ, EZ.
  split; [exact FZ|]. assert (0 <= u * (N * N)) by (repeat apply Rmult_le_pos; lra). lra.
Qed.
Lemma fadd4_err s t : finite4 s -> finite4 t -> norm4 (val4 s) <= 3 -> norm4 (val4 t) <= 3 ->
  finite4 (fadd4 s t) /\ dist4 (val4 (fadd4 s t)) (add4 (val4 s) (val4 t)) <= u * norm4 (add4 (val4 s) (val4 t)) + 2 * eta.
Proof.
  intros (S0 & S1 & S2 & S3) (T0 & T1 & T2 & T3) NS NT. pose proof (comp4 (val4 s)) as (A0 & A1 & A2 & A3). pose proof (comp4 (val4 t)) as (B0 & B1 & B2 & B3). cbn [val4 e0 e1 e2 e3] in *.
  assert (C : forall x y : f64, is_finite x = true -> is_finite y = true -> Rabs (B2R x) <= 3 -> Rabs (B2R y) <= 3 ->
    is_finite (fadd x y) = true /\ Rabs (B2R (fadd x y) - (B2R x + B2R y)) <= u * Rabs (B2R x + B2R y) + eta).
  { intros x y FX FY BX BY. destruct (fadd_rnd x y 3 FX FY ltac:(lia)) as [V F]; [change (bpow radix2 3) with 8; pose proof (Rabs_triang (B2R x) (B2R y)); lra|]. split; [exact F|]. rewrite V. apply rnd_err. }
  destruct (C _ _ S0 T0 ltac:(lra) ltac:(lra)) as [F0 E0]. destruct (C _ _ S1 T1 ltac:(lra) ltac:(lra)) as [F1 E1]. destruct (C _ _ S2 T2 ltac:(lra) ltac:(lra)) as [F2 E2]. destruct (C _ _ S3 T3 ltac:(lra) ltac:(lra)) as [F3 E3].
  split; [repeat split; assumption|]. pose proof u53_pos. pose proof eta_pos. unfold dist4. apply norm4_rel; try lra; assumption.
Qed.
Lemma fneg4_val q : finite4 q -> finite4 (fneg4 q) /\ val4 (fneg4 q) = opp4 (val4 q).
Proof.
  intros (F0 & F1 & F2 & F3). destruct (fneg_val _ F0) as [G0 V0]. destruct (fneg_val _ F1) as [G1 V1]. destruct (fneg_val _ F2) as [G2 V2]. destruct (fneg_val _ F3) as [G3 V3'].
  split; [repeat split; assumption|]. unfold val4, fneg4, opp4. cbn [f0 f1 f2 f3 e0 e1 e2 e3]. now rewrite V0, V1, V2, V3'.
Qed.
(** x - y and x + (-y) are the same operation *)
Lemma fsub4_add x y : finite4 x -> finite4 y -> norm4 (val4 x) <= 3 -> norm4 (val4 y) <= 3 ->
  finite4 (fsub4 x y) /\ dist4 (val4 (fsub4 x y)) (sub4 (val4 x) (val4 y)) <= u * norm4 (sub4 (val4 x) (val4 y)) + 2 * eta.
Proof.
  intros (S0 & S1 & S2 & S3) (T0 & T1 & T2 & T3) NS NT. pose proof (comp4 (val4 x)) as (A0 & A1 & A2 & A3). pose proof (comp4 (val4 y)) as (B0 & B1 & B2 & B3). cbn [val4 e0 e1 e2 e3] in *.
  assert (C : forall x y : f64, is_finite x = true -> is_finite y = true -> Rabs (B2R x) <= 3 -> Rabs (B2R y) <= 3 ->
    is_finite (fsub x y) = true /\ Rabs (B2R (fsub x y) - (B2R x - B2R y)) <= u * Rabs (B2R x - B2R y) + eta).
  { intros a b FX FY BX BY. destruct (fsub_rnd a b 3 FX FY ltac:(lia)) as [V F]; [change (bpow radix2 3) with 8; pose proof (Rabs_triang (B2R a) (- B2R b)) as T; rewrite Rabs_Ropp in T; unfold Rminus; lra|]. split; [exact F|]. rewrite V. apply rnd_err. }
  destruct (C _ _ S0 T0 ltac:(lra) ltac:(lra)) as [F0 E0]. destruct (C _ _ S1 T1 ltac:(lra) ltac:(lra)) as [F1 E1]. destruct (C _ _ S2 T2 ltac:(lra) ltac:(lra)) as [F2 E2]. destruct (C _ _ S3 T3 ltac:(lra) ltac:(lra)) as [F3 E3].
  split; [repeat split; assumption|]. pose proof u53_pos. pose proof eta_pos. unfold dist4. apply norm4_rel; try lra; assumption.
Qed.
(** the squared length of a sum as the program computes it *)
Lemma sq_close E z v : eigen_ok E -> finite4 z -> dist4 (val4 z) v <= u * norm4 v + 2 * eta -> norm4 v <= 21 / 10 -> is_finite (fsquaredNorm E z) = true /\ Rabs (B2R (fsquaredNorm E z) - norm4 v * norm4 v) <= 28 * u.
Proof.
  intros OK F D N. pose proof u53_pos as UP. pose proof u_val as UV. pose proof eta_smaller as ES. pose proof (norm4_pos v) as N0. pose proof (norm4_pos (val4 z)) as M0. pose proof (dist4_norm (val4 z) v) as DN.
  assert (UN : u * norm4 v <= u * (21 / 10)) by (apply Rmult_le_compat_l; lra). set (m := norm4 (val4 z)) in *. set (n := norm4 v) in *. assert (DM : Rabs (m - n) <= 22 / 10 * u) by lra. pose proof (Rabs_le_inv _ _ DM) as MI.
  destruct (sqnorm_close E z OK F ltac:(fold m; lra)) as [FS ES2]. fold m in ES2. split; [exact FS|].
  assert (MM : m * m <= 2101 / 1000 * (2101 / 1000)) by (apply Rmult_le_compat; lra).
  assert (UM : u * (m * m) <= u * (2101 / 1000 * (2101 / 1000))) by (apply Rmult_le_compat_l; lra).
  assert (D2 : Rabs (m * m - n * n) <= 22 / 10 * u * (4201 / 1000)). { replace (m * m - n * n) with ((m - n) * (m + n)) by ring. rewrite Rabs_mult, (Rabs_pos_eq (m + n)) by lra. apply Rmult_le_compat; try lra; apply Rabs_pos. }
  replace (B2R (fsquaredNorm E z) - n * n) with ((B2R (fsquaredNorm E z) - m * m) + (m * m - n * n)) by ring. apply Rle_trans with (1 := Rabs_triang _ _). lra.
Qed.
Definition ftarget (E : eigen) (a b : F4) : F4 := if fltb (fsquaredNorm E (fadd4 a b)) (fsquaredNorm E (fsub4 a b)) then fneg4 b else b.
Lemma target_near E a b : eigen_ok E -> near_unit a -> near_unit b -> let t := ftarget E a b in
  near_unit t /\ (t = b \/ val4 t = opp4 (val4 b)) /\ - 15 * u <= dot4 (val4 a) (val4 t).
Proof.
  intros OK NA NB t. pose proof (near_pos _ NA) as PA. pose proof (near_pos _ NB) as PB. destruct NA as [FA NA], NB as [FB NB]. pose proof u53_pos as UP.
  destruct (fadd4_err a b FA FB ltac:(lra) ltac:(lra)) as [F1 D1]. destruct (fsub4_add a b FA FB ltac:(lra) ltac:(lra)) as [F2 D2].
  assert (N1 : norm4 (add4 (val4 a) (val4 b)) <= 21 / 10) by (apply Rle_trans with (1 := norm4_triangle _ _); lra).
  assert (N2 : norm4 (sub4 (val4 a) (val4 b)) <= 21 / 10). { replace (sub4 (val4 a) (val4 b)) with (add4 (val4 a) (opp4 (val4 b))) by vring. apply Rle_trans with (1 := norm4_triangle _ _). replace (norm4 (opp4 (val4 b))) with (norm4 (val4 b)); [lra|]. unfold norm4. f_equal. vring. }
  destruct (sq_close E _ _ OK F1 D1 N1) as [G1 S1]. destruct (sq_close E _ _ OK F2 D2 N2) as [G2 S2]. rewrite norm4_sq in S1, S2. apply Rabs_le_inv in S1, S2.
  assert (PM : dot4 (add4 (val4 a) (val4 b)) (add4 (val4 a) (val4 b)) - dot4 (sub4 (val4 a) (val4 b)) (sub4 (val4 a) (val4 b)) = 4 * dot4 (val4 a) (val4 b)) by (generalize (val4 a) (val4 b); intros; vring).
  destruct (fneg4_val b FB) as [FN VN]. unfold t, ftarget. destruct (fltb (fsquaredNorm E (fadd4 a b)) (fsquaredNorm E (fsub4 a b))) eqn:B; apply fltb_val in B; auto.
  - refine (conj (conj FN _) (conj (or_intror VN) _)).
    + rewrite VN. replace (norm4 (opp4 (val4 b))) with (norm4 (val4 b)); [exact NB|]. unfold norm4. f_equal. generalize (val4 b). intros. vring.
    + rewrite VN. replace (dot4 (val4 a) (opp4 (val4 b))) with (- dot4 (val4 a) (val4 b)) by (generalize (val4 a) (val4 b); intros; vring). lra.
  - refine (conj (conj FB NB) (conj (or_introl eq_refl) _)). lra.
Qed.

(** ** The chain of operations *)
Lemma near_dist a : near_unit a -> unit4 (normalize4 (val4 a)) /\ dist4 (val4 a) (normalize4 (val4 a)) <= 8 * u.
Proof. intros N. pose proof (near_pos _ N) as P. destruct N as [_ N]. split; [apply normalize4_is_unit; lra|]. rewrite normalize4_dist by lra. exact N. Qed.
Lemma e3_close x y : Rabs (e3 x - e3 y) <= dist4 x y.
Proof. unfold dist4. pose proof (comp4 (sub4 x y)) as (_ & _ & _ & H). exact H. Qed.
Lemma quarter_of_cos p : 0 <= p <= PI -> - 100 * u <= cos p -> quarter p.
Proof.
  intros P C. unfold quarter. split; [lra|]. destruct (Rle_dec p (PI / 2 + 1 / 100)) as [|G]; [assumption|]. exfalso. pose proof PI_decimal as PD. pose proof u_val as UV.
  assert (L : sin (1 / 100) <= sin (p - PI / 2)) by (apply sin_incr_1; lra). destruct (sin_cubic (1 / 100) ltac:(lra)) as [SC _].
  assert (S : sin (p - PI / 2) = - cos p) by (rewrite sin_minus, sin_PI2, cos_PI2; ring). lra.
Qed.
Lemma fscale3_err (t : f64) w : is_finite t = true -> 0 <= B2R t <= 1 -> finite3 w -> norm3 (val3 w) <= bpow radix2 600 ->
  finite3 (fscale3 t w) /\ dist3 (val3 (fscale3 t w)) (scale3 (B2R t) (val3 w)) <= u * (B2R t * norm3 (val3 w)) + 2 * eta.
Proof.
  intros FT TB (F0 & F1 & F2) NW. pose proof (comp3 (val3 w)) as (A0 & A1 & A2). cbn [val3 vx vy vz] in *. pose proof u53_pos as UP. pose proof eta_pos as EP.
  assert (C : forall x : f64, is_finite x = true -> Rabs (B2R x) <= bpow radix2 600 -> is_finite (fmul t x) = true /\ Rabs (B2R (fmul t x) - B2R t * B2R x) <= u * Rabs (B2R t * B2R x) + eta).
  { intros x FX BX. destruct (fmul_rnd t x 600 FT FX ltac:(lia)) as [V F]; [|split; [exact F|rewrite V; apply rnd_err]]. rewrite Rabs_mult, (Rabs_pos_eq (B2R t)) by lra. rewrite <- (Rmult_1_l (bpow radix2 600)). apply Rmult_le_compat; try lra. apply Rabs_pos. }
  destruct (C _ F0 ltac:(lra)) as [G0 E0]. destruct (C _ F1 ltac:(lra)) as [G1 E1]. destruct (C _ F2 ltac:(lra)) as [G2 E2].
  split; [repeat split; assumption|]. pose proof (dist3_rel (val3 (fscale3 t w)) (scale3 (B2R t) (val3 w)) u eta ltac:(lra) ltac:(lra) E0 E1 E2) as D.
  rewrite norm3_scale_abs, (Rabs_pos_eq (B2R t)) in D by lra. exact D.
Qed.
(** the turn from a to the target *)
Lemma turn_between a t : near_unit a -> near_unit t -> - 15 * u <= dot4 (val4 a) (val4 t) -> let A := normalize4 (val4 a) in let T := normalize4 (val4 t) in let R := qplus (quatInv A) T in let r := fqplus (fquatInv a) t in
  unit4 R /\ T = qplus A R /\ - 16 * u <= e3 R /\ finite4 r /\ dist4 (val4 r) R <= 251 / 10 * u.
Proof.
  intros NA NT DT A T R r. destruct (near_dist a NA) as [UA DA]. destruct (near_dist t NT) as [UT DTT]. fold A in UA, DA. fold T in UT, DTT. pose proof u53_pos as UP. pose proof u_val as UV.
  pose proof (near_pos _ NA) as PA. pose proof (near_pos _ NT) as PT. pose proof (finv_near a NA) as NI.
  assert (UR : unit4 R) by (apply unit_qplus; auto using unit_quatInv). split; [exact UR|]. split.
  - unfold R. rewrite <- qplus_assoc, (proj1 (quatInv_inverse A UA)). symmetry. apply qplus_identity.
  - split.
    + replace (e3 R) with (dot4 A T) by (unfold R, qplus, quatInv; generalize A T; intros; vring).
      set (na := norm4 (val4 a)) in *. set (nt := norm4 (val4 t)) in *. set (d := dot4 (val4 a) (val4 t)) in *.
      assert (E : dot4 A T = d / (na * nt)). { unfold A, T, normalize4. fold na nt. destruct (Rlt_dec 0 na); [|lra]. destruct (Rlt_dec 0 nt); [|lra]. unfold d. generalize (val4 a) (val4 t). intros x y. unfold dot4, scale4. cbn [e0 e1 e2 e3]. field. lra. }
      rewrite E. destruct NA as [_ NA], NT as [_ NT]. apply Rabs_le_inv in NA, NT. fold na in NA. fold nt in NT.
      assert (NN : 99 / 100 <= na * nt) by (replace (99 / 100) with (995 / 1000 * (990 / 995)) by field; apply Rmult_le_compat; rewrite ?UV in *; lra).
      apply (Rmult_le_reg_r (na * nt)); [lra|]. replace (d / (na * nt) * (na * nt)) with d by (field; lra). assert (- 16 * u * (na * nt) <= - 16 * u * (99 / 100)) by (assert (u * (99 / 100) <= u * (na * nt)) by (apply Rmult_le_compat_l; lra); lra). lra.
    + destruct (fqplus_err (fquatInv a) t (proj1 NI) (proj1 NT) (near_short _ NI) (near_short _ NT)) as [F D]. fold r in F, D. split; [exact F|]. rewrite finv_val in D.
      apply Rle_trans with (1 := dist4_tri _ (qplus (quatInv (val4 a)) (val4 t)) _). pose proof (qplus_dist (quatInv (val4 a)) (val4 t) (quatInv A) T) as Q. rewrite dist4_quatInv, norm4_quatInv, (norm4_unit A UA) in Q.
      assert (dist4 (val4 a) A * norm4 (val4 t) <= 8 * u * (1001 / 1000)) by (apply Rmult_le_compat; try lra; apply dist4_pos). unfold R. lra.
Qed.
Definition slerp_series (x : R) : R := if Rlt_dec x (/ 4000) then 4 / 10 ^ 13 else 0.
(** exponential of a fraction of the logarithm *)
Lemma fraction_err L r R0 e p (t : f64) : lib2_ok L -> finite4 r -> dist4 (val4 r) R0 <= 251 / 10 * u -> unit4 R0 -> - 16 * u <= e3 R0 -> unit3 e -> 0 <= p <= PI -> R0 = qv e p -> is_finite t = true -> 0 < B2R t < 1 ->
  let x := faxisAngle2quat (base L) (fscale3 t (fqlog L r)) in
  finite4 x /\ Rabs (norm4 (val4 x) - 1) <= 11 * u /\ dist4 (val4 x) (qv e (B2R t * p)) <= 186 * u + slerp_series (B2R t * (2 * p)).
Proof.
  intros OK FR DR UR E3 UE P ER FT TB x. pose proof u53_pos as UP. pose proof u_val as UV. pose proof PI_decimal as PD. pose proof eta_smaller as ES.
  pose proof (dist4_norm (val4 r) R0) as DN. rewrite (norm4_unit R0 UR) in DN. assert (NR : Rabs (norm4 (val4 r) - 1) <= 251 / 10 * u) by lra. pose proof (Rabs_le_inv _ _ NR) as NI.
  assert (NPOS : 0 < norm4 (val4 r)) by lra. pose proof (normalize4_is_unit _ NPOS) as UN. pose proof (normalize4_dist _ NPOS) as DRN. set (Rn := normalize4 (val4 r)) in *.
  assert (DRR : dist4 Rn R0 <= 502 / 10 * u) by (pose proof (dist4_tri Rn (val4 r) R0) as TT; rewrite (dist4_sym Rn (val4 r)) in TT; lra).
  destruct (unit_is_qv Rn UN) as (e' & p' & UE' & P' & EN). pose proof (e3_close Rn R0) as C3. pose proof (e3_close (val4 r) R0) as C4. apply Rabs_le_inv in C3, C4.
  assert (Q0 : quarter p) by (apply quarter_of_cos; [exact P|]; rewrite ER in E3; unfold qv in E3; cbn [cons4 e3] in E3; lra).
  assert (CE : e3 Rn = cos p') by (rewrite EN; reflexivity). assert (Q1 : quarter p') by (apply quarter_of_cos; [exact P'|]; rewrite <- CE; lra).
  set (v := scale3 (2 * p') e'). assert (NV : norm3 v = 2 * p') by (unfold v; rewrite norm3_scale_abs, Rabs_pos_eq by lra; unfold norm3; unfold unit3 in UE'; rewrite UE', sqrt_1; ring).
  assert (LG : logarithm v (val4 r)). { split; [|rewrite NV; lra]. fold Rn. rewrite EN. apply qv_rotation_quaternion; [exact UE'|lra]. }
  assert (DIR : 0 < B2R (f3 r) \/ bpow radix2 (-400) <= norm3 (head3 (val4 r))).
  { destruct (Rlt_dec 0 (B2R (f3 r))) as [G|G]; [now left|right]. apply Rnot_lt_le in G. change (B2R (f3 r)) with (e3 (val4 r)) in G.
    apply Rle_trans with (1 / 2); [apply Rle_trans with (bpow radix2 (-1)); [apply bpow_le; lia|cbn; lra]|]. apply Rsq_le'; [apply norm3_pos|]. rewrite norm3_sq.
    assert (NS : dot3 (head3 (val4 r)) (head3 (val4 r)) + e3 (val4 r) * e3 (val4 r) = norm4 (val4 r) * norm4 (val4 r)) by (rewrite norm4_sq; generalize (val4 r); intros; vring).
    assert (99 / 100 * (99 / 100) <= norm4 (val4 r) * norm4 (val4 r)) by (apply Rmult_le_compat; lra).
    assert (e3 (val4 r) * e3 (val4 r) <= 1 / 10 * (1 / 10)) by (apply Rsqr_le_abs_1; rewrite (Rabs_pos_eq (1 / 10)) by lra; apply Rabs_le; lra). lra. }
  destruct (float_log L r v OK FR ltac:(lra) DIR LG) as [FW DW]. rewrite NV in DW. set (w := fqlog L r) in *.
  destruct Q1 as [Q1a Q1b]. pose proof (log_error_pos (2 * p') ltac:(lra)) as L0. set (n := 2 * p') in *.
  assert (N4 : 0 <= n <= 317 / 100) by (unfold n; lra).
  assert (LS : log_error n <= 61 / 10 ^ 14 /\ log_error n <= / 10 ^ 5 * n).
  { unfold log_error. destruct (Rlt_dec n (/ 4090)); [|lra]. assert (n * n <= / 4090 * / 4090) by (apply Rmult_le_compat; lra). assert (n * n * n <= / 4090 * / 4090 * n) by (apply Rmult_le_compat_r; lra). lra. }
  assert (UN2 : 64 * u * n <= / 10 ^ 9 * n) by (apply Rmult_le_compat_r; lra). assert (UNN : 0 <= u * n <= u * (317 / 100)) by (split; [apply Rmult_le_pos|apply Rmult_le_compat_l]; lra).
  pose proof (dist3_norm (val3 w) v) as NW. rewrite NV in NW. pose proof (norm3_pos (val3 w)) as NW0.
  assert (NWB : norm3 (val3 w) <= 10001 / 10000 * n) by lra. assert (NWL : n <= norm3 (val3 w) + (64 * u * n + log_error n)) by (pose proof (dist3_norm v (val3 w)) as H; rewrite dist3_sym, NV in H; lra).
  destruct (fscale3_err t w FT ltac:(lra) FW ltac:(apply Rle_trans with (bpow radix2 3); [change (bpow radix2 3) with 8; lra|apply bpow_le; lia])) as [FW1 DW1]. set (w1 := fscale3 t w) in *.
  set (tr := B2R t) in *. assert (TW : 0 <= tr * norm3 (val3 w) <= 10001 / 10000 * (tr * n)). { split; [apply Rmult_le_pos; lra|]. replace (10001 / 10000 * (tr * n)) with (tr * (10001 / 10000 * n)) by ring. apply Rmult_le_compat_l; lra. }
  assert (TN : 0 <= tr * n <= n). { split; [apply Rmult_le_pos; lra|]. rewrite <- (Rmult_1_l n) at 2. apply Rmult_le_compat_r; lra. }
  assert (UTW : 0 <= u * (tr * norm3 (val3 w)) <= u * (318 / 100)) by (split; [apply Rmult_le_pos|apply Rmult_le_compat_l]; lra).
  assert (DW2 : dist3 (val3 w1) (scale3 tr v) <= 2061 / 10 * u + tr * log_error n + 2 * eta).
  { apply Rle_trans with (1 := dist3_tri _ (scale3 tr (val3 w)) _). assert (ED : dist3 (scale3 tr (val3 w)) (scale3 tr v) = tr * dist3 (val3 w) v). { unfold dist3. rewrite <- (Rabs_pos_eq tr) at 3 by lra. rewrite <- norm3_scale_abs. f_equal. generalize (val3 w) v. intros. vring. }
    rewrite ED. assert (tr * dist3 (val3 w) v <= tr * (64 * u * n + log_error n)) by (apply Rmult_le_compat_l; lra). assert (tr * (u * n) <= 1 * (u * n)) by (apply Rmult_le_compat_r; lra). lra. }
  destruct (rotation_quaternion_exists (val3 w1)) as [E1 RE1].
  assert (NW1 : norm3 (val3 w1) <= tr * norm3 (val3 w) + (u * (tr * norm3 (val3 w)) + 2 * eta)). { pose proof (dist3_norm (val3 w1) (scale3 tr (val3 w))) as H. rewrite norm3_scale_abs, Rabs_pos_eq in H by lra. lra. }
  assert (NW1L : tr * norm3 (val3 w) <= norm3 (val3 w1) + (u * (tr * norm3 (val3 w)) + 2 * eta)). { pose proof (dist3_norm (scale3 tr (val3 w)) (val3 w1)) as H. rewrite dist3_sym, norm3_scale_abs, Rabs_pos_eq in H by lra. lra. }
  destruct (float_exp_partial (base L) w1 E1 (proj1 OK) FW1 ltac:(apply Rle_trans with (bpow radix2 3); [change (bpow radix2 3) with 8; lra|apply bpow_le; lia]) RE1) as (FX & NX & DX). fold x in FX, NX, DX.
  split; [exact FX|]. split; [exact NX|].
  assert (RV : rotation_quaternion (scale3 tr v) (qv e' (tr * p'))). { replace (scale3 tr v) with (scale3 (2 * (tr * p')) e') by (unfold v, n; generalize p' e' tr; intros; vring). apply qv_rotation_quaternion; [exact UE'|apply Rmult_le_pos; lra]. }
  pose proof (exp_lipschitz _ _ _ _ RE1 RV) as XL.
  pose proof (slerp_lipschitz e' e p' p tr UE' UE (conj Q1a Q1b) Q0 ltac:(lra)) as SL. rewrite <- EN, <- ER in SL.
  apply Rle_trans with (1 := dist4_tri _ E1 _). pose proof (dist4_tri E1 (qv e' (tr * p')) (qv e (tr * p))) as T2.
  assert (UW1 : u * norm3 (val3 w1) <= u * (319 / 100)) by (apply Rmult_le_compat_l; lra).
  assert (PP : Rabs (p' - p) <= 1 / 10 ^ 12). { 
    assert (HS : 68 / 100 * Rabs ((p' - p) / 2 - 0) <= Rabs (sin ((p' - p) / 2) - sin 0)).
    { destruct Q0 as [Q0a Q0b]. assert (BX : Rabs ((p' - p) / 2) <= 7904 / 10000) by (apply Rabs_le; lra). apply sin_close; [lra|rewrite Rabs_R0; lra| |rewrite cos_0; lra].
      pose proof (cos_ge ((p' - p) / 2)) as CG. assert ((p' - p) / 2 * ((p' - p) / 2) <= 7904 / 10000 * (7904 / 10000)) by (apply Rsqr_le_abs_1 with (x := (p' - p) / 2); rewrite (Rabs_pos_eq (7904 / 10000)) by lra; exact BX). lra. }
    rewrite sin_0, !Rminus_0_r in HS.
    assert (HD : Rabs (sin ((p' - p) / 2)) <= 502 / 10 * u).
    { pose proof (qv_dist e' e p' p UE' UE) as QD. rewrite <- EN, <- ER in QD. pose proof (norm4_sq (sub4 Rn R0)) as NSQ. rewrite QD in NSQ. fold (dist4 Rn R0) in NSQ.
      assert (C2 : cos (p' - p) = 1 - 2 * (sin ((p' - p) / 2) * sin ((p' - p) / 2))) by (rewrite <- Rmult_assoc, <- cos_2a_sin; f_equal; field). rewrite C2 in NSQ.
      pose proof (dot3_le_1 e' e UE' UE) as DL. pose proof (sin_ge_0 p' (proj1 P') (proj2 P')) as S1. pose proof (sin_ge_0 p (proj1 P) (proj2 P)) as S2. 
      assert (0 <= sin p' * sin p * (1 - dot3 e' e)) by (repeat apply Rmult_le_pos; lra). pose proof (dist4_pos Rn R0) as DP. set (sx := sin ((p' - p) / 2)) in *.
      apply Rsq_le; [lra|]. assert (dist4 Rn R0 * dist4 Rn R0 <= 502 / 10 * u * (502 / 10 * u)) by (apply Rmult_le_compat; lra). pose proof (Rle_0_sqr sx) as SX0. unfold Rsqr in SX0. lra. }
    unfold Rdiv in HS. rewrite Rabs_mult, (Rabs_pos_eq (/ 2)) in HS by lra. rewrite UV in HD. unfold Rdiv in HD at 1. lra. }
  assert (SE : small_error (norm3 (val3 w1)) + tr * log_error n / 2 <= slerp_series (tr * (2 * p))).
  { apply Rabs_le_inv in PP. assert (TP : tr * (2 * p) <= tr * n + 2 / 10 ^ 12). { assert (tr * (2 * (p - p')) <= 1 * (2 / 10 ^ 12)) by (destruct (Rle_dec 0 (2 * (p - p'))); [apply Rmult_le_compat; lra|apply Rle_trans with 0; [rewrite <- (Rmult_0_r tr); apply Rmult_le_compat_l; lra|lra]]). unfold n. lra. }
    assert (TWL : tr * n <= tr * norm3 (val3 w) + 2 / 10 ^ 5 * (tr * n)). { assert (tr * n <= tr * (norm3 (val3 w) + (64 * u * n + log_error n))) by (apply Rmult_le_compat_l; lra). assert (tr * (64 * u * n + log_error n) <= tr * (2 / 10 ^ 5 * n)) by (apply Rmult_le_compat_l; lra). lra. }
    unfold slerp_series. destruct (Rlt_dec (tr * (2 * p)) (/ 4000)) as [H|H].
    - assert (TL : tr * log_error n <= 1 * (61 / 10 ^ 14)) by (apply Rmult_le_compat; lra).
      assert (small_error (norm3 (val3 w1)) <= 8 / 10 ^ 14).
      { unfold small_error. destruct (Rlt_dec (norm3 (val3 w1)) (/ 8191)) as [H1|H1]; [|lra]. pose proof (norm3_pos (val3 w1)) as N1. set (y := norm3 (val3 w1)) in *. assert (y * y <= / 8191 * / 8191) by (apply Rmult_le_compat; lra). assert (y * y * y <= / 8191 * / 8191 * / 8191) by (apply Rmult_le_compat; try lra; apply Rmult_le_pos; lra). lra. }
      lra.
    - assert (Z1 : log_error n = 0). { unfold log_error. destruct (Rlt_dec n (/ 4090)); [lra|reflexivity]. }
      assert (Z2 : small_error (norm3 (val3 w1)) = 0). { unfold small_error. destruct (Rlt_dec (norm3 (val3 w1)) (/ 8191)); [|reflexivity]. exfalso. rewrite UV in *. lra. }
      rewrite Z1, Z2. lra. }
  lra.
Qed.

(** ** Theorems *)
(** the quaternion at the fraction t of the shorter turn from a to b: A and B are a and b scaled to length one; T is B or -B, whichever is on a's side of the sphere *)
Definition slerp_bound (a b r : vec4) (t : R) (k : R) : Prop :=
  exists T e p, (T = normalize4 b \/ T = opp4 (normalize4 b)) /\ unit3 e /\ 0 <= p <= PI / 2 + / 10 ^ 14 /\ T = qplus (normalize4 a) (qv e p) /\
  dist4 r (qplus (normalize4 a) (qv e (t * p))) <= k * u + slerp_series (t * (2 * p)).
Theorem float_qslerp_ends E L a b t : is_finite t = true -> (B2R t <= 0 -> fqslerp E L a b t = a) /\ (1 <= B2R t -> fqslerp E L a b t = b).
Proof.
  intros F. destruct fone_val as [F1 V1]. assert (FZ : is_finite fzero = true) by reflexivity. unfold fqslerp.
  pose proof (fleb_ext t fzero (is_nan_finite _ F) (is_nan_finite _ FZ)) as L0. pose proof (fleb_ext fone t (is_nan_finite _ F1) (is_nan_finite _ F)) as L1. rewrite !ext_finite in L0, L1 by assumption. rewrite V1 in L1. change (B2R fzero) with 0 in L0.
  split; intros H.
  - apply L0 in H. now rewrite H.
  - assert (N0 : fleb t fzero = false). { destruct (fleb t fzero); [|reflexivity]. apply proj1 in L0. specialize (L0 eq_refl). exfalso. lra. } apply L1 in H. now rewrite N0, H.
Qed.
Lemma middle (t : f64) : is_finite t = true -> 0 < B2R t < 1 -> fleb t fzero = false /\ fleb fone t = false.
Proof.
  intros F T. destruct fone_val as [F1 V1]. assert (FZ : is_finite fzero = true) by reflexivity.
  pose proof (fleb_ext t fzero (is_nan_finite _ F) (is_nan_finite _ FZ)) as L0. pose proof (fleb_ext fone t (is_nan_finite _ F1) (is_nan_finite _ F)) as L1. rewrite !ext_finite in L0, L1 by assumption. rewrite V1 in L1. change (B2R fzero) with 0 in L0.
  split; [destruct (fleb t fzero); [|reflexivity]; apply proj1 in L0; specialize (L0 eq_refl)|destruct (fleb fone t); [|reflexivity]; apply proj1 in L1; specialize (L1 eq_refl)]; exfalso; lra.
Qed.
Lemma half_circle p : 0 <= p <= PI -> - 16 * u <= cos p -> 0 <= p <= PI / 2 + / 10 ^ 14.
Proof.
  intros P C. split; [lra|]. destruct (Rle_dec p (PI / 2 + / 10 ^ 14)) as [|G]; [assumption|]. exfalso. pose proof PI_decimal as PD. pose proof u_val as UV. 
  assert (L : sin (/ 10 ^ 14) <= sin (p - PI / 2)) by (apply sin_incr_1; lra). destruct (sin_cubic (/ 10 ^ 14) ltac:(lra)) as [SC _].
  assert (S : sin (p - PI / 2) = - cos p) by (rewrite sin_minus, sin_PI2, cos_PI2; ring). lra.
Qed.
Theorem float_qslerp E L a b t : eigen_ok E -> lib2_ok L -> near_unit a -> near_unit b -> is_finite t = true -> 0 < B2R t < 1 ->
  let r := fqslerp E L a b t in finite4 r /\ Rabs (norm4 (val4 r) - 1) <= 29 * u /\ slerp_bound (val4 a) (val4 b) (val4 r) (B2R t) 206.
Proof.
  intros EK OK NA NB FT TB r. destruct (middle t FT TB) as [M0 M1]. pose proof u53_pos as UP. pose proof u_val as UV.
  assert (RE : r = fqplus a (faxisAngle2quat (base L) (fscale3 t (fqlog L (fqplus (fquatInv a) (ftarget E a b)))))) by (unfold r, fqslerp; rewrite M0, M1; reflexivity).
  destruct (target_near E a b EK NA NB) as (NT & TE & TD). set (tg := ftarget E a b) in *. destruct (turn_between a tg NA NT TD) as (UR & RT & E3 & FR & DR). set (A := normalize4 (val4 a)) in *. set (T := normalize4 (val4 tg)) in *. set (R0 := qplus (quatInv A) T) in *.
  destruct (unit_is_qv R0 UR) as (e & p & UE & P & EP).
  destruct (fraction_err L _ R0 e p t OK FR DR UR E3 UE P EP FT TB) as (FX & NX & DX). rewrite RE. clear RE r. set (x := faxisAngle2quat _ _) in *.
  destruct (near_dist a NA) as [UA DA]. fold A in UA, DA. pose proof (near_pos _ NA) as PA. pose proof (Rabs_le_inv _ _ NX) as NXI.
  assert (SX : short (val4 x)) by (unfold short; lra). destruct (fqplus_err a x (proj1 NA) FX (near_short _ NA) SX) as [FQ DQ]. split; [exact FQ|]. split.
  - pose proof (dist4_norm (val4 (fqplus a x)) (qplus (val4 a) (val4 x))) as DN. rewrite qplus_norm in DN. destruct NA as [_ NA]. set (na := norm4 (val4 a)) in *. set (nx := norm4 (val4 x)) in *.
    replace (norm4 (val4 (fqplus a x)) - 1) with ((norm4 (val4 (fqplus a x)) - na * nx) + ((na - 1) * (nx - 1) + (na - 1) + (nx - 1))) by ring. apply Rle_trans with (1 := Rabs_triang _ _).
    pose proof (Rabs_triang ((na - 1) * (nx - 1) + (na - 1)) (nx - 1)) as T1. pose proof (Rabs_triang ((na - 1) * (nx - 1)) (na - 1)) as T2. rewrite Rabs_mult in T2.
    assert (Rabs (na - 1) * Rabs (nx - 1) <= 8 * u * (11 * u)) by (apply Rmult_le_compat; auto using Rabs_pos). assert (8 * u * (11 * u) <= 1 / 10 * u) by (replace (8 * u * (11 * u)) with (88 * u * u) by ring; apply Rmult_le_compat_r; lra). lra.
  - exists T, e, p. refine (conj _ (conj UE (conj _ (conj _ _)))).
    + unfold T. destruct TE as [-> | ->]; [now left|right]. unfold normalize4. replace (norm4 (opp4 (val4 b))) with (norm4 (val4 b)) by (unfold norm4; f_equal; generalize (val4 b); intros; vring). destruct (Rlt_dec 0 (norm4 (val4 b))); [|reflexivity]. generalize (1 / norm4 (val4 b)) (val4 b). intros. vring.
    + apply half_circle; [exact P|]. rewrite EP in E3. exact E3.
    + rewrite <- EP. exact RT.
    + fold A. set (X := qv e (B2R t * p)) in *. apply Rle_trans with (1 := dist4_tri _ (qplus (val4 a) (val4 x)) _). pose proof (qplus_dist (val4 a) (val4 x) A X) as Q. rewrite (norm4_unit A UA) in Q.
      assert (dist4 (val4 a) A * norm4 (val4 x) <= 8 * u * (1001 / 1000)) by (apply Rmult_le_compat; try lra; apply dist4_pos). lra.
Qed.
(** linear interpolation of positions *)
Theorem float_lerp_ends a b t : is_finite t = true -> (B2R t <= 0 -> flerp a b t = a) /\ (1 <= B2R t -> flerp a b t = b).
Proof.
  intros F. destruct fone_val as [F1 V1]. assert (FZ : is_finite fzero = true) by reflexivity. unfold flerp.
  pose proof (fleb_ext t fzero (is_nan_finite _ F) (is_nan_finite _ FZ)) as L0. pose proof (fleb_ext fone t (is_nan_finite _ F1) (is_nan_finite _ F)) as L1. rewrite !ext_finite in L0, L1 by assumption. rewrite V1 in L1. change (B2R fzero) with 0 in L0.
  split; intros H.
  - apply L0 in H. now rewrite H.
  - assert (N0 : fleb t fzero = false). { destruct (fleb t fzero); [|reflexivity]. apply proj1 in L0. specialize (L0 eq_refl). exfalso. lra. } apply L1 in H. now rewrite N0, H.
Qed.
Lemma rnd_sum_rel x y : format64 x -> format64 y -> Rabs (rnd (x + y) - (x + y)) <= u * Rabs (x + y).
Proof.
  intros X Y. destruct (Plus_error.FLT_plus_error_N_ex radix2 (3 - 1024 - 53) 53 (fun z => negb (Z.even z)) x y X Y) as (eps & B & E).
  change (rnd (x + y) = (x + y) * (1 + eps)) in E. rewrite E. replace ((x + y) * (1 + eps) - (x + y)) with (eps * (x + y)) by ring. rewrite Rabs_mult. apply Rmult_le_compat_r; [apply Rabs_pos|].
  apply Rle_trans with (1 := B). assert (UR : Relative.u_ro radix2 53 = u). { unfold Relative.u_ro. replace (/ 2) with (bpow radix2 (-1)) by (cbn; lra). rewrite <- bpow_plus. reflexivity. }
  rewrite UR. pose proof u53_pos as UP. apply (Rmult_le_reg_r (1 + u)); [lra|]. unfold Rdiv. rewrite Rmult_assoc, Rinv_l by lra. rewrite Rmult_1_r. assert (0 <= u * u) by (apply Rmult_le_pos; lra). lra.
Qed.
Lemma one_minus (t : f64) : is_finite t = true -> 0 < B2R t < 1 -> is_finite (fsub fone t) = true /\ 0 <= B2R (fsub fone t) <= 1 /\ Rabs (B2R (fsub fone t) - (1 - B2R t)) <= u * (1 - B2R t).
Proof.
  intros F T. destruct fone_val as [F1 V1]. destruct (fsub_rnd fone t 0 F1 F ltac:(lia)) as [E G]. { change (bpow radix2 0) with 1. rewrite V1. apply Rabs_le. lra. }
  rewrite V1 in E. split; [exact G|]. assert (X1 : format64 1) by (rewrite <- V1; apply (generic_format_B2R 53 1024)). rewrite E. split.
  - split; [rewrite <- rnd_0; apply rnd_le; lra|]. rewrite <- (rnd_id 1 X1) at 2. apply rnd_le. lra.
  - rewrite <- (Rabs_pos_eq (1 - B2R t)) at 3 by lra. apply (rnd_sum_rel 1 (- B2R t)); [exact X1|]. apply generic_format_opp, (generic_format_B2R 53 1024).
Qed.
Theorem float_lerp a b t : finite3 a -> finite3 b -> norm3 (val3 a) <= bpow radix2 600 -> norm3 (val3 b) <= bpow radix2 600 -> is_finite t = true -> 0 <= B2R t <= 1 ->
  finite3 (flerp a b t) /\ dist3 (val3 (flerp a b t)) (add3 (scale3 (1 - B2R t) (val3 a)) (scale3 (B2R t) (val3 b))) <= 31 / 10 * u * ((1 - B2R t) * norm3 (val3 a) + B2R t * norm3 (val3 b)) + bpow radix2 (-1000).
Proof.
  intros FA FB NA NB FT TB. pose proof u53_pos as UP. pose proof u_val as UV. pose proof eta_pos as EP. pose proof (norm3_pos (val3 a)) as PA. pose proof (norm3_pos (val3 b)) as PB. pose proof (bpow_gt_0 radix2 (-1000)) as B1000.
  assert (ET : 6 * eta <= bpow radix2 (-1000)). { apply Rle_trans with (8 * eta); [lra|]. change 8 with (bpow radix2 3). rewrite <- bpow_plus. apply bpow_le. lia. }
  destruct (float_lerp_ends a b t FT) as [L0 L1]. destruct (Req_dec (B2R t) 0) as [Z|Z].
  { rewrite (L0 ltac:(lra)), Z. split; [exact FA|]. replace (add3 (scale3 (1 - 0) (val3 a)) (scale3 0 (val3 b))) with (val3 a) by (generalize (val3 a) (val3 b); intros; vring). rewrite dist3_refl. assert (0 <= 31 / 10 * u * ((1 - 0) * norm3 (val3 a) + 0 * norm3 (val3 b))) by (apply Rmult_le_pos; lra). lra. }
  destruct (Req_dec (B2R t) 1) as [W|W].
  { rewrite (L1 ltac:(lra)), W. split; [exact FB|]. replace (add3 (scale3 (1 - 1) (val3 a)) (scale3 1 (val3 b))) with (val3 b) by (generalize (val3 a) (val3 b); intros; vring). rewrite dist3_refl. assert (0 <= 31 / 10 * u * ((1 - 1) * norm3 (val3 a) + 1 * norm3 (val3 b))) by (apply Rmult_le_pos; lra). lra. }
  assert (TI : 0 < B2R t < 1) by lra. destruct (middle t FT TI) as [M0 M1]. destruct (one_minus t FT TI) as (FS & S01 & ES). assert (LE : flerp a b t = fadd3 (fscale3 (fsub fone t) a) (fscale3 t b)) by (unfold flerp; now rewrite M0, M1). rewrite LE. clear LE L0 L1.
  set (s := fsub fone t) in *. clearbody s. set (tr := B2R t) in *.
  assert (C : forall x y, is_finite x = true -> is_finite y = true -> Rabs (B2R x) <= bpow radix2 600 -> Rabs (B2R y) <= bpow radix2 600 ->
    is_finite (fadd (fmul s x) (fmul t y)) = true /\ Rabs (B2R (fadd (fmul s x) (fmul t y)) - ((1 - tr) * B2R x + tr * B2R y)) <= 31 / 10 * u * ((1 - tr) * Rabs (B2R x) + tr * Rabs (B2R y)) + 3 * eta).
  { intros x y FX FY BX BY. pose proof (Rabs_pos (B2R x)) as X0. pose proof (Rabs_pos (B2R y)) as Y0. 
    assert (BP : Rabs (B2R s * B2R x) <= bpow radix2 600) by (rewrite Rabs_mult, (Rabs_pos_eq (B2R s)) by lra; rewrite <- (Rmult_1_l (bpow radix2 600)); apply Rmult_le_compat; lra).
    assert (BQ : Rabs (B2R t * B2R y) <= bpow radix2 600) by (rewrite Rabs_mult; fold tr; rewrite (Rabs_pos_eq tr) by lra; rewrite <- (Rmult_1_l (bpow radix2 600)); apply Rmult_le_compat; lra).
    destruct (fmul_rnd s x 600 FS FX ltac:(lia) BP) as [EP1 FP]. destruct (fmul_rnd t y 600 FT FY ltac:(lia) BQ) as [EQ FQ].
    pose proof (rnd_abs_le _ 600 ltac:(lia) BP) as BP2. pose proof (rnd_abs_le _ 600 ltac:(lia) BQ) as BQ2. rewrite <- EP1 in BP2. rewrite <- EQ in BQ2.
    destruct (fadd_rnd (fmul s x) (fmul t y) 601 FP FQ ltac:(lia)) as [EA FFA]. { apply Rle_trans with (1 := Rabs_triang _ _). change (bpow radix2 601) with (bpow radix2 (1 + 600)). rewrite bpow_plus. change (bpow radix2 1) with 2. lra. }
    split; [exact FFA|]. rewrite EA. pose proof (rnd_sum_rel (B2R (fmul s x)) (B2R (fmul t y)) (generic_format_B2R 53 1024 _) (generic_format_B2R 53 1024 _)) as RS.
    pose proof (rnd_err (B2R s * B2R x)) as R1. pose proof (rnd_err (B2R t * B2R y)) as R2. rewrite <- EP1 in R1. rewrite <- EQ in R2. fold tr in R2. set (P := B2R (fmul s x)) in *. set (Q := B2R (fmul t y)) in *. 
    set (X := (1 - tr) * Rabs (B2R x)). set (Y := tr * Rabs (B2R y)). assert (X1 : 0 <= X) by (apply Rmult_le_pos; lra). assert (Y1 : 0 <= Y) by (apply Rmult_le_pos; lra).
    rewrite (Rabs_mult tr), (Rabs_pos_eq tr) in R2 by lra. fold Y in R2.
    assert (D1 : Rabs (B2R s * B2R x - (1 - tr) * B2R x) <= u * X). { replace (B2R s * B2R x - (1 - tr) * B2R x) with ((B2R s - (1 - tr)) * B2R x) by ring. rewrite Rabs_mult. unfold X. rewrite <- Rmult_assoc. apply Rmult_le_compat_r; lra. }
    assert (AX : Rabs (B2R s * B2R x) <= X + u * X). { replace (B2R s * B2R x) with ((B2R s * B2R x - (1 - tr) * B2R x) + (1 - tr) * B2R x) by ring. apply Rle_trans with (1 := Rabs_triang _ _). rewrite (Rabs_mult (1 - tr)), (Rabs_pos_eq (1 - tr)) by lra. fold X. lra. }
    assert (UUX : u * (u * X) <= / 1000 * (u * X)). { apply Rmult_le_compat_r; [apply Rmult_le_pos; lra|lra]. } assert (UAX : u * Rabs (B2R s * B2R x) <= u * (X + u * X)) by (apply Rmult_le_compat_l; lra).
    assert (DP : Rabs (P - (1 - tr) * B2R x) <= 2001 / 1000 * (u * X) + eta). { replace (P - (1 - tr) * B2R x) with ((P - B2R s * B2R x) + (B2R s * B2R x - (1 - tr) * B2R x)) by ring. apply Rle_trans with (1 := Rabs_triang _ _). lra. }
    assert (UX0 : 0 <= u * X) by (apply Rmult_le_pos; lra). assert (UY0 : 0 <= u * Y) by (apply Rmult_le_pos; lra).
    assert (APQ : Rabs (P + Q) <= X + Y + (2001 / 1000 * (u * X) + eta) + (u * Y + eta)).
    { replace (P + Q) with ((1 - tr) * B2R x + tr * B2R y + (P - (1 - tr) * B2R x) + (Q - tr * B2R y)) by ring. apply Rle_trans with (1 := Rabs_triang _ _). pose proof (Rabs_triang ((1 - tr) * B2R x + tr * B2R y) (P - (1 - tr) * B2R x)) as T1. pose proof (Rabs_triang ((1 - tr) * B2R x) (tr * B2R y)) as T2. rewrite !Rabs_mult, (Rabs_pos_eq (1 - tr)), (Rabs_pos_eq tr) in T2 by lra. fold X Y in T2. lra. }
    assert (UA : u * Rabs (P + Q) <= u * (X + Y + (2001 / 1000 * (u * X) + eta) + (u * Y + eta))) by (apply Rmult_le_compat_l; lra).
    assert (UUY : u * (u * Y) <= / 1000 * (u * Y)) by (apply Rmult_le_compat_r; lra). assert (UE : u * eta <= / 1000 * eta) by (apply Rmult_le_compat_r; lra).
    replace (rnd (P + Q) - ((1 - tr) * B2R x + tr * B2R y)) with ((rnd (P + Q) - (P + Q)) + (P - (1 - tr) * B2R x) + (Q - tr * B2R y)) by ring. apply Rle_trans with (1 := Rabs_triang _ _). pose proof (Rabs_triang (rnd (P + Q) - (P + Q)) (P - (1 - tr) * B2R x)) as T1. lra. }
  destruct FA as (A0 & A1 & A2), FB as (B0 & B1 & B2). pose proof (comp3 (val3 a)) as (CA0 & CA1 & CA2). pose proof (comp3 (val3 b)) as (CB0 & CB1 & CB2). cbn [val3 vx vy vz] in CA0, CA1, CA2, CB0, CB1, CB2.
  destruct (C (fx a) (fx b) A0 B0 ltac:(lra) ltac:(lra)) as [G0 E0]. destruct (C (fy a) (fy b) A1 B1 ltac:(lra) ltac:(lra)) as [G1 E1]. destruct (C (fz a) (fz b) A2 B2 ltac:(lra) ltac:(lra)) as [G2 E2].
  split; [exact (conj G0 (conj G1 G2))|]. unfold dist3.
  set (aa := V3 (Rabs (B2R (fx a))) (Rabs (B2R (fy a))) (Rabs (B2R (fz a)))). set (bb := V3 (Rabs (B2R (fx b))) (Rabs (B2R (fy b))) (Rabs (B2R (fz b)))). set (ee := V3 (3 * eta) (3 * eta) (3 * eta)).
  assert (NAB : forall v : F3, norm3 (V3 (Rabs (B2R (fx v))) (Rabs (B2R (fy v))) (Rabs (B2R (fz v)))) = norm3 (val3 v)). { intros v. unfold norm3, dot3, val3. cbn [vx vy vz]. rewrite <- !Rabs_mult. f_equal. rewrite !Rabs_pos_eq; try reflexivity; apply Rle_0_sqr. }
  apply Rle_trans with (norm3 (add3 (scale3 (31 / 10 * u) (add3 (scale3 (1 - tr) aa) (scale3 tr bb))) ee)); [apply norm3_mono; [exact E0|exact E1|exact E2]|].
  apply Rle_trans with (1 := norm3_triangle _ _). rewrite norm3_scale_abs, Rabs_pos_eq by lra. pose proof (norm3_triangle (scale3 (1 - tr) aa) (scale3 tr bb)) as T. rewrite !norm3_scale_abs, (Rabs_pos_eq (1 - tr)), (Rabs_pos_eq tr) in T by lra. unfold aa, bb in T. rewrite !NAB in T. fold aa bb in T.
  assert (M : 31 / 10 * u * norm3 (add3 (scale3 (1 - tr) aa) (scale3 tr bb)) <= 31 / 10 * u * ((1 - tr) * norm3 (val3 a) + tr * norm3 (val3 b))) by (apply Rmult_le_compat_l; lra).
  assert (NE : norm3 ee <= 6 * eta). { apply Rle_trans with (2 * (3 * eta)); [|lra]. apply norm3_le; [lra| | |]; unfold ee; cbn [vx vy vz]; rewrite Rabs_pos_eq by lra; lra. } lra.
Qed.

(** ** slerpTransformations: both interpolations, and the constructor normalises *)
(** r is within e of the quaternion of the same rotation a fraction t of the way from a to b, the short way round (turn of 2 p about e) *)
Definition part_way (a b r : vec4) (t : R) (err : R -> R) : Prop :=
  exists T e p, (T = normalize4 b \/ T = opp4 (normalize4 b)) /\ unit3 e /\ 0 <= p <= PI / 2 + / 10 ^ 14 /\ T = qplus (normalize4 a) (qv e p) /\
  let Q := qplus (normalize4 a) (qv e (t * p)) in dist4 r Q <= err p \/ dist4 r (opp4 Q) <= err p.
Theorem float_slerpTransformations E L x y s : eigen_ok E -> lib2_ok L -> stored_ok x -> stored_ok y -> norm3 (val3 (ft x)) <= bpow radix2 600 -> norm3 (val3 (ft y)) <= bpow radix2 600 -> is_finite s = true -> 0 < B2R s < 1 ->
  let z := ft_slerp E L x y s in stored_ok z /\ slerp_bound (val4 (fq x)) (val4 (fq y)) (val4 (fq z)) (B2R s) 243 /\
  dist3 (val3 (ft z)) (add3 (scale3 (1 - B2R s) (val3 (ft x))) (scale3 (B2R s) (val3 (ft y)))) <= 31 / 10 * u * ((1 - B2R s) * norm3 (val3 (ft x)) + B2R s * norm3 (val3 (ft y))) + bpow radix2 (-1000).
Proof.
  intros EK OK [NX FX] [NY FY] BX BY FS SB z. destruct (float_qslerp E L (fq x) (fq y) s EK OK NX NY FS SB) as (FQ & NQ & (T & e & p & HT & UE & P & TE & D)).
  destruct (float_lerp (ft x) (ft y) s FX FY BX BY FS ltac:(lra)) as [FL DL]. set (Q := qplus (normalize4 (val4 (fq x))) (qv e (B2R s * p))) in *.
  destruct (renormalise E _ Q 29 EK FQ ltac:(lra) NQ) as [NU DU]. unfold z, ft_slerp, ft_make. cbn [fq ft]. split; [exact (conj NU FL)|]. split; [|exact DL].
  pose proof u53_pos as UP. exists T, e, p. refine (conj HT (conj UE (conj P (conj TE _)))). fold Q. lra.
Qed.
(** at and beyond the ends: the position is exact, the quaternion is normalised once more *)
Theorem float_slerp_ends E L x y s : eigen_ok E -> stored_ok x -> stored_ok y -> is_finite s = true ->
  (B2R s <= 0 -> let z := ft_slerp E L x y s in ft z = ft x /\ fq z = fnormalize E (fq x) /\ near_unit (fq z) /\ dist4 (val4 (fq z)) (val4 (fq x)) <= 31 / 2 * u) /\
  (1 <= B2R s -> let z := ft_slerp E L x y s in ft z = ft y /\ fq z = fnormalize E (fq y) /\ near_unit (fq z) /\ dist4 (val4 (fq z)) (val4 (fq y)) <= 31 / 2 * u).
Proof.
  intros EK [NX FX] [NY FY] FS. destruct (float_qslerp_ends E L (fq x) (fq y) s FS) as [Q0 Q1]. destruct (float_lerp_ends (ft x) (ft y) s FS) as [L0 L1].
  assert (H : forall q, near_unit q -> near_unit (fnormalize E q) /\ dist4 (val4 (fnormalize E q)) (val4 q) <= 31 / 2 * u).
  { intros q [F N]. destruct (renormalise E q (val4 q) 8 EK F ltac:(lra) N) as [A B]. rewrite dist4_refl in B. split; [exact A|lra]. }
  split; intros B z; unfold z, ft_slerp, ft_make; cbn [fq ft].
  - rewrite (Q0 B), (L0 B). auto.
  - rewrite (Q1 B), (L1 B). auto.
Qed.

(** ** interpolateTransformations: the parameter *)
Lemma fmax_right (t x : f64) : is_finite t = true -> is_finite x = true -> B2R t <= B2R x -> is_finite (fmax t x) = true /\ B2R (fmax t x) = B2R x.
Proof.
  intros FT FX H. unfold fmax. pose proof (fltb_ext t x (is_nan_finite _ FT) (is_nan_finite _ FX)) as B. rewrite !ext_finite in B by assumption.
  destruct (fltb t x); [auto|]. split; [exact FT|]. apply Rle_antisym; [exact H|]. destruct (Rle_dec (B2R x) (B2R t)) as [|G]; [assumption|]. exfalso. assert (false = true) by (apply B; lra). discriminate.
Qed.
Definition fparam (s0 s1 si : f64) : f64 := fdiv (fsub si s0) (fmax f1em14 (fsub s1 s0)).
Lemma param_err (s0 s1 si : f64) : is_finite s0 = true -> is_finite s1 = true -> is_finite si = true -> Rabs (B2R s0) <= bpow radix2 1000 -> Rabs (B2R s1) <= bpow radix2 1000 ->
  B2R s0 + 1001 / 1000 / 10 ^ 14 <= B2R s1 -> B2R s0 <= B2R si <= B2R s1 -> let d := fparam s0 s1 si in let tau := (B2R si - B2R s0) / (B2R s1 - B2R s0) in
  is_finite d = true /\ 0 <= B2R d <= 1 /\ 0 <= tau <= 1 /\ Rabs (B2R d - tau) <= 31 / 10 * u * tau + eta /\ (B2R si = B2R s0 -> B2R d = 0) /\ (B2R si = B2R s1 -> B2R d = 1).
Proof.
  intros F0 F1 FI B0 B1 G I d tau. pose proof u53_pos as UP. pose proof u_val as UV. pose proof (bpow_gt_0 radix2 1000) as P1000. apply Rabs_le_inv in B0, B1.
  assert (BN : forall x, 0 <= x <= B2R s1 - B2R s0 -> Rabs x <= bpow radix2 1001). { intros x X. change (bpow radix2 1001) with (bpow radix2 (1 + 1000)). rewrite bpow_plus. change (bpow radix2 1) with 2. rewrite Rabs_pos_eq; lra. }
  destruct (fsub_rnd s1 s0 1001 F1 F0 ltac:(lia) ltac:(apply BN; lra)) as [EN FN]. destruct (fsub_rnd si s0 1001 FI F0 ltac:(lia) ltac:(apply BN; lra)) as [ED FD].
  destruct (threshold 14 ltac:(lia)) as [FT14 T14]. change (10 ^ 14)%Z with 100000000000000%Z in T14. 
  assert (NE : Rabs (B2R (fsub s1 s0) - (B2R s1 - B2R s0)) <= u * (B2R s1 - B2R s0)). { rewrite EN. rewrite <- (Rabs_pos_eq (B2R s1 - B2R s0)) at 3 by lra. apply (rnd_sum_rel (B2R s1) (- B2R s0)); [|apply generic_format_opp]; apply (generic_format_B2R 53 1024). }
  assert (DE : Rabs (B2R (fsub si s0) - (B2R si - B2R s0)) <= u * (B2R si - B2R s0)). { rewrite ED. rewrite <- (Rabs_pos_eq (B2R si - B2R s0)) at 3 by lra. apply (rnd_sum_rel (B2R si) (- B2R s0)); [|apply generic_format_opp]; apply (generic_format_B2R 53 1024). }
  assert (D0 : 0 <= B2R (fsub si s0)) by (rewrite ED, <- rnd_0; apply rnd_le; lra). assert (DN : B2R (fsub si s0) <= B2R (fsub s1 s0)) by (rewrite ED, EN; apply rnd_le; lra).
  assert (Z0 : B2R si = B2R s0 -> B2R (fsub si s0) = 0) by (intros Q; rewrite ED, Q, Rminus_diag_eq by reflexivity; apply rnd_0). assert (Z1 : B2R si = B2R s1 -> B2R (fsub si s0) = B2R (fsub s1 s0)) by (intros Q; now rewrite ED, EN, Q).
  clear ED EN BN. set (n := fsub s1 s0) in *. set (m := fsub si s0) in *. set (N := B2R s1 - B2R s0) in *. set (M := B2R si - B2R s0) in *. assert (NP : 1001 / 1000 / 10 ^ 14 <= N) by (unfold N; lra). assert (MN : 0 <= M <= N) by (unfold M, N; lra).
  assert (UN : u * N <= / 10 ^ 9 * N) by (apply Rmult_le_compat_r; lra). pose proof (Rabs_le_inv _ _ NE) as NEI.
  assert (GT : B2R f1em14 <= B2R n). { unfold f1em14. set (t14 := fdec 1 14) in *. clearbody t14. lra. }
  destruct (fmax_right f1em14 n FT14 FN GT) as [FX VX]. unfold d, fparam. fold m n. set (mx := fmax f1em14 n) in *. clearbody mx. clear GT T14 FT14.
  set (a := B2R m) in *. set (b := B2R n) in *. assert (BP : 0 < b) by lra. assert (Q01 : 0 <= a / b <= 1). { split; [apply Rmult_le_pos; [lra|left; apply Rinv_0_lt_compat; lra]|]. apply (Rmult_le_reg_r b); [lra|]. replace (a / b * b) with a by (field; lra). lra. }
  destruct (fdiv_rnd m mx 0 FD ltac:(rewrite VX; lra) ltac:(lia)) as [EQ FQ]. { fold a. rewrite VX. change (bpow radix2 0) with 1. rewrite Rabs_pos_eq; lra. } fold a in EQ. rewrite VX in EQ.
  assert (X1 : rnd 1 = 1) by (apply rnd_id; rewrite <- (proj2 fone_val); apply (generic_format_B2R 53 1024)).
  assert (TI : 0 <= tau <= 1). { unfold tau. fold M N. split; [apply Rmult_le_pos; [lra|left; apply Rinv_0_lt_compat; lra]|]. apply (Rmult_le_reg_r N); [lra|]. replace (M / N * N) with M by (field; lra). lra. }
  split; [exact FQ|]. split; [rewrite EQ; split; [rewrite <- rnd_0|rewrite <- X1]; apply rnd_le; lra|]. split; [exact TI|]. split.
  - assert (MT : M = tau * N) by (unfold tau; fold M N; field; lra). clearbody tau.
    assert (K : Rabs (a / b - tau) <= 2001 / 1000 * u * tau).
    { apply (Rmult_le_reg_r b); [lra|]. rewrite <- (Rabs_pos_eq b) at 2 by lra. rewrite <- Rabs_mult. replace ((a / b - tau) * b) with ((a - M) + tau * (N - b)) by (rewrite MT; field; lra). apply Rle_trans with (1 := Rabs_triang _ _). rewrite Rabs_mult, (Rabs_pos_eq tau), (Rabs_minus_sym N b) by lra.
      assert (tau * Rabs (b - N) <= tau * (u * N)) by (apply Rmult_le_compat_l; lra). assert (u * tau * N <= u * tau * (10001 / 10000 * b)). { apply Rmult_le_compat_l; [apply Rmult_le_pos; lra|]. lra. } rewrite MT in DE at 2. replace (u * (tau * N)) with (u * tau * N) in DE by ring. replace (tau * (u * N)) with (u * tau * N) in * by ring.
      assert (0 <= u * tau * b) by (repeat apply Rmult_le_pos; lra). replace (2001 / 1000 * u * tau * b) with (2001 / 1000 * (u * tau * b)) by ring. lra. }
    pose proof (rnd_err (a / b)) as RE. rewrite <- EQ in RE. rewrite (Rabs_pos_eq (a / b)) in RE by lra. assert (UT : 0 <= u * tau) by (apply Rmult_le_pos; lra). apply Rabs_le_inv in K.
    assert (UA : u * (a / b) <= u * (tau + / 1000 * tau)). { apply Rmult_le_compat_l; [lra|]. assert (u * tau <= / 10 ^ 9 * tau) by (apply Rmult_le_compat_r; lra). lra. }
    apply Rabs_le_inv in RE. apply Rabs_le. lra.
  - split; intros Q; rewrite EQ.
    + rewrite (Z0 Q). unfold Rdiv. rewrite Rmult_0_l. apply rnd_0.
    + rewrite (Z1 Q). unfold Rdiv. rewrite Rinv_r by lra. exact X1.
Qed.

(** ** interpolateTransformations *)
Definition interp_error (tau p : R) : R := 253 * u + (if Rlt_dec (tau * (2 * p)) (/ 3990) then 4 / 10 ^ 13 else 0).
Lemma dist4_opp x y : dist4 (opp4 x) (opp4 y) = dist4 x y.
Proof. unfold dist4, norm4. f_equal. generalize x y. intros. vring. Qed.
Theorem float_interpolate E L x (s0 : f64) y (s1 si : f64) : eigen_ok E -> lib2_ok L -> stored_ok x -> stored_ok y -> norm3 (val3 (ft x)) <= bpow radix2 600 -> norm3 (val3 (ft y)) <= bpow radix2 600 ->
  is_finite s0 = true -> is_finite s1 = true -> is_finite si = true -> Rabs (B2R s0) <= bpow radix2 1000 -> Rabs (B2R s1) <= bpow radix2 1000 ->
  B2R s0 + 1001 / 1000 / 10 ^ 14 <= B2R s1 -> B2R s0 <= B2R si <= B2R s1 ->
  let z := ft_interpolate E L x s0 y s1 si in let tau := (B2R si - B2R s0) / (B2R s1 - B2R s0) in
  stored_ok z /\ part_way (val4 (fq x)) (val4 (fq y)) (val4 (fq z)) tau (interp_error tau) /\
  dist3 (val3 (ft z)) (add3 (scale3 (1 - tau) (val3 (ft x))) (scale3 tau (val3 (ft y)))) <= 7 * u * (norm3 (val3 (ft x)) + norm3 (val3 (ft y))) + bpow radix2 (-400).
Proof.
  intros EK OK SX SY BX BY F0 F1 FI B0 B1 G I z tau. pose proof u53_pos as UP. pose proof u_val as UV. pose proof eta_smaller as ES. pose proof PI_decimal as PD.
  destruct (param_err s0 s1 si F0 F1 FI B0 B1 G I) as (FD & DB & TB & DT & _). fold tau in TB, DT. clearbody tau.
  assert (ZE : z = ft_slerp E L x y (fparam s0 s1 si)). { unfold z, ft_interpolate. pose proof (fltb_ext s1 s0 (is_nan_finite _ F1) (is_nan_finite _ F0)) as B. rewrite !ext_finite in B by assumption. destruct (fltb s1 s0); [exfalso; assert (B2R s1 < B2R s0) by (apply B; reflexivity); lra|reflexivity]. }
  clear G I. set (d := fparam s0 s1 si) in *. clearbody d. rewrite ZE. clear ZE z. set (z := ft_slerp E L x y d).
  pose proof SX as [NX FX]. pose proof SY as [NY FY]. pose proof (near_pos _ NX) as PX. pose proof (near_pos _ NY) as PY. pose proof (bpow_gt_0 radix2 (-1000)) as Z1000.
  assert (UT : u * tau <= u * 1) by (apply Rmult_le_compat_l; lra). assert (DT' : Rabs (B2R d - tau) <= 32 / 10 * u) by lra. pose proof (Rabs_le_inv _ _ DT') as DTI.
  (* the position *)
  assert (POS : dist3 (val3 (ft z)) (add3 (scale3 (1 - tau) (val3 (ft x))) (scale3 tau (val3 (ft y)))) <= 7 * u * (norm3 (val3 (ft x)) + norm3 (val3 (ft y))) + bpow radix2 (-400)).
  { destruct (float_lerp (ft x) (ft y) d FX FY BX BY FD DB) as [FL DL]. change (flerp (ft x) (ft y) d) with (ft z) in DL. pose proof (norm3_pos (val3 (ft x))) as PA. pose proof (norm3_pos (val3 (ft y))) as PB. set (a := val3 (ft x)) in *. set (b := val3 (ft y)) in *.
    assert (Z400 : bpow radix2 (-1000) <= bpow radix2 (-400)) by (apply bpow_le; lia). apply Rle_trans with (1 := dist3_tri _ (add3 (scale3 (1 - B2R d) a) (scale3 (B2R d) b)) _).
    assert (D2 : dist3 (add3 (scale3 (1 - B2R d) a) (scale3 (B2R d) b)) (add3 (scale3 (1 - tau) a) (scale3 tau b)) <= 32 / 10 * u * (norm3 a + norm3 b)).
    { unfold dist3. replace (sub3 _ _) with (scale3 (B2R d - tau) (add3 b (opp3 a))) by (generalize (B2R d) tau a b; intros; vring). rewrite norm3_scale_abs. pose proof (norm3_triangle b (opp3 a)) as TR. rewrite norm3_opp in TR. apply Rmult_le_compat; try lra; [apply Rabs_pos|apply norm3_pos]. }
    assert (M1 : (1 - B2R d) * norm3 a + B2R d * norm3 b <= norm3 a + norm3 b). { assert (0 <= B2R d * norm3 a) by (apply Rmult_le_pos; lra). assert (0 <= (1 - B2R d) * norm3 b) by (apply Rmult_le_pos; lra). lra. }
    assert (M2 : 31 / 10 * u * ((1 - B2R d) * norm3 a + B2R d * norm3 b) <= 31 / 10 * u * (norm3 a + norm3 b)) by (apply Rmult_le_compat_l; lra). assert (0 <= u * (norm3 a + norm3 b)) by (apply Rmult_le_pos; lra). lra. }
  destruct (float_slerp_ends E L x y d EK SX SY FD) as [E0 E1]. cbv zeta in E0, E1. fold z in E0, E1.
  (* a turn from one quaternion to the other always exists: here through a direct construction *)
  destruct (near_dist _ NX) as [UA DA]. destruct (near_dist _ NY) as [UB DB2]. set (A := normalize4 (val4 (fq x))) in *. set (B := normalize4 (val4 (fq y))) in *.
  assert (TURN : exists T e p, (T = B \/ T = opp4 B) /\ unit3 e /\ 0 <= p <= PI / 2 + / 10 ^ 14 /\ T = qplus A (qv e p)).
  { assert (K : forall T, unit4 T -> 0 <= dot4 A T -> exists e p, unit3 e /\ 0 <= p <= PI / 2 + / 10 ^ 14 /\ T = qplus A (qv e p)).
    { intros T UT' DP. set (R0 := qplus (quatInv A) T). assert (UR : unit4 R0) by (apply unit_qplus; auto using unit_quatInv). destruct (unit_is_qv R0 UR) as (e & p & UE & P & EP). exists e, p. split; [exact UE|]. split.
      - apply half_circle; [exact P|]. replace (cos p) with (e3 R0) by (rewrite EP; reflexivity). replace (e3 R0) with (dot4 A T) by (unfold R0, qplus, quatInv; generalize A T; intros; vring). lra.
      - rewrite <- EP. unfold R0. rewrite <- qplus_assoc, (proj1 (quatInv_inverse A UA)). symmetry. apply qplus_identity. }
    destruct (Rle_dec 0 (dot4 A B)) as [Hp|Hn].
    - destruct (K B UB Hp) as (e & p & H). exists B, e, p. split; [now left|exact H].
    - assert (UO : unit4 (opp4 B)) by (unfold unit4 in *; rewrite <- UB; generalize B; intros; vring). assert (DO : dot4 A (opp4 B) = - dot4 A B) by (generalize A B; intros; vring). destruct (K (opp4 B) UO ltac:(lra)) as (e & p & H). exists (opp4 B), e, p. split; [now right|exact H]. }
  assert (QD : forall e p, unit3 e -> 0 <= p <= PI / 2 + / 10 ^ 14 -> forall s r, Rabs (s - r) <= 32 / 10 * u -> dist4 (qplus A (qv e (s * p))) (qplus A (qv e (r * p))) <= 6 * u).
  { intros e p UE P s r H. pose proof (qplus_dist A (qv e (s * p)) A (qv e (r * p))) as Q. rewrite dist4_refl, (norm4_unit A UA) in Q. pose proof (qv_along e (s * p) (r * p) UE) as V. replace (s * p - r * p) with ((s - r) * p) in V by ring. rewrite Rabs_mult, (Rabs_pos_eq p) in V by lra.
    assert (Rabs (s - r) * p <= 32 / 10 * u * (16 / 10)) by (apply Rmult_le_compat; try lra; apply Rabs_pos). lra. }
  assert (EI : forall p, 253 * u <= interp_error tau p) by (intros p; unfold interp_error; destruct (Rlt_dec _ _); lra).
  destruct (Rle_dec (B2R d) 0) as [D0|D0].
  - destruct (E0 D0) as (TE & QE & NZ & DZ). assert (FZ : finite3 (ft z)) by (rewrite TE; exact FX). split; [exact (conj NZ FZ)|]. split; [|exact POS]. destruct TURN as (T & e & p & HT & UE & P & TE2). exists T, e, p. refine (conj HT (conj UE (conj P (conj TE2 _)))). cbv zeta. fold A. left. apply Rle_trans with (2 := EI p).
    specialize (QD e p UE P 0 tau ltac:(rewrite Rabs_minus_sym; replace (tau - 0) with (tau - B2R d) by lra; rewrite Rabs_minus_sym; exact DT')). replace (qplus A (qv e (0 * p))) with A in QD.
    2:{ rewrite Rmult_0_l. unfold qv. rewrite sin_0, cos_0. replace (cons4 (scale3 0 e) 1) with quatIdentity; [symmetry; apply qplus_identity|]. unfold quatIdentity, scale3, cons4. cbn [vx vy vz]. now rewrite !Rmult_0_l. }
    pose proof (dist4_tri (val4 (fq z)) (val4 (fq x)) A) as T1. pose proof (dist4_tri (val4 (fq z)) A (qplus A (qv e (tau * p)))) as T2. fold A in QD. lra.
  - destruct (Rle_dec 1 (B2R d)) as [D1|D1].
    + destruct (E1 D1) as (TE & QE & NZ & DZ). assert (FZ : finite3 (ft z)) by (rewrite TE; exact FY). split; [exact (conj NZ FZ)|]. split; [|exact POS]. destruct TURN as (T & e & p & HT & UE & P & TE2). exists T, e, p. refine (conj HT (conj UE (conj P (conj TE2 _)))). cbv zeta. fold A.
      specialize (QD e p UE P 1 tau ltac:(replace 1 with (B2R d) by lra; exact DT')). rewrite Rmult_1_l, <- TE2 in QD.
      pose proof (dist4_tri (val4 (fq z)) (val4 (fq y)) B) as T1. destruct HT as [-> | ->].
      * left. apply Rle_trans with (2 := EI p). pose proof (dist4_tri (val4 (fq z)) B (qplus A (qv e (tau * p)))) as T2. lra.
      * right. apply Rle_trans with (2 := EI p). pose proof (dist4_tri (val4 (fq z)) B (opp4 (qplus A (qv e (tau * p))))) as T2. rewrite <- (dist4_opp B) in T2. replace (opp4 (opp4 (qplus A (qv e (tau * p))))) with (qplus A (qv e (tau * p))) in T2 by (generalize (qplus A (qv e (tau * p))); intros; vring). lra.
    + destruct (float_slerpTransformations E L x y d EK OK SX SY BX BY FD ltac:(lra)) as (SZ & (T & e & p & HT & UE & P & TE & D) & _). fold z in SZ, D. split; [exact SZ|]. split; [|exact POS].
      exists T, e, p. fold A in TE, D |- *. refine (conj HT (conj UE (conj P (conj TE _)))). cbv zeta. left. specialize (QD e p UE P (B2R d) tau DT').
      assert (SS : slerp_series (B2R d * (2 * p)) <= (if Rlt_dec (tau * (2 * p)) (/ 3990) then 4 / 10 ^ 13 else 0)).
      { unfold slerp_series. destruct (Rlt_dec (B2R d * (2 * p)) (/ 4000)) as [L1|L1]; destruct (Rlt_dec (tau * (2 * p)) (/ 3990)) as [L2|L2]; try lra. exfalso. apply L2. apply Rle_lt_trans with (B2R d * (2 * p) + 32 / 10 * u * 4); [|lra].
        assert ((tau - B2R d) * (2 * p) <= 32 / 10 * u * 4); [|lra]. apply Rle_trans with (32 / 10 * u * (2 * p)); [apply Rmult_le_compat_r; lra|apply Rmult_le_compat_l; lra]. }
      unfold interp_error. pose proof (dist4_tri (val4 (fq z)) (qplus A (qv e (B2R d * p))) (qplus A (qv e (tau * p)))) as T2. lra.
Qed.
(** the two times: the transformation of that time, the quaternion normalised once more *)
Theorem float_interpolate_ends E L x (s0 : f64) y (s1 : f64) : eigen_ok E -> stored_ok x -> stored_ok y -> is_finite s0 = true -> is_finite s1 = true -> Rabs (B2R s0) <= bpow radix2 1000 -> Rabs (B2R s1) <= bpow radix2 1000 -> B2R s0 + 1001 / 1000 / 10 ^ 14 <= B2R s1 ->
  ft_interpolate E L x s0 y s1 s0 = FT (fnormalize E (fq x)) (ft x) /\ ft_interpolate E L x s0 y s1 s1 = FT (fnormalize E (fq y)) (ft y).
Proof.
  intros EK SX SY F0 F1 B0 B1 G. pose proof u_val as UV.
  assert (LT : fltb s1 s0 = false). { pose proof (fltb_ext s1 s0 (is_nan_finite _ F1) (is_nan_finite _ F0)) as B. rewrite !ext_finite in B by assumption. destruct (fltb s1 s0); [exfalso; assert (B2R s1 < B2R s0) by (apply B; reflexivity); lra|reflexivity]. }
  destruct (param_err s0 s1 s0 F0 F1 F0 B0 B1 G ltac:(lra)) as (FA & _ & _ & _ & ZA & _). destruct (param_err s0 s1 s1 F0 F1 F1 B0 B1 G ltac:(lra)) as (FB & _ & _ & _ & _ & ZB).
  specialize (ZA eq_refl). specialize (ZB eq_refl). unfold ft_interpolate. rewrite LT. unfold ft_interpolate_ordered. cbv zeta. fold (fparam s0 s1 s0) (fparam s0 s1 s1).
  destruct (float_slerp_ends E L x y (fparam s0 s1 s0) EK SX SY FA) as [A0 _]. destruct (float_slerp_ends E L x y (fparam s0 s1 s1) EK SX SY FB) as [_ A1]. destruct (A0 ltac:(lra)) as (TA & QA & _). destruct (A1 ltac:(lra)) as (TB & QB & _). split; [rewrite <- TA, <- QA|rewrite <- TB, <- QB]; now destruct (ft_slerp _ _ _ _ _).
Qed.
(** the order of the two times does not matter, bit for bit *)
Theorem float_interpolate_exchange E L x (s0 : f64) y (s1 si : f64) : feqb s0 s1 = false -> is_nan s0 = false -> is_nan s1 = false -> ft_interpolate E L x s0 y s1 si = ft_interpolate E L y s1 x s0 si.
Proof.
  intros NE N0 N1. unfold ft_interpolate. pose proof (fltb_ext s1 s0 N1 N0) as B. pose proof (fltb_ext s0 s1 N0 N1) as C. pose proof (feqb_ext s0 s1 N0 N1) as D.
  destruct (fltb s1 s0) eqn:X; destruct (fltb s0 s1) eqn:Y; try reflexivity; exfalso.
  - assert (ext s1 < ext s0) by (apply B; reflexivity). assert (ext s0 < ext s1) by (apply C; reflexivity). lra.
  - assert (NB : ~ ext s1 < ext s0) by (intros H; apply B in H; discriminate). assert (NC : ~ ext s0 < ext s1) by (intros H; apply C in H; discriminate). assert (feqb s0 s1 = true) by (apply D; lra). rewrite H in NE. discriminate.
Qed.
(** False as stated: the transformation of the first time does not come back bit for bit, although the constructor made it: normalising a second time changes the last bit *)
Definition quarter_q : F4 := mkF4 (fofZ 1) fzero fzero (fofZ 1).
Theorem float_interpolate_refuted : forall o r, In o [by_halves; by_packets; by_loop] -> let E := mkEigen o r in forall L, exists q t y, let x := ft_make E q t in
  feqb (f0 (fq (ft_interpolate E L x fzero y fone fzero))) (f0 (fq x)) = false.
Proof.
  intros o r HO E L. exists quarter_q, (mkF3 fzero fzero fzero), (FT (mkF4 fzero fzero fzero fone) (mkF3 fzero fzero fzero)). subst E.
  destruct HO as [<- | [<- | [<- | []]]]; destruct r; vm_compute; reflexivity.
Qed.
(** the hypotheses are met: from the identity to a third of a turn, half way *)
Definition start_here : ftrafo := FT (mkF4 fzero fzero fzero fone) (mkF3 fzero fzero fzero).
Definition end_there : ftrafo := FT halves (mkF3 (fofZ 2) fzero (fofZ 4)).
Example float_interpolate_hypotheses : eigen_ok (mkEigen by_packets false) /\ lib2_ok rounded_lib2 /\ stored_ok start_here /\ stored_ok end_there /\ norm3 (val3 (ft start_here)) <= bpow radix2 600 /\ norm3 (val3 (ft end_there)) <= bpow radix2 600 /\
  B2R fzero + 1001 / 1000 / 10 ^ 14 <= B2R fone /\ B2R fzero <= B2R fhalf <= B2R fone /\ feqb fzero fone = false /\ 0 < B2R fhalf < 1.
Proof.
  destruct fone_val as [F1 V1]. destruct half_val as [VH FH]. rewrite V1, VH. change (B2R fzero) with 0. pose proof u53_pos as UP.
  assert (N600 : 8 <= bpow radix2 600). { change 8 with (bpow radix2 3). apply bpow_le. lia. }
  split; [apply perm_trans with [0; 2; 1; 3]%nat; [apply Permutation_refl|]; apply perm_skip; apply perm_swap|]. split; [exact rounded_lib2_ok|].
  assert (V3Z : forall v, vx v = 0 -> vy v = 0 -> vz v = 0 -> norm3 v <= 8). { intros [a b c]. cbn [vx vy vz]. intros -> -> ->. apply Rle_trans with (2 * 0); [|lra]. apply norm3_le; cbn [vx vy vz]; rewrite ?Rabs_R0; lra. }
  split; [split; [split; [repeat split; reflexivity|]|repeat split; reflexivity]|split; [split; [split; [repeat split; reflexivity|]|repeat split; reflexivity]|]].
  - replace (norm4 (val4 (fq start_here))) with 1; [rewrite Rminus_diag_eq, Rabs_R0 by reflexivity; lra|]. symmetry. unfold val4, start_here. cbn [fq f0 f1 f2 f3]. rewrite V1. change (B2R fzero) with 0. unfold norm4, dot4. cbn [e0 e1 e2 e3]. replace (0 * 0 + 0 * 0 + 0 * 0 + 1 * 1) with 1 by ring. apply sqrt_1.
  - replace (norm4 (val4 (fq end_there))) with 1; [rewrite Rminus_diag_eq, Rabs_R0 by reflexivity; lra|]. symmetry. change (fq end_there) with halves. destruct halves_vals as [VHH _]. rewrite VHH. unfold norm4, dot4. cbn [e0 e1 e2 e3]. replace (1 / 2 * (1 / 2) + 1 / 2 * (1 / 2) + 1 / 2 * (1 / 2) + 1 / 2 * (1 / 2)) with 1 by field. apply sqrt_1.
  - split; [apply Rle_trans with (2 := N600); apply V3Z; reflexivity|]. split; [|split; [lra|split; [lra|split; [reflexivity|lra]]]].
    apply Rle_trans with (2 := N600). apply Rle_trans with (2 * 4); [|lra]. unfold end_there, val3. cbn [ft fx fy fz]. destruct (fofZ_correct 2 ltac:(cbn; lia)) as [E2 _]. destruct (fofZ_correct 4 ltac:(cbn; lia)) as [E4 _]. rewrite E2, E4. change (B2R fzero) with 0. apply norm3_le; cbn [vx vy vz]; try lra; rewrite Rabs_pos_eq; lra.
Qed.
