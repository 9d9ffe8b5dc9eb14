(** C152: where the rotation vector's formulas in binary64 give no number, or a wrong one. *)
From Coq Require Import Reals Psatz List Permutation.
From Verif Require Import Float64 Nsec_Proofs TimerTable_Num Round_Proofs Kin_Angle_Props Kin_Float_Model Kin_FloatExp_Model Kin_FloatR_Model Kin_FloatMat_Model Kin_FloatS_Model.
From Verif Require Import LinAlg Kin_Quat_Props Kin_Trans_Model Kin_Trans_Props Kin_Rot_Model Kin_Rot_Props Kin_RV_Deriv Kin_Float_Geom Kin_Float_Num Kin_Float_Props Kin_Float_Matrix Kin_FloatR_Props Kin_FloatExp_Props Kin_FloatMat_Props Kin_FloatS_Props.
Import ListNotations.
Open Scope R_scope.

(** pow(x, 1.5) and pow(x, 2.5) with an error of at most 2 u relative *)
Definition pow_ok (L : lib3) : Prop := forall x, is_finite x = true -> 0 <= B2R x <= 1 ->
  (is_finite (m_pow32 L x) = true /\ Rabs (B2R (m_pow32 L x) - powR32 (B2R x)) <= 2 * u * powR32 (B2R x) + eta) /\
  (is_finite (m_pow52 L x) = true /\ Rabs (B2R (m_pow52 L x) - powR52 (B2R x)) <= 2 * u * powR52 (B2R x) + eta).
(** a correctly rounded cosine *)
Definition rounded_cos (L : lib) : Prop := forall x, is_finite x = true -> is_finite (m_cos L x) = true /\ B2R (m_cos L x) = rnd (cos (B2R x)).
(** no entry of the matrix is a number *)
Definition no_number (x : f64) : Prop := is_finite x = false.
Definition all_no_number (A : FM3) : Prop := forall i j, (i < 3)%nat -> (j < 3)%nat -> no_number (fat3 (match i with 0 => fr0 A | 1 => fr1 A | _ => fr2 A end%nat) j).

Lemma nf_mul_l x y : no_number x -> no_number (fmul x y).
Proof. unfold no_number, fmul. destruct x as [sx|sx| |sx mx ex hx]; try discriminate; intros _; destruct y as [sy|sy| |sy my ey hy]; reflexivity. Qed.
Lemma nf_mul_r x y : no_number y -> no_number (fmul x y).
Proof. unfold no_number, fmul. destruct y as [sx|sx| |sx mx ex hx]; try discriminate; intros _; destruct x as [sy|sy| |sy my ey hy]; reflexivity. Qed.
Lemma nf_add_l x y : no_number x -> no_number (fadd x y).
Proof. unfold no_number, fadd. destruct x as [sx|sx| |sx mx ex hx]; try discriminate; intros _; destruct y as [sy|sy| |sy my ey hy]; try reflexivity. cbn. destruct (Bool.eqb sx sy); reflexivity. Qed.
Lemma nf_add_r x y : no_number y -> no_number (fadd x y).
Proof. unfold no_number, fadd. destruct y as [sx|sx| |sx mx ex hx]; try discriminate; intros _; destruct x as [sy|sy| |sy my ey hy]; try reflexivity. cbn. destruct (Bool.eqb sy sx); reflexivity. Qed.
Lemma nf_neg x : no_number x -> no_number (fneg x).
Proof. unfold no_number, fneg. destruct x; auto. Qed.
Lemma nf_sub_r x y : no_number y -> no_number (fsub x y).
Proof. unfold no_number, fsub. destruct y as [sx|sx| |sx mx ex hx]; try discriminate; intros _; destruct x as [sy|sy| |sy my ey hy]; try reflexivity. cbn. destruct (Bool.eqb sy (negb sx)); reflexivity. Qed.
Lemma nf_div_zero x z : is_finite z = true -> B2R z = 0 -> no_number (fdiv x z).
Proof.
  intros F Z. destruct z as [s|s| |s m e h]; try discriminate F.
  - unfold no_number, fdiv. destruct x as [sy|sy| |sy my ey hy]; reflexivity.
  - exfalso. cbn [B2R] in Z. apply eq_0_F2R in Z. cbn in Z. destruct s; discriminate Z.
Qed.

(** ** the block d omega / d p at and near the identity *)
Lemma below_half_tiny (x : f64) : is_finite x = true -> Rabs (B2R x) < bpow radix2 (-1074) -> B2R x = 0.
Proof.
  intros F B. destruct (Req_dec (B2R x) 0) as [Z|NZ]; [exact Z|exfalso].
  assert (P : 0 < Rabs (B2R x)) by (apply Rabs_pos_lt; exact NZ).
  assert (G : format64 (Rabs (B2R x))) by (apply generic_format_abs, generic_format_B2R).
  assert (E : forall e, (-1074 <= fexp64 e)%Z) by (intros e; unfold SpecFloat.fexp, SpecFloat.emin; lia).
  pose proof (generic_format_ge_bpow radix2 fexp64 (-1074)%Z E _ P G). lra.
Qed.
Lemma square_small (x : f64) k : is_finite x = true -> (-500 <= k <= 0)%Z -> Rabs (B2R x) <= bpow radix2 k -> is_finite (fmul x x) = true /\ 0 <= B2R (fmul x x) <= bpow radix2 (k + k).
Proof.
  intros F K B. assert (P : 0 <= B2R x * B2R x <= bpow radix2 (k + k)).
  { split; [apply Rle_0_sqr|]. rewrite bpow_plus. replace (B2R x * B2R x) with (Rabs (B2R x) * Rabs (B2R x)) by (rewrite <- Rabs_mult; apply Rabs_pos_eq, Rle_0_sqr). apply Rmult_le_compat; auto using Rabs_pos. }
  destruct (fmul_rnd x x 0 F F ltac:(lia)) as [V FF]; [rewrite Rabs_pos_eq by lra; apply Rle_trans with (1 := proj2 P); apply bpow_le; lia|].
  split; [exact FF|]. rewrite V. split.
  - rewrite <- (round_0 radix2 fexp64 ZnearestE). apply round_le; try typeclasses eauto. lra.
  - rewrite <- (round_generic radix2 fexp64 ZnearestE (bpow radix2 (k + k))). apply round_le; try typeclasses eauto; lra. apply generic_format_bpow. unfold SpecFloat.fexp, SpecFloat.emin. lia.
Qed.
Lemma add_small (x y : f64) k : is_finite x = true -> is_finite y = true -> (-1000 <= k <= 0)%Z -> 0 <= B2R x <= bpow radix2 k -> 0 <= B2R y <= bpow radix2 k -> is_finite (fadd x y) = true /\ 0 <= B2R (fadd x y) <= bpow radix2 (k + 1).
Proof.
  intros FX FY K X Y. assert (D : bpow radix2 (k + 1) = bpow radix2 k + bpow radix2 k) by (rewrite bpow_plus; change (bpow radix2 1) with 2; ring).
  destruct (fadd_rnd x y 1 FX FY ltac:(lia)) as [V FF]; [rewrite Rabs_pos_eq by lra; apply Rle_trans with (bpow radix2 (k + 1)); [lra|apply bpow_le; lia]|].
  split; [exact FF|]. rewrite V. split.
  - rewrite <- (round_0 radix2 fexp64 ZnearestE). apply round_le; try typeclasses eauto. lra.
  - rewrite <- (round_generic radix2 fexp64 ZnearestE (bpow radix2 (k + 1))). apply round_le; try typeclasses eauto; lra. apply generic_format_bpow. unfold SpecFloat.fexp, SpecFloat.emin. lia.
Qed.
Lemma squares_small p k : finite3 p -> (-490 <= k <= 0)%Z -> Rabs (B2R (fx p)) <= bpow radix2 k -> Rabs (B2R (fy p)) <= bpow radix2 k -> Rabs (B2R (fz p)) <= bpow radix2 k ->
  let t8 := fadd (fadd (fmul (fx p) (fx p)) (fmul (fy p) (fy p))) (fmul (fz p) (fz p)) in is_finite t8 = true /\ 0 <= B2R t8 <= bpow radix2 (k + k + 2).
Proof.
  intros (FX & FY & FZ) K X Y Z. destruct (square_small _ k FX ltac:(lia) X) as [F1 B1]. destruct (square_small _ k FY ltac:(lia) Y) as [F2 B2]. destruct (square_small _ k FZ ltac:(lia) Z) as [F3 B3].
  assert (LE : bpow radix2 (k + k) <= bpow radix2 (k + k + 1)) by (apply bpow_le; lia).
  destruct (Z.eq_dec k 0) as [-> |NZ].
  - destruct (add_small _ _ 0 F1 F2 ltac:(lia) B1 B2) as [F4 B4]. cbn [Z.add] in *. change (bpow radix2 (0 + 0)) with 1 in B3. 
    assert (D : bpow radix2 2 = 4) by reflexivity. assert (D1 : bpow radix2 1 = 2) by reflexivity. cbv zeta. cbn [Z.add] in *. change (bpow radix2 0) with 1 in *.
    destruct (fadd_rnd _ _ 2 F4 F3 ltac:(lia)) as [V FF]; [rewrite Rabs_pos_eq, D; lra|]. split; [exact FF|]. rewrite V. split.
    + rewrite <- (round_0 radix2 fexp64 ZnearestE). apply round_le; try typeclasses eauto. lra.
    + rewrite <- (round_generic radix2 fexp64 ZnearestE (bpow radix2 2)). apply round_le; try typeclasses eauto; lra. apply generic_format_bpow. unfold SpecFloat.fexp, SpecFloat.emin. lia.
  - destruct (add_small _ _ (k + k) F1 F2 ltac:(lia) B1 B2) as [F4 B4].
    destruct (add_small _ _ (k + k + 1) F4 F3 ltac:(lia) B4 ltac:(lra)) as [F5 B5]. replace (k + k + 2)%Z with (k + k + 1 + 1)%Z by lia. split; assumption.
Qed.
Theorem float_rv_jacobian_refuted L p q : pow_ok L -> finite3 p -> Rabs (B2R (fx p)) <= bpow radix2 (-220) -> Rabs (B2R (fy p)) <= bpow radix2 (-220) -> Rabs (B2R (fz p)) <= bpow radix2 (-220) ->
  all_no_number (frv_dp L p q).
Proof.
  intros OK F X Y Z. destruct (squares_small p (-220) F ltac:(lia) X Y Z) as [F8 B8]. cbv zeta in F8, B8. change (-220 + -220 + 2)%Z with (-438)%Z in B8.
  set (t8 := fadd (fadd (fmul (fx p) (fx p)) (fmul (fy p) (fy p))) (fmul (fz p) (fz p))) in *.
  assert (B1 : 0 <= B2R t8 <= 1) by (split; [lra|apply Rle_trans with (1 := proj2 B8); change 1 with (bpow radix2 0); apply bpow_le; lia]).
  destruct (OK _ F8 B1) as [_ [FP EP]].
  assert (P5 : 0 <= powR52 (B2R t8) <= bpow radix2 (-1080)).
  { unfold powR52. pose proof (sqrt_pos (B2R t8)) as S0. assert (S1 : sqrt (B2R t8) <= 1) by (rewrite <- sqrt_1; apply sqrt_le_1_alt; lra).
    assert (SS : sqrt (B2R t8) <= bpow radix2 (-219)).
    { rewrite <- (sqrt_square (bpow radix2 (-219))) by apply bpow_ge_0. apply sqrt_le_1_alt. rewrite <- bpow_plus. apply Rle_trans with (1 := proj2 B8). apply bpow_le. lia. }
    split; [repeat apply Rmult_le_pos; lra|]. change (-1080)%Z with (-438 + -438 + -204)%Z. rewrite !bpow_plus. apply Rmult_le_compat; [apply Rmult_le_pos; lra|lra| |apply Rle_trans with (1 := SS); apply bpow_le; lia].
    apply Rmult_le_compat; lra. }
  assert (Z5 : B2R (m_pow52 L t8) = 0).
  { apply below_half_tiny; [exact FP|]. pose proof u_val as UV. assert (U2 : 2 * u * powR52 (B2R t8) <= 1 * powR52 (B2R t8)) by (apply Rmult_le_compat_r; [lra|rewrite UV; lra]).
    assert (E1 : bpow radix2 (-1074) = 2 * eta) by (change 2 with (bpow radix2 1); rewrite <- bpow_plus; reflexivity). assert (E2 : 32 * bpow radix2 (-1080) = eta) by (change 32 with (bpow radix2 5); rewrite <- bpow_plus; reflexivity).
    pose proof (bpow_gt_0 radix2 (-1075)) as EP0. rewrite E1. apply Rabs_le_inv in EP. apply Rabs_lt. lra. }
  assert (D : no_number (fdiv (fofZ 1) (m_pow52 L t8))) by (apply nf_div_zero; assumption).
  unfold frv_dp. cbv zeta. fold t8. set (t15 := fdiv (fofZ 1) (m_pow52 L t8)) in *. clearbody t15. pose proof (nf_neg _ D) as D'. 
  intros i j I J. unfold fm3, fat3. destruct i as [|[|[|i]]]; [| | |lia]; (destruct j as [|[|[|j]]]; [| | |lia]); cbn [fr0 fr1 fr2 fx fy fz]; (apply nf_mul_l; assumption).
Qed.

(** ** a correctly rounded cosine is exactly 1 up to 2^-27 *)
Lemma one_format : format64 1. Proof. change 1 with (bpow radix2 0). apply generic_format_bpow. unfold SpecFloat.fexp, SpecFloat.emin. lia. Qed.
Lemma rnd_cos_one t : Rabs t <= bpow radix2 (-27) -> rnd (cos t) = 1.
Proof.
  intros T. assert (T2 : t * t <= bpow radix2 (-54)).
  { replace (t * t) with (Rabs t * Rabs t) by (rewrite <- Rabs_mult; apply Rabs_pos_eq, Rle_0_sqr). change (-54)%Z with (-27 + -27)%Z. rewrite bpow_plus. apply Rmult_le_compat; auto using Rabs_pos. }
  assert (B1 : bpow radix2 (-27) <= 1) by (change 1 with (bpow radix2 0); apply bpow_le; lia).
  assert (C : 1 - Rabs t * Rabs t / 2 <= cos t) by (replace (cos t) with (cos (Rabs t)) by (unfold Rabs; destruct (Rcase_abs t); [apply cos_neg|reflexivity]); apply cos_quartic; split; [apply Rabs_pos|lra]).
  rewrite <- Rabs_mult, (Rabs_pos_eq (t * t)) in C by apply Rle_0_sqr.
  assert (P : pred radix2 fexp64 1 = 1 - bpow radix2 (-53)) by (change 1 with (bpow radix2 0) at 1; rewrite pred_bpow; reflexivity).
  assert (D : bpow radix2 (-53) = 2 * bpow radix2 (-54)) by (change 2 with (bpow radix2 1); rewrite <- bpow_plus; reflexivity). pose proof (bpow_gt_0 radix2 (-54)) as G0.
  apply Rle_antisym.
  - rewrite <- (round_generic radix2 fexp64 ZnearestE 1 one_format). apply round_le; try typeclasses eauto. apply COS_bound.
  - apply round_N_ge_midp; try typeclasses eauto. apply one_format. rewrite P. lra.
Qed.
Lemma value_one (x : f64) : is_finite x = true -> B2R x = 1 -> x = fone.
Proof.
  intros F V. destruct (fofZ_correct 1 ltac:(lia)) as [V1 F1]. apply B2R_inj.
  - destruct x; try discriminate F; [cbn in V; lra|reflexivity].
  - unfold fone. destruct (fofZ 1) as [s|s| |s m e h]; try discriminate F1; [cbn in V1; lra|reflexivity].
  - unfold fone. lra.
Qed.
Lemma cos_one L x : rounded_cos L -> is_finite x = true -> Rabs (B2R x) <= bpow radix2 (-27) -> m_cos L x = fone.
Proof. intros RC F B. destruct (RC x F) as [FF V]. apply value_one; [exact FF|]. rewrite V. now apply rnd_cos_one. Qed.

(** ** parametersToInverseSMatrix *)
Lemma cross_poly_no_number fac c1 c2 a : no_number c2 -> all_no_number (fcross_poly fac c1 c2 a).
Proof.
  intros N. assert (CC : forall a b, no_number (fcc fac c2 a b)) by (intros; unfold fcc; destruct fac; [apply nf_mul_l|apply nf_mul_l, nf_mul_l]; exact N).
  assert (CD : forall a b, no_number (fcd fac c2 a b)) by (intros; unfold fcd; destruct fac; [apply nf_mul_l|apply nf_add_l, nf_mul_l, nf_mul_l]; exact N).
  intros i j I J. unfold fcross_poly, fm3, fat3. cbv zeta. destruct i as [|[|[|i]]]; [| | |lia]; (destruct j as [|[|[|j]]]; [| | |lia]); cbn [fr0 fr1 fr2 fx fy fz]; apply nf_add_r; auto.
Qed.
Theorem float_inverse_S_refuted L p : lib3_ok L -> rounded_cos (lbase L) -> finite3 p -> bpow radix2 (-300) <= norm3 (val3 p) <= bpow radix2 (-28) -> all_no_number (frv_invS L p).
Proof.
  intros [OB _] RC F [N0 N1]. pose proof u_val as UV. assert (N2 : norm3 (val3 p) <= bpow radix2 290) by (apply Rle_trans with (1 := N1); apply bpow_le; lia).
  destruct (fnorm3_err (lbase L) p OB F N2) as (FT & T0 & TE & _). cbv zeta in *. set (phi := fnorm3 (lbase L) p) in *.
  assert (T4 : tiny400 <= norm3 (val3 p)) by (apply Rle_trans with (2 := N0); apply bpow_le; lia). specialize (TE T4). set (n := norm3 (val3 p)) in *.
  assert (G0 : 0 < bpow radix2 (-300)) by apply bpow_gt_0. assert (E : 42 / 10 * u * n <= / 1000 * n) by (apply Rmult_le_compat_r; [lra|rewrite UV; lra]). apply Rabs_le_inv in TE.
  assert (D : bpow radix2 (-27) = 2 * bpow radix2 (-28)) by (change 2 with (bpow radix2 1); rewrite <- bpow_plus; reflexivity).
  unfold frv_invS. cbv zeta. fold phi. unfold feqb. rewrite (Beqb_correct _ _ phi fzero FT eq_refl).
  destruct (Req_bool_spec (B2R phi) (B2R fzero)) as [Z|NZ]; [exfalso; change (B2R fzero) with 0 in Z; lra|].
  rewrite (cos_one (lbase L) phi RC FT) by (rewrite Rabs_pos_eq; lra).
  apply cross_poly_no_number, nf_mul_r, nf_sub_r, nf_mul_r, nf_div_zero; vm_compute; reflexivity.
Qed.
(** the matrix itself: in exact arithmetic it is the inverse of S *)
Theorem inverse_S_exact p : / 10 ^ 14 <= norm3 p <= bpow radix2 (-28) -> mm3 (rv_invS p) (rv_S p) = I3 /\ mm3 (rv_S p) (rv_invS p) = I3.
Proof.
  intros [A B]. apply rv_invS_inverse; [exact A|]. intros C. assert (B1 : bpow radix2 (-28) <= 1) by (change 1 with (bpow radix2 0); apply bpow_le; lia).
  assert (N0 : 0 < norm3 p) by lra. set (n := norm3 p) in *. destruct (cos_quartic n ltac:(lra)) as [_ U]. assert (S2 : 0 < n * n <= 1) by (split; [apply Rmult_lt_0_compat; lra|replace 1 with (1 * 1) by ring; apply Rmult_le_compat; lra]).
  assert (S4 : n * n * (n * n) <= n * n * 1) by (apply Rmult_le_compat_l; lra). lra.
Qed.

(** ** the block d omega / d p for small p: a number, and the wrong one *)
Definition zr (x : f64) : Prop := is_finite x = true /\ B2R x = 0.
Definition b1 (x : f64) : Prop := is_finite x = true /\ Rabs (B2R x) <= 1.
Lemma zr_b1 x : zr x -> b1 x. Proof. intros [F Z]. split; [exact F|]. rewrite Z, Rabs_R0. lra. Qed.
Lemma zr_mul_l x y : zr x -> is_finite y = true -> zr (fmul x y).
Proof.
  intros [F Z] FY. destruct (fmul_rnd x y 0 F FY ltac:(lia)) as [V FF]; [rewrite Z, Rmult_0_l, Rabs_R0; apply bpow_ge_0|].
  split; [exact FF|]. rewrite V, Z, Rmult_0_l. apply round_0. typeclasses eauto.
Qed.
Lemma zr_mul_r x y : is_finite x = true -> zr y -> zr (fmul x y).
Proof.
  intros FX [F Z]. destruct (fmul_rnd x y 0 FX F ltac:(lia)) as [V FF]; [rewrite Z, Rmult_0_r, Rabs_R0; apply bpow_ge_0|].
  split; [exact FF|]. rewrite V, Z, Rmult_0_r. apply round_0. typeclasses eauto.
Qed.
Lemma zr_add x y : zr x -> zr y -> zr (fadd x y).
Proof.
  intros [F Z] [FY ZY]. destruct (fadd_rnd x y 0 F FY ltac:(lia)) as [V FF]; [rewrite Z, ZY, Rplus_0_l, Rabs_R0; apply bpow_ge_0|].
  split; [exact FF|]. rewrite V, Z, ZY, Rplus_0_l. apply round_0. typeclasses eauto.
Qed.
Lemma zr_sub x y : zr x -> zr y -> zr (fsub x y).
Proof.
  intros [F Z] [FY ZY]. destruct (fsub_rnd x y 0 F FY ltac:(lia)) as [V FF]; [rewrite Z, ZY, Rminus_0_r, Rabs_R0; apply bpow_ge_0|].
  split; [exact FF|]. rewrite V, Z, ZY, Rminus_0_r. apply round_0. typeclasses eauto.
Qed.
Lemma b1_mul x y : b1 x -> b1 y -> b1 (fmul x y).
Proof.
  intros [F B] [FY BY]. assert (P : Rabs (B2R x * B2R y) <= 1) by (rewrite Rabs_mult; replace 1 with (1 * 1) by ring; apply Rmult_le_compat; auto using Rabs_pos).
  destruct (fmul_rnd x y 0 F FY ltac:(lia) P) as [V FF]. split; [exact FF|]. rewrite V. apply Rabs_le_inv in P. apply Rabs_le.
  assert (G : format64 (- (1))) by (apply generic_format_opp, one_format). split.
  - rewrite <- (round_generic radix2 fexp64 ZnearestE _ G). apply round_le; try typeclasses eauto. lra.
  - rewrite <- (round_generic radix2 fexp64 ZnearestE _ one_format). apply round_le; try typeclasses eauto. lra.
Qed.
Ltac fin := match goal with H : zr ?x |- is_finite ?x = true => exact (proj1 H) | H : b1 ?x |- is_finite ?x = true => exact (proj1 H) | H : is_finite ?x = true |- is_finite ?x = true => exact H
  | |- is_finite (fmul _ _) = true => refine (proj1 (b1_mul _ _ _ _)); bnd end
with bnd := match goal with H : b1 ?x |- b1 ?x => exact H | H : zr ?x |- b1 ?x => exact (zr_b1 _ H) | |- b1 (fmul _ _) => apply b1_mul; bnd end.
Ltac zro := match goal with H : zr ?x |- zr ?x => exact H | |- zr (fadd _ _) => apply zr_add; zro | |- zr (fsub _ _) => apply zr_sub; zro
  | |- zr (fmul _ _) => first [apply zr_mul_l; [zro|fin]|apply zr_mul_r; [fin|zro]] end.
Theorem float_rv_jacobian_wrong L a : lib3_ok L -> rounded_cos (lbase L) -> pow_ok L -> is_finite a = true -> bpow radix2 (-200) <= B2R a <= bpow radix2 (-28) ->
  let p := mkF3 a fzero fzero in let q := mkF3 fzero fzero fone in
  is_finite (fy (fr0 (frv_dp L p q))) = true /\ B2R (fy (fr0 (frv_dp L p q))) = 0 /\
  exists J, rv_J (val3 p) (val3 q) = Some J /\ - (1 / 2) <= vy (r30 (fst J)) <= - (49 / 100).
Proof.
  intros OK RC PO FA [A0 A1] p q. pose proof (bpow_gt_0 radix2 (-200)) as G0. assert (A2 : B2R a <= 1) by (apply Rle_trans with (1 := A1); change 1 with (bpow radix2 0); apply bpow_le; lia).
  assert (V0 : B2R fzero = 0) by reflexivity. destruct (fofZ_correct 1 ltac:(lia)) as [V1 F1]. fold fone in V1, F1.
  assert (EX : exists J, rv_J (val3 p) (val3 q) = Some J /\ - (1 / 2) <= vy (r30 (fst J)) <= - (49 / 100)).
  { assert (VP : val3 p = V3 (B2R a) 0 0) by reflexivity. assert (VQ : val3 q = V3 0 0 1) by (unfold val3, q; cbn [fx fy fz]; rewrite V1; reflexivity). rewrite VP, VQ. clear VP VQ.
    set (x := B2R a) in *. assert (X0 : 0 < x) by lra. unfold rv_J. destruct (Req_EM_T (dot3 (V3 x 0 0) (V3 x 0 0)) 0) as [Z|NZ].
    - exfalso. unfold dot3 in Z. cbn [vx vy vz] in Z. assert (0 < x * x) by (apply Rmult_lt_0_compat; lra). lra.
    - eexists. split; [reflexivity|]. cbn [fst]. assert (E : vy (r30 (rv_J1 (V3 x 0 0) (V3 0 0 1))) = (cos x - 1) / (x * x)).
      { unfold rv_J1, powR32, powR52. cbv zeta. unfold m3. cbn [r30 vx vy vz]. replace (x * x + 0 * 0 + 0 * 0) with (x * x) by ring. rewrite sqrt_square by lra. field. lra. }
      rewrite E. destruct (cos_quartic x ltac:(lra)) as [L1 U1]. assert (X2 : 0 < x * x) by (apply Rmult_lt_0_compat; lra). split.
      + apply Rmult_le_reg_r with (x * x); [exact X2|]. unfold Rdiv. rewrite Rmult_assoc, Rinv_l by lra. lra.
      + apply Rmult_le_reg_r with (x * x); [exact X2|]. unfold Rdiv at 1. rewrite Rmult_assoc, Rinv_l by lra. assert (XS : x * x <= / 100 * / 100).
        { apply Rmult_le_compat; try lra; apply Rle_trans with (1 := A1); replace (bpow radix2 (-28)) with (/ 268435456) by (cbn; lra); lra. }
        assert (x * x * (x * x) <= x * x * (/ 100 * / 100)) by (apply Rmult_le_compat_l; lra). lra. }
  cut (zr (fy (fr0 (frv_dp L p q)))); [intros [ZF ZV]; auto|]. clear EX.
  (* the shared subexpressions *)
  destruct OK as [(SO & _) _]. pose proof u_val as UV. pose proof (bpow_gt_0 radix2 (-1075)) as EP0.
  assert (SA : 0 <= B2R a * B2R a <= bpow radix2 (-56)).
  { split; [apply Rle_0_sqr|]. change (-56)%Z with (-28 + -28)%Z. rewrite bpow_plus. apply Rmult_le_compat; lra. }
  set (t8 := fadd (fadd (fmul a a) (fmul fzero fzero)) (fmul fzero fzero)).
  assert (T8 : is_finite t8 = true /\ bpow radix2 (-400) <= B2R t8 <= bpow radix2 (-56)).
  { destruct (fmul_rnd a a 0 FA FA ltac:(lia)) as [V5 F5]; [rewrite Rabs_pos_eq by lra; apply Rle_trans with (1 := proj2 SA); apply bpow_le; lia|].
    assert (LB : bpow radix2 (-400) <= B2R a * B2R a) by (change (-400)%Z with (-200 + -200)%Z; rewrite bpow_plus; apply Rmult_le_compat; lra).
    assert (GB : forall k, (-1000 <= k <= 0)%Z -> format64 (bpow radix2 k)) by (intros k K; apply generic_format_bpow; unfold SpecFloat.fexp, SpecFloat.emin; lia).
    assert (B5 : bpow radix2 (-400) <= B2R (fmul a a) <= bpow radix2 (-56)).
    { rewrite V5. split; [rewrite <- (round_generic radix2 fexp64 ZnearestE _ (GB (-400)%Z ltac:(lia)))|rewrite <- (round_generic radix2 fexp64 ZnearestE _ (GB (-56)%Z ltac:(lia)))]; apply round_le; try typeclasses eauto; lra. }
    assert (F56 : bpow radix2 (-56) <= 1) by (change 1 with (bpow radix2 0); apply bpow_le; lia). pose proof (bpow_gt_0 radix2 (-400)) as G4.
    assert (Z0 : fmul fzero fzero = fzero) by reflexivity. unfold t8. rewrite Z0.
    assert (ADDZ : forall x : f64, is_finite x = true -> 0 <= B2R x <= 1 -> is_finite (fadd x fzero) = true /\ B2R (fadd x fzero) = B2R x).
    { intros x FX BX. destruct (fadd_rnd x fzero 0 FX eq_refl ltac:(lia)) as [V FF]; [rewrite V0, Rplus_0_r, Rabs_pos_eq by lra; apply BX|]. split; [exact FF|]. rewrite V, V0, Rplus_0_r. apply round_generic; [typeclasses eauto|apply generic_format_B2R]. }
    destruct (ADDZ _ F5 ltac:(lra)) as [F6 V6]. destruct (ADDZ _ F6 ltac:(lra)) as [F7 V7]. split; [exact F7|]. rewrite V7, V6. exact B5. }
  destruct T8 as [F8 B8]. assert (B56 : bpow radix2 (-56) <= 1) by (change 1 with (bpow radix2 0); apply bpow_le; lia). pose proof (bpow_gt_0 radix2 (-400)) as G4.
  destruct (PO t8 F8 ltac:(lra)) as [[F9 E9] [F15 E15]].
  assert (RT : bpow radix2 (-200) <= sqrt (B2R t8) <= bpow radix2 (-28)).
  { split; [rewrite <- (sqrt_square (bpow radix2 (-200))) by apply bpow_ge_0|rewrite <- (sqrt_square (bpow radix2 (-28))) by apply bpow_ge_0]; apply sqrt_le_1_alt; rewrite <- bpow_plus; apply B8. }
  assert (T10 : is_finite (fsqrt t8) = true /\ 0 <= B2R (fsqrt t8) <= bpow radix2 (-28)).
  { destruct (Bsqrt_correct 53 1024 _ _ mode_NE t8) as (V & FF & _). split.
    - unfold fsqrt. rewrite FF. clear -F8 B8 G4. destruct t8 as [s|s| |s m e h]; try discriminate F8; try reflexivity. destruct s; [|reflexivity]. exfalso. assert (B2R (B754_finite true m e h) < 0) by (cbn [B2R]; apply F2R_lt_0; reflexivity). lra.
    - unfold fsqrt. rewrite V. unfold round_mode. split.
      + rewrite <- (round_0 radix2 fexp64 ZnearestE). apply round_le; try typeclasses eauto. lra.
      + rewrite <- (round_generic radix2 fexp64 ZnearestE (bpow radix2 (-28))). apply round_le; try typeclasses eauto; lra. apply generic_format_bpow. unfold SpecFloat.fexp, SpecFloat.emin. lia. }
  destruct T10 as [F10 B10]. assert (B28 : bpow radix2 (-28) <= / 100) by (replace (bpow radix2 (-28)) with (/ 268435456) by (cbn; lra); lra).
  assert (T12 : m_cos (lbase L) (fsqrt t8) = fone).
  { apply cos_one; [exact RC|exact F10|]. rewrite Rabs_pos_eq by lra. apply Rle_trans with (1 := proj2 B10). apply bpow_le. lia. }
  assert (T11 : b1 (m_sin (lbase L) (fsqrt t8))).
  { destruct (SO _ F10) as [FS ES]. split; [exact FS|]. set (y := B2R (fsqrt t8)) in *. destruct (sin_cubic y ltac:(lra)) as [_ SU]. assert (S0 : 0 <= sin y) by (apply sin_ge_0; [lra|pose proof PI2_1; pose proof PI_RGT_0; lra]).
    rewrite (Rabs_pos_eq (sin y)) in ES by lra. assert (U1 : 2 * u * sin y <= 1 * sin y) by (apply Rmult_le_compat_r; [lra|rewrite UV; lra]). assert (EB : eta <= / 100) by (apply Rle_trans with (bpow radix2 (-28)); [apply bpow_le; lia|lra]).
    apply Rabs_le_inv in ES. apply Rabs_le. lra. }
  assert (TT : is_finite (m_pow52 L t8) = true /\ bpow radix2 (-1001) <= B2R (m_pow52 L t8)).
  { split; [exact F15|]. assert (P5 : bpow radix2 (-1000) <= powR52 (B2R t8)).
    { unfold powR52. change (-1000)%Z with (-400 + -400 + -200)%Z. rewrite !bpow_plus. pose proof (bpow_ge_0 radix2 (-200)). pose proof (Rmult_le_pos (bpow radix2 (-400)) (bpow radix2 (-400)) ltac:(lra) ltac:(lra)). apply Rmult_le_compat; try lra. apply Rmult_le_compat; lra. }
    assert (U1 : 2 * u * powR52 (B2R t8) <= / 4 * powR52 (B2R t8)) by (apply Rmult_le_compat_r; [pose proof (bpow_ge_0 radix2 (-1000)); lra|rewrite UV; lra]).
    assert (EB : 4 * eta <= bpow radix2 (-1000)) by (change 4 with (bpow radix2 2); rewrite <- bpow_plus; apply bpow_le; lia). assert (D : bpow radix2 (-1000) = 2 * bpow radix2 (-1001)) by (change 2 with (bpow radix2 1); rewrite <- bpow_plus; reflexivity).
    apply Rabs_le_inv in E15. lra. }
  destruct TT as [_ T15]. pose proof (bpow_gt_0 radix2 (-1001)) as G5.
  assert (F15' : is_finite (fdiv fone (m_pow52 L t8)) = true).
  { refine (proj2 (fdiv_rnd fone _ 1001 F1 _ ltac:(lia) _)); [lra|]. rewrite V1. unfold Rdiv. rewrite Rmult_1_l, Rabs_pos_eq by (left; apply Rinv_0_lt_compat; lra).
    change 1001%Z with (- (-1001))%Z. rewrite bpow_opp. apply Rinv_le_contravar; lra. }
  assert (Z9 : b1 (m_pow32 L t8)).
  { split; [exact F9|]. assert (P3 : 0 <= powR32 (B2R t8) <= / 100) by (unfold powR32; split; [apply Rmult_le_pos; [lra|apply sqrt_pos]|replace (/ 100) with (1 * / 100) by ring; apply Rmult_le_compat; try lra; apply sqrt_pos]).
    assert (U1 : 2 * u * powR32 (B2R t8) <= 1 * powR32 (B2R t8)) by (apply Rmult_le_compat_r; [lra|rewrite UV; lra]). assert (EB : eta <= / 100) by (apply Rle_trans with (bpow radix2 (-28)); [apply bpow_le; lia|lra]).
    apply Rabs_le_inv in E9. apply Rabs_le. lra. }
  assert (Z0 : zr fzero) by (split; reflexivity). assert (Z1 : b1 fone) by (split; [exact F1|rewrite V1, Rabs_R1; lra]). assert (ZA : b1 a) by (split; [exact FA|rewrite Rabs_pos_eq; lra]).
  assert (Z10 : b1 (fsqrt t8)) by (split; [exact F10|rewrite Rabs_pos_eq; lra]). assert (Z8 : b1 t8) by (split; [exact F8|rewrite Rabs_pos_eq; lra]).
  assert (Z14 : zr (fsub (fmul fone (fdiv (fofZ 1) (fofZ 2))) (fdiv (fofZ 1) (fofZ 2)))).
  { destruct (fofZ_correct 2 ltac:(lia)) as [V2 F2]. assert (DV : 1 / 2 = bpow radix2 (-1)) by (cbn; lra). assert (GH : format64 (1 / 2)) by (rewrite DV; apply generic_format_bpow; unfold SpecFloat.fexp, SpecFloat.emin; lia).
    destruct (fdiv_rnd (fofZ 1) (fofZ 2) 0 F1 ltac:(rewrite V2; lra) ltac:(lia)) as [V F]; [change (fofZ 1) with fone; rewrite V1, V2, Rabs_pos_eq by lra; change (bpow radix2 0) with 1; lra|].
    change (fofZ 1) with fone in V at 2. rewrite V1, V2, round_generic in V by (try typeclasses eauto; exact GH). set (h := fdiv (fofZ 1) (fofZ 2)) in *. clearbody h.
    destruct (fmul_rnd fone h 0 F1 F ltac:(lia)) as [VM FM]; [rewrite V1, V, Rabs_pos_eq by lra; change (bpow radix2 0) with 1; lra|]. rewrite V1, V, Rmult_1_l, round_generic in VM by (try typeclasses eauto; exact GH).
    destruct (fsub_rnd _ _ 0 FM F ltac:(lia)) as [VS FS]; [rewrite VM, V, Rminus_diag_eq, Rabs_R0 by reflexivity; apply bpow_ge_0|]. split; [exact FS|]. rewrite VS, VM, V, Rminus_diag_eq by reflexivity. apply round_0. typeclasses eauto. }
  assert (ZF : forall z, (0 <= z <= 4)%Z -> is_finite (fofZ z) = true) by (intros z HZ; apply fofZ_correct; lia).
  pose proof (ZF 2%Z ltac:(lia)) as FC2. pose proof (ZF 3%Z ltac:(lia)) as FC3. pose proof (ZF 4%Z ltac:(lia)) as FC4.
  unfold frv_dp. cbv zeta. unfold p, q. cbn [fx fy fz]. fold t8. rewrite T12. unfold fm3. cbn [fr0 fy]. change (fofZ 1) with fone in *.
  set (t14 := fsub (fmul fone (fdiv fone (fofZ 2))) (fdiv fone (fofZ 2))) in *. set (t15 := fdiv fone (m_pow52 L t8)) in *. set (t9 := m_pow32 L t8) in *. set (t10 := fsqrt t8) in *. set (t11 := m_sin (lbase L) t10) in *.
  assert (ZQ : zr (fmul fzero fzero)) by (apply zr_mul_l; [exact Z0|reflexivity]). assert (Z5 : b1 (fmul a a)) by (apply b1_mul; exact ZA).
  set (t6 := fmul fzero fzero) in *. set (t5 := fmul a a) in *. set (c2 := fofZ 2) in *. set (c3 := fofZ 3) in *. set (c4 := fofZ 4) in *. set (z := fzero) in *. set (o := fone) in *.
  clearbody t14 t15 t9 t11 t10 t6 t5 c2 c3 c4 z o t8. clear - Z0 Z1 ZA Z10 Z8 Z14 FC2 FC3 FC4 ZQ Z5 Z9 T11 F15'.
  zro.
Qed.

(** ** a library meeting every hypothesis, and parameters in range *)
Definition rounded_lib3 (fac : bool) : lib3 :=
  mkLib3 rounded_lib (fun x => to_f64 (powR32 (B2R x))) (fun x => to_f64 (powR52 (B2R x))) fac (fun _ => SAdd (SAdd (SLeaf 0) (SLeaf 1)) (SLeaf 2)).
Theorem rounded_lib3_ok fac : lib3_ok (rounded_lib3 fac) /\ rounded_cos (lbase (rounded_lib3 fac)) /\ pow_ok (rounded_lib3 fac).
Proof.
  pose proof u53_pos as UP. refine (conj (conj rounded_lib_ok _) (conj _ _)).
  - intros i. cbn. reflexivity.
  - intros x F. cbn [lbase rounded_lib3 rounded_lib m_cos]. apply to_f64_val. apply Rabs_le, COS_bound.
  - intros x F B. cbn [rounded_lib3 m_pow32 m_pow52]. assert (S1 : 0 <= sqrt (B2R x) <= 1) by (split; [apply sqrt_pos|rewrite <- sqrt_1; apply sqrt_le_1_alt; lra]).
    assert (SQ : 0 <= B2R x * B2R x <= 1) by (split; [apply Rmult_le_pos; lra|replace 1 with (1 * 1) by ring; apply Rmult_le_compat; lra]).
    assert (G : forall y, 0 <= y <= 1 -> is_finite (to_f64 y) = true /\ Rabs (B2R (to_f64 y) - y) <= 2 * u * y + eta).
    { intros y Y. destruct (to_f64_val y) as [FF V]; [rewrite Rabs_pos_eq; lra|]. split; [exact FF|]. rewrite V. pose proof (rnd_err y) as E. rewrite (Rabs_pos_eq y) in E by lra. assert (0 <= u * y) by (apply Rmult_le_pos; lra). lra. }
    split; apply G; unfold powR32, powR52; (split; [repeat apply Rmult_le_pos; lra|replace 1 with (1 * 1) by ring; apply Rmult_le_compat; lra]).
Qed.
Example tiny_parameters : let a := flit 1 (-30) in let p := mkF3 a fzero fzero in finite3 p /\ is_finite a = true /\ bpow radix2 (-200) <= B2R a <= bpow radix2 (-28) /\ bpow radix2 (-300) <= norm3 (val3 p) <= bpow radix2 (-28).
Proof.
  intros a p. assert (S : B2SF a = SpecFloat.S754_finite false 4503599627370496 (-82)) by (vm_compute; reflexivity).
  assert (V : is_finite a = true /\ B2R a = bpow radix2 (-30)).
  { clearbody a. clear p. destruct a as [s|s| |s m e h]; try discriminate S. cbn in S. inversion S; subst. split; [reflexivity|]. unfold B2R, F2R. cbn [Fnum Fexp SpecFloat.cond_Zopp]. replace (-30)%Z with (52 + -82)%Z by lia. rewrite bpow_plus. reflexivity. }
  clear S. destruct V as [F V]. clearbody a. assert (NV : norm3 (val3 p) = bpow radix2 (-30)).
  { unfold norm3, p, val3, dot3. cbn [fx fy fz vx vy vz]. change (B2R fzero) with 0. rewrite V. replace (bpow radix2 (-30) * bpow radix2 (-30) + 0 * 0 + 0 * 0) with (bpow radix2 (-30) * bpow radix2 (-30)) by ring. apply sqrt_square, bpow_ge_0. }
  rewrite NV, V. refine (conj _ (conj F (conj (conj _ _) (conj _ _)))); try (apply bpow_le; lia). unfold finite3, p. cbn [fx fy fz]. auto.
Qed.
Example identity_parameters : let p := mkF3 fzero fzero fzero in finite3 p /\ Rabs (B2R (fx p)) <= bpow radix2 (-220).
Proof. cbv zeta. split; [repeat split|]. change (B2R (fx (mkF3 fzero fzero fzero))) with 0. rewrite Rabs_R0. apply bpow_ge_0. Qed.
