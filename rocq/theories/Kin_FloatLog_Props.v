(** C147: the logarithm of a unit quaternion (quat2AxisAngle, qlog) in binary64. *)
From Coq Require Import Reals Psatz List Permutation Lia.
From Flocq Require Mult_error.
From Verif Require GTest_Props.
From Verif Require Import PiBound Float64 Nsec_Proofs TimerTable_Num Round_Proofs Kin_Angle_Props Kin_Float_Model Kin_FloatExp_Model Kin_FloatR_Model Kin_FloatMat_Model Kin_FloatParam_Model Kin_FloatLog_Model.
From Verif Require Import LinAlg Kin_Quat_Props Kin_Trans_Model Kin_Trans_Props Kin_Rot_Model Kin_Rot_Props Kin_Interp_Props Kin_Float_Geom Kin_Float_Num Kin_Float_Props Kin_Float_Matrix Kin_FloatR_Props Kin_FloatExp_Props Kin_FloatMat_Props Kin_FloatParam_Props Kin_FloatParam_RV Kin_FloatT_Model Kin_FloatT_Props Kin_FloatLog_Geom Kin_Quat_Model.
Import ListNotations.
Open Scope R_scope.

(** ** relative errors *)
Definition rel (x : f64) (v k : R) : Prop := is_finite x = true /\ Rabs (B2R x - v) <= k * u * v.
Lemma rel_weaken x v k l : rel x v k -> k <= l -> 0 < v -> rel x v l.
Proof. intros [F H] L V. split; [exact F|]. apply Rle_trans with (1 := H). apply Rmult_le_compat_r; [lra|]. apply Rmult_le_compat_r; [pose proof u53_pos; lra|exact L]. Qed.
Lemma rel_range x v k : rel x v k -> k <= 200 -> 0 < v -> 999999 / 1000000 * v <= B2R x <= 1000001 / 1000000 * v.
Proof.
  intros [_ H] K V. pose proof u53_pos as UP. assert (KU : k * u <= 200 * u) by (apply Rmult_le_compat_r; lra). pose proof u_val as UV.
  assert (M : k * u * v <= 1 / 1000000 * v) by (apply Rmult_le_compat_r; lra). apply Rabs_le_inv in H. lra.
Qed.
Lemma rnd_rel_big x v k : 0 <= k <= 400 -> / 2 ^ 18 <= v -> Rabs (x - v) <= k * u * v -> Rabs (rnd x - v) <= (k + 101 / 100) * u * v.
Proof.
  intros K V H. pose proof u53_pos as UP. pose proof eta_smaller as ES. pose proof (rnd_err x) as R. pose proof u_val as UV. assert (V0 : 0 < v) by (apply Rlt_le_trans with (2 := V); apply Rinv_0_lt_compat, pow_lt; lra).
  assert (VL : / 262144 <= v) by (apply Rle_trans with (2 := V); apply Req_le; f_equal; ring).
  assert (KU : k * u * v <= 400 * u * v) by (apply Rmult_le_compat_r; [lra|]; apply Rmult_le_compat_r; lra).
  assert (A : Rabs x <= 1001 / 1000 * v). { replace x with ((x - v) + v) by ring. apply Rle_trans with (1 := Rabs_triang _ _). rewrite (Rabs_pos_eq v) by lra. assert (400 * u * v <= / 1000 * v) by (apply Rmult_le_compat_r; lra). lra. }
  assert (UA : u * Rabs x <= u * (1001 / 1000 * v)) by (apply Rmult_le_compat_l; lra).
  assert (E : eta <= 1 / 1000 * u * v). { apply Rle_trans with (1 := ES). assert (u * / 262144 <= u * v) by (apply Rmult_le_compat_l; lra). lra. }
  assert (0 <= u * v) by (apply Rmult_le_pos; lra). replace (rnd x - v) with ((rnd x - x) + (x - v)) by ring. apply Rle_trans with (1 := Rabs_triang _ _). lra.
Qed.
Lemma rel_div x v k y w l : rel x v k -> rel y w l -> 0 < v -> 0 < w -> 0 <= k <= 150 -> 0 <= l <= 150 -> / 2 ^ 18 <= v / w -> v / w <= bpow radix2 500 ->
  rel (fdiv x y) (v / w) (k + l + 11 / 10).
Proof.
  intros X Y V W K L LO HI. pose proof (rel_range _ _ _ Y ltac:(lra) W) as RY. pose proof (rel_range _ _ _ X ltac:(lra) V) as RX. pose proof u53_pos as UP. pose proof u_val as UV. destruct X as [FX X], Y as [FY Y].
  set (z := v / w) in *. assert (VZ : v = w * z) by (unfold z; field; lra). assert (Z0 : 0 < z) by (unfold z; apply Rdiv_lt_0_compat; lra).
  assert (D : Rabs (B2R x / B2R y - z) <= (k + l + 1 / 100) * u * z).
  { replace (B2R x / B2R y - z) with ((B2R x - v - (B2R y - w) * z) / B2R y) by (rewrite VZ; field; lra). unfold Rdiv. rewrite Rabs_mult, (Rabs_pos_eq (/ B2R y)) by (apply Rlt_le, Rinv_0_lt_compat; lra).
    apply (Rmult_le_reg_r (B2R y)); [lra|]. rewrite Rmult_assoc, Rinv_l by lra. rewrite Rmult_1_r.
    apply Rle_trans with ((k + l) * u * v).
    - replace (B2R x - v - (B2R y - w) * z) with ((B2R x - v) + - ((B2R y - w) * z)) by ring. apply Rle_trans with (1 := Rabs_triang _ _). rewrite Rabs_Ropp, Rabs_mult, (Rabs_pos_eq z) by lra.
      assert (Rabs (B2R y - w) * z <= l * u * w * z) by (apply Rmult_le_compat_r; lra). rewrite VZ in *. lra.
    - apply Rle_trans with ((k + l + 1 / 100) * u * z * (999999 / 1000000 * w)).
      + rewrite VZ. replace ((k + l) * u * (w * z)) with ((k + l) * (u * z * w)) by ring. replace ((k + l + 1 / 100) * u * z * (999999 / 1000000 * w)) with ((k + l + 1 / 100) * (999999 / 1000000) * (u * z * w)) by ring.
        apply Rmult_le_compat_r; [apply Rmult_le_pos; [apply Rmult_le_pos|]; lra|lra].
      + apply Rmult_le_compat_l; [|lra]. apply Rmult_le_pos; [apply Rmult_le_pos|]; lra. }
  assert (AZ : Rabs (B2R x / B2R y) <= bpow radix2 501).
  { replace (B2R x / B2R y) with ((B2R x / B2R y - z) + z) by ring. apply Rle_trans with (1 := Rabs_triang _ _). rewrite (Rabs_pos_eq z) by lra.
    assert ((k + l + 1 / 100) * u * z <= 1 * z). { apply Rmult_le_compat_r; [lra|]. apply Rle_trans with (301 * u); [apply Rmult_le_compat_r; lra|lra]. }
    replace (bpow radix2 501) with (2 * bpow radix2 500) by (change 2 with (bpow radix2 1); rewrite <- bpow_plus; reflexivity). lra. }
  destruct (fdiv_rnd x y 501 FX ltac:(lra) ltac:(lia) AZ) as [E F]. split; [exact F|]. rewrite E. eapply Rle_trans; [apply (rnd_rel_big _ z (k + l + 1 / 100)); [lra|exact LO|exact D]|]. assert (0 <= u * z) by (apply Rmult_le_pos; lra). lra.
Qed.
Lemma rel_mul x v k y w l : rel x v k -> rel y w l -> 0 < v -> 0 < w -> 0 <= k <= 150 -> 0 <= l <= 150 -> / 2 ^ 18 <= v * w -> v * w <= bpow radix2 500 ->
  rel (fmul x y) (v * w) (k + l + 11 / 10).
Proof.
  intros X Y V W K L LO HI. pose proof (rel_range _ _ _ Y ltac:(lra) W) as RY. pose proof (rel_range _ _ _ X ltac:(lra) V) as RX. pose proof u53_pos as UP. pose proof u_val as UV. destruct X as [FX X], Y as [FY Y].
  assert (Z0 : 0 < v * w) by (apply Rmult_lt_0_compat; lra). set (z := v * w) in *.
  assert (D : Rabs (B2R x * B2R y - z) <= (k + l + 1 / 100) * u * z).
  { replace (B2R x * B2R y - z) with ((B2R x - v) * B2R y + v * (B2R y - w)) by (unfold z; ring). apply Rle_trans with (1 := Rabs_triang _ _). rewrite !Rabs_mult, (Rabs_pos_eq v), (Rabs_pos_eq (B2R y)) by lra.
    assert (A : Rabs (B2R x - v) * B2R y <= k * u * v * (1000001 / 1000000 * w)) by (apply Rmult_le_compat; try lra; apply Rabs_pos).
    assert (B : v * Rabs (B2R y - w) <= v * (l * u * w)) by (apply Rmult_le_compat_l; lra).
    replace (k * u * v * (1000001 / 1000000 * w)) with (1000001 / 1000000 * k * (u * z)) in A by (unfold z; ring). replace (v * (l * u * w)) with (l * (u * z)) in B by (unfold z; ring).
    assert (UZ : 0 <= u * z) by (apply Rmult_le_pos; lra). assert (KZ : k * (u * z) <= 150 * (u * z)) by (apply Rmult_le_compat_r; lra). lra. }
  assert (AZ : Rabs (B2R x * B2R y) <= bpow radix2 501).
  { replace (B2R x * B2R y) with ((B2R x * B2R y - z) + z) by ring. apply Rle_trans with (1 := Rabs_triang _ _). rewrite (Rabs_pos_eq z) by lra.
    assert ((k + l + 1 / 100) * u * z <= 1 * z). { apply Rmult_le_compat_r; [lra|]. apply Rle_trans with (301 * u); [apply Rmult_le_compat_r; lra|lra]. }
    replace (bpow radix2 501) with (2 * bpow radix2 500) by (change 2 with (bpow radix2 1); rewrite <- bpow_plus; reflexivity). lra. }
  destruct (fmul_rnd x y 501 FX FY ltac:(lia) AZ) as [E F]. split; [exact F|]. rewrite E. eapply Rle_trans; [apply (rnd_rel_big _ z (k + l + 1 / 100)); [lra|exact LO|exact D]|]. assert (0 <= u * z) by (apply Rmult_le_pos; lra). lra.
Qed.
(** a vector componentwise *)
Lemma norm3_mono a b : Rabs (vx a) <= vx b -> Rabs (vy a) <= vy b -> Rabs (vz a) <= vz b -> norm3 a <= norm3 b.
Proof.
  intros X Y Z. unfold norm3. apply sqrt_le_1_alt. unfold dot3.
  assert (S : forall x y, Rabs x <= y -> x * x <= y * y). { intros x y H. apply (Rsqr_le_abs_1 x y). rewrite (Rabs_pos_eq y); [exact H|]. pose proof (Rabs_pos x). lra. }
  pose proof (S _ _ X). pose proof (S _ _ Y). pose proof (S _ _ Z). lra.
Qed.
Lemma dist3_rel x y d e : 0 <= d -> 0 <= e -> Rabs (vx x - vx y) <= d * Rabs (vx y) + e -> Rabs (vy x - vy y) <= d * Rabs (vy y) + e -> Rabs (vz x - vz y) <= d * Rabs (vz y) + e ->
  dist3 x y <= d * norm3 y + 2 * e.
Proof.
  intros D E X Y Z. unfold dist3. set (ab := V3 (Rabs (vx y)) (Rabs (vy y)) (Rabs (vz y))). set (ee := V3 e e e).
  apply Rle_trans with (norm3 (add3 (scale3 d ab) ee)); [apply norm3_mono; assumption|]. apply Rle_trans with (1 := norm3_triangle _ _).
  assert (NA : norm3 ab = norm3 y). { unfold norm3, dot3, ab. cbn [vx vy vz]. rewrite <- !Rabs_mult. f_equal. rewrite !Rabs_pos_eq; try ring; apply Rle_0_sqr. }
  rewrite norm3_scale_abs, NA, (Rabs_pos_eq d) by lra. apply Rplus_le_compat_l. apply norm3_le; [exact E| | |]; unfold ee; cbn [vx vy vz]; rewrite Rabs_pos_eq by lra; lra.
Qed.
Lemma axis_component a s (sg : R) k : is_finite a = true -> rel s sg k -> 0 < sg -> 0 <= k <= 150 -> Rabs (B2R a) * sg <= bpow radix2 500 ->
  is_finite (fmul a s) = true /\ Rabs (B2R (fmul a s) - B2R a * sg) <= (k + 11 / 10) * u * Rabs (B2R a * sg) + eta.
Proof.
  intros FA S S0 K B. pose proof (rel_range _ _ _ S ltac:(lra) S0) as RS. destruct S as [FS S]. pose proof u53_pos as UP. pose proof u_val as UV. pose proof (Rabs_pos (B2R a)) as A0.
  assert (AS : Rabs (B2R a * B2R s) <= 1000001 / 1000000 * (Rabs (B2R a) * sg)). { rewrite Rabs_mult, (Rabs_pos_eq (B2R s)) by lra. replace (1000001 / 1000000 * (Rabs (B2R a) * sg)) with (Rabs (B2R a) * (1000001 / 1000000 * sg)) by ring. apply Rmult_le_compat_l; lra. }
  assert (AZ : Rabs (B2R a * B2R s) <= bpow radix2 501).
  { replace (bpow radix2 501) with (2 * bpow radix2 500) by (change 2 with (bpow radix2 1); rewrite <- bpow_plus; reflexivity). pose proof (bpow_gt_0 radix2 500). lra. }
  destruct (fmul_rnd a s 501 FA FS ltac:(lia) AZ) as [E F]. split; [exact F|]. rewrite E. pose proof (rnd_err (B2R a * B2R s)) as R.
  rewrite Rabs_mult, (Rabs_pos_eq sg) by lra. replace (rnd (B2R a * B2R s) - B2R a * sg) with ((rnd (B2R a * B2R s) - B2R a * B2R s) + B2R a * (B2R s - sg)) by ring. apply Rle_trans with (1 := Rabs_triang _ _).
  rewrite (Rabs_mult (B2R a) (B2R s - sg)). assert (M : Rabs (B2R a) * Rabs (B2R s - sg) <= Rabs (B2R a) * (k * u * sg)) by (apply Rmult_le_compat_l; lra).
  assert (U : u * Rabs (B2R a * B2R s) <= u * (1000001 / 1000000 * (Rabs (B2R a) * sg))) by (apply Rmult_le_compat_l; lra).
  assert (P : 0 <= u * (Rabs (B2R a) * sg)) by (apply Rmult_le_pos; [lra|apply Rmult_le_pos; lra]). set (Z := Rabs (B2R a) * sg) in *. replace (Rabs (B2R a) * (k * u * sg)) with (k * u * Z) in M by (unfold Z; ring). lra.
Qed.

(** ** The quaternion as a turn *)
(** the vector v is the logarithm of the direction of q: the rotation vector, of length at most a full circle *)
Definition logarithm (v : vec3) (q : vec4) : Prop := rotation_quaternion v (normalize4 q) /\ norm3 v <= 2 * PI.
Lemma log_setup q v : finite4 q -> Rabs (norm4 (val4 q) - 1) <= 32 * u -> logarithm v (val4 q) ->
  exists e p, let m := norm4 (val4 q) in unit3 e /\ 0 <= p <= PI /\ v = scale3 (2 * p) e /\ norm3 v = 2 * p /\ val3 (fhead3 q) = scale3 (m * sin p) e /\ B2R (f3 q) = m * cos p /\ norm3 (val3 (fhead3 q)) = m * sin p.
Proof.
  intros FQ NQ [RQ NV]. destruct (rotation_quaternion_qv _ _ RQ) as (e & UE & EV & EQ). pose proof (norm3_pos v) as V0. pose proof u_val as UV. apply Rabs_le_inv in NQ.
  exists e, (norm3 v / 2). cbv zeta. set (m := norm4 (val4 q)) in *. replace (2 * (norm3 v / 2)) with (norm3 v) by field. assert (MP : 0 < m) by lra.
  assert (QV : val4 q = scale4 m (qv e (norm3 v / 2))).
  { rewrite <- EQ. unfold normalize4. fold m. destruct (Rlt_dec 0 m); [|lra]. destruct (val4 q) as [a b c d]. unfold scale4. cbn [e0 e1 e2 e3]. f_equal; field; lra. }
  assert (HD : val3 (fhead3 q) = scale3 (m * sin (norm3 v / 2)) e).
  { transitivity (head3 (val4 q)); [reflexivity|]. rewrite QV. unfold qv. destruct e. clear. vring. }
  assert (SP : 0 <= sin (norm3 v / 2)) by (apply sin_ge_0; lra).
  refine (conj UE (conj _ (conj EV (conj _ (conj HD (conj _ _)))))); [lra|field| |].
  - transitivity (e3 (val4 q)); [reflexivity|]. rewrite QV. unfold qv. reflexivity.
  - rewrite HD, norm3_scale_abs, Rabs_pos_eq by (apply Rmult_le_pos; lra). unfold norm3. unfold unit3 in UE. rewrite UE, sqrt_1. ring.
Qed.
Lemma sin_lower p : 0 <= p <= PI -> Rabs (cos p) <= 1001 / 1000 * sin p -> 7 / 10 <= sin p /\ Rabs (cos p) <= 72 / 100.
Proof.
  intros P H. pose proof (sc1 p) as S. pose proof (sin_ge_0 p (proj1 P) (proj2 P)) as S0. pose proof (Rabs_pos (cos p)) as C0.
  assert (CC : cos p * cos p = Rabs (cos p) * Rabs (cos p)) by (rewrite <- Rabs_mult, Rabs_pos_eq; [reflexivity|apply Rle_0_sqr]). rewrite CC in S. set (k := Rabs (cos p)) in *. set (s := sin p) in *. clearbody k s.
  assert (L : 7 / 10 <= s). { destruct (Rle_dec (7 / 10) s) as [|N]; [assumption|]. exfalso. assert (s * s <= 7 / 10 * (7 / 10)) by (apply Rmult_le_compat; lra). assert (k * k <= 701 / 1000 * (701 / 1000)) by (apply Rmult_le_compat; lra). lra. }
  split; [exact L|]. assert (7 / 10 * (7 / 10) <= s * s) by (apply Rmult_le_compat; lra). apply Rsq_le'; [lra|]. lra.
Qed.
Lemma cos_lower p : 0 <= p <= PI -> sin p <= 1001 / 1000 * Rabs (cos p) -> 7 / 10 <= Rabs (cos p) /\ sin p <= 72 / 100.
Proof.
  intros P H. pose proof (sc1 p) as S. pose proof (sin_ge_0 p (proj1 P) (proj2 P)) as S0. pose proof (Rabs_pos (cos p)) as C0.
  assert (CC : cos p * cos p = Rabs (cos p) * Rabs (cos p)) by (rewrite <- Rabs_mult, Rabs_pos_eq; [reflexivity|apply Rle_0_sqr]). rewrite CC in S. set (k := Rabs (cos p)) in *. set (s := sin p) in *. clearbody k s.
  assert (L : 7 / 10 <= k). { destruct (Rle_dec (7 / 10) k) as [|N]; [assumption|]. exfalso. assert (k * k <= 7 / 10 * (7 / 10)) by (apply Rmult_le_compat; lra). assert (s * s <= 701 / 1000 * (701 / 1000)) by (apply Rmult_le_compat; lra). lra. }
  split; [exact L|]. assert (7 / 10 * (7 / 10) <= k * k) by (apply Rmult_le_compat; lra). apply Rsq_le'; [lra|]. lra.
Qed.
(** an angle delivered by the library *)
Lemma lib_angle x y p k : is_finite x = true -> Rabs (B2R x - y) <= 2 * u * Rabs y + eta -> Rabs (y - p) <= k * u * p -> 0 <= k <= 60 -> / 10 ^ 4 <= p -> rel x p (k + 21 / 10).
Proof.
  intros F H Y K P. split; [exact F|]. pose proof u53_pos as UP. pose proof u_val as UV. pose proof eta_smaller as ES.
  assert (KU : k * u * p <= 60 * u * p) by (apply Rmult_le_compat_r; [lra|]; apply Rmult_le_compat_r; lra). assert (60 * u * p <= 1 / 1000 * p) by (apply Rmult_le_compat_r; lra).
  assert (A : Rabs y <= 1001 / 1000 * p). { replace y with ((y - p) + p) by ring. apply Rle_trans with (1 := Rabs_triang _ _). rewrite (Rabs_pos_eq p) by lra. lra. }
  assert (UA : 2 * u * Rabs y <= 2 * u * (1001 / 1000 * p)) by (apply Rmult_le_compat_l; lra). assert (UPP : u * / 10 ^ 4 <= u * p) by (apply Rmult_le_compat_l; lra).
  replace (B2R x - p) with ((B2R x - y) + (y - p)) by ring. apply Rle_trans with (1 := Rabs_triang _ _). lra.
Qed.
(** the three angles: from the scalar part, from the vector part, and from the vector part beyond a quarter turn *)
Lemma angle_by_acos L (et : f64) p m : lib2_ok L -> is_finite et = true -> 0 <= p <= PI -> Rabs (m - 1) <= 32 * u -> B2R et = m * cos p -> Rabs (cos p) <= 1001 / 1000 * sin p ->
  rel (m_acos L et) p 56.
Proof.
  intros (_ & _ & _ & AC & _) F P M E H. destruct (sin_lower p P H) as [SL CU]. pose proof u53_pos as UP. pose proof u_val as UV. pose proof (sin_lt_x p) as SX.
  assert (P7 : 7 / 10 <= p). { destruct (Req_dec p 0) as [Z|Z]; [rewrite Z, sin_0 in SL; lra|]. specialize (SX ltac:(lra)). lra. }
  assert (D1 : Rabs (B2R et - cos p) <= 32 * u * (72 / 100)). { rewrite E. replace (m * cos p - cos p) with ((m - 1) * cos p) by ring. rewrite Rabs_mult. apply Rmult_le_compat; auto using Rabs_pos. }
  pose proof (Rabs_le_inv _ _ D1) as DD. apply Rabs_le_inv in CU. set (y := acos (B2R et)). assert (BE : -1 <= B2R et <= 1) by lra.
  destruct (proj1 (AC et F) BE) as [FA EA]. fold y in EA. pose proof (acos_bound (B2R et)) as YB. fold y in YB. assert (CY : cos y = B2R et) by (apply cos_acos; exact BE).
  assert (SY : 68 / 100 <= sin y). { pose proof (sc1 y) as S. rewrite CY in S. pose proof (sin_ge_0 y ltac:(lra) ltac:(lra)) as S0. apply Rsq_le'; [exact S0|]. assert (B2R et * B2R et <= 73 / 100 * (73 / 100)) by (apply Rsqr_le_abs_1 with (x := B2R et); rewrite (Rabs_pos_eq (73 / 100)) by lra; apply Rabs_le; lra). lra. }
  pose proof (cos_close y p (68 / 100) ltac:(lra) P SY ltac:(lra)) as CC. rewrite CY in CC.
  eapply rel_weaken; [apply (lib_angle _ y p 49 FA EA); [|lra|lra]|lra|lra]. assert (U7 : u * (7 / 10) <= u * p) by (apply Rmult_le_compat_l; lra). lra.
Qed.
Lemma asin_near na p m : 0 <= p <= PI -> Rabs (m - 1) <= 32 * u -> Rabs (na - m * sin p) <= 42 / 10 * u * (m * sin p) -> 0 <= na -> sin p <= 1001 / 1000 * Rabs (cos p) ->
  0 <= na <= 73 / 100 /\ forall p', Rabs p' <= PI / 2 -> sin p' = sin p -> cos p' = Rabs (cos p) -> Rabs (asin na - p') <= 535 / 10 * u * sin p.
Proof.
  intros P M N N0 H. destruct (cos_lower p P H) as [CL SU]. pose proof u53_pos as UP. pose proof u_val as UV. pose proof (sin_ge_0 p (proj1 P) (proj2 P)) as S0. pose proof (Rabs_le_inv _ _ M) as MI.
  assert (MS : m * sin p <= 1001 / 1000 * sin p) by (apply Rmult_le_compat_r; lra). assert (US : 0 <= u * sin p) by (apply Rmult_le_pos; lra).
  assert (D : Rabs (na - sin p) <= 363 / 10 * u * sin p).
  { replace (na - sin p) with ((na - m * sin p) + (m - 1) * sin p) by ring. apply Rle_trans with (1 := Rabs_triang _ _). rewrite Rabs_mult, (Rabs_pos_eq (sin p)) by lra.
    assert (Rabs (m - 1) * sin p <= 32 * u * sin p) by (apply Rmult_le_compat_r; lra). assert (42 / 10 * u * (m * sin p) <= 42 / 10 * u * (1001 / 1000 * sin p)) by (apply Rmult_le_compat_l; lra). lra. }
  pose proof (Rabs_le_inv _ _ D) as DD. assert (DS : 363 / 10 * u * sin p <= 1 / 1000 * sin p) by (apply Rmult_le_compat_r; lra).
  split; [lra|]. intros p' P' SP CP. pose proof (asin_bound na) as YB. assert (SY : sin (asin na) = na) by (apply sin_asin; lra). set (y := asin na) in *.
  assert (CY : 68 / 100 <= cos y). { pose proof (sc1 y) as S. rewrite SY in S. pose proof (cos_ge_0 y ltac:(lra) ltac:(lra)) as C0. apply Rsq_le'; [exact C0|]. assert (na * na <= 73 / 100 * (73 / 100)) by (apply Rmult_le_compat; lra). lra. }
  pose proof (sin_close y p' (68 / 100) ltac:(apply Rabs_le; lra) P' CY ltac:(lra)) as CC. rewrite SY, SP in CC. lra.
Qed.
Lemma angle_by_asin L (na : f64) p m : lib2_ok L -> is_finite na = true -> 0 <= p <= PI -> Rabs (m - 1) <= 32 * u -> Rabs (B2R na - m * sin p) <= 42 / 10 * u * (m * sin p) -> / 9000 <= B2R na ->
  sin p <= 1001 / 1000 * cos p -> rel (m_asin L na) p 56.
Proof.
  intros (_ & _ & AS & _) F P M N N0 H. pose proof (sin_ge_0 p (proj1 P) (proj2 P)) as S0. assert (CA : Rabs (cos p) = cos p) by (apply Rabs_pos_eq; lra). pose proof PI_RGT_0 as PP.
  destruct (asin_near (B2R na) p m P M N ltac:(lra) ltac:(rewrite CA; exact H)) as [NB NA].
  assert (PQ : p <= PI / 2). { destruct (Rle_dec p (PI / 2)) as [|G]; [assumption|]. exfalso. assert (cos p < 0) by (apply cos_lt_0; lra). lra. }
  specialize (NA p ltac:(rewrite Rabs_pos_eq; lra) eq_refl ltac:(now rewrite CA)). destruct (proj1 (AS na F) ltac:(lra)) as [FA EA].
  pose proof u53_pos as UP. pose proof u_val as UV. apply Rabs_le_inv in M. assert (MS : m * sin p <= 1001 / 1000 * sin p) by (apply Rmult_le_compat_r; lra).
  assert (MN : 42 / 10 * u * (m * sin p) <= 1 / 1000 * sin p). { apply Rle_trans with (42 / 10 * u * (1001 / 1000 * sin p)); [apply Rmult_le_compat_l; lra|]. replace (42 / 10 * u * (1001 / 1000 * sin p)) with (42 / 10 * u * (1001 / 1000) * sin p) by ring. apply Rmult_le_compat_r; lra. }
  apply Rabs_le_inv in N. assert (SN : / 9500 <= sin p) by lra. assert (P0 : 0 < p). { destruct (Req_dec p 0) as [Z|Z]; [rewrite Z, sin_0 in SN; lra|lra]. } pose proof (sin_lt_x p P0) as SX.
  eapply rel_weaken; [apply (lib_angle _ (asin (B2R na)) p (535 / 10) FA EA); [|lra|lra]|lra|lra]. apply Rle_trans with (1 := NA). apply Rmult_le_compat_l; lra.
Qed.
Lemma pi_val : is_finite fM_PI = true /\ B2R fM_PI = dPI. Proof. split; [reflexivity|]. unfold dPI. vm_compute. lra. Qed.
Lemma angle_beyond L (na : f64) p m : lib2_ok L -> is_finite na = true -> 0 <= p <= PI -> Rabs (m - 1) <= 32 * u -> Rabs (B2R na - m * sin p) <= 42 / 10 * u * (m * sin p) -> 0 <= B2R na ->
  sin p <= 1001 / 1000 * - cos p -> rel (fsub fM_PI (m_asin L na)) p 56.
Proof.
  intros (_ & _ & AS & _) F P M N N0 H. pose proof (sin_ge_0 p (proj1 P) (proj2 P)) as S0. assert (CA : Rabs (cos p) = - cos p) by (rewrite <- Rabs_Ropp; apply Rabs_pos_eq; lra). pose proof PI_decimal as PD.
  destruct (asin_near (B2R na) p m P M N N0 ltac:(rewrite CA; exact H)) as [NB NA]. destruct (cos_lower p P ltac:(rewrite CA; exact H)) as [CL SU].
  assert (PQ : PI / 2 <= p). { destruct (Rle_dec (PI / 2) p) as [|G]; [assumption|]. exfalso. assert (0 < cos p) by (apply cos_gt_0; lra). lra. }
  specialize (NA (PI - p) ltac:(rewrite Rabs_pos_eq; lra) ltac:(apply sin_PI_x) ltac:(rewrite CA; unfold Rminus; rewrite Rplus_comm, neg_cos, cos_neg; reflexivity)). destruct (proj1 (AS na F) ltac:(lra)) as [FA EA].
  pose proof u53_pos as UP. pose proof u_val as UV. pose proof eta_smaller as ES. pose proof dPI_below as DB. destruct pi_val as [FP VP].
  set (y := asin (B2R na)) in *. set (a := m_asin L na) in *. assert (US : u * sin p <= u * (72 / 100)) by (apply Rmult_le_compat_l; lra).
  assert (YB : Rabs y <= 16 / 10). { pose proof (asin_bound (B2R na)) as AB. fold y in AB. apply Rabs_le. lra. }
  assert (UY : 2 * u * Rabs y <= 2 * u * (16 / 10)) by (apply Rmult_le_compat_l; lra). 
  assert (D : Rabs (B2R fM_PI - B2R a - p) <= 52 * u).
  { rewrite VP. replace (dPI - B2R a - p) with ((dPI - PI) + - (B2R a - y) + - (y - (PI - p))) by ring. apply Rle_trans with (1 := Rabs_triang _ _). rewrite Rabs_Ropp. pose proof (Rabs_triang (dPI - PI) (- (B2R a - y))) as T. rewrite Rabs_Ropp in T.
    assert (Rabs (dPI - PI) <= 10 * u) by (apply Rabs_le; lra). lra. }
  assert (BD : Rabs (B2R fM_PI - B2R a) <= 4). { replace (B2R fM_PI - B2R a) with ((B2R fM_PI - B2R a - p) + p) by ring. apply Rle_trans with (1 := Rabs_triang _ _). rewrite (Rabs_pos_eq p) by lra. lra. }
  destruct (fsub_rnd fM_PI a 2 FP FA ltac:(lia)) as [ER FR]. { change (bpow radix2 2) with 4. exact BD. }
  split; [exact FR|]. rewrite ER. pose proof (rnd_err (B2R fM_PI - B2R a)) as R. assert (u * Rabs (B2R fM_PI - B2R a) <= u * 4) by (apply Rmult_le_compat_l; lra).
  replace (rnd (B2R fM_PI - B2R a) - p) with ((rnd (B2R fM_PI - B2R a) - (B2R fM_PI - B2R a)) + (B2R fM_PI - B2R a - p)) by ring. apply Rle_trans with (1 := Rabs_triang _ _).
  assert (UPP : u * (15 / 10) <= u * p) by (apply Rmult_le_compat_l; lra). lra.
Qed.

(** ** The logarithm *)
Lemma double_exact (a : f64) : is_finite a = true -> Rabs (B2R a) <= bpow radix2 500 -> is_finite (fmul a ftwo) = true /\ B2R (fmul a ftwo) = B2R a * 2.
Proof.
  intros F B. destruct (fofZ_correct 2 ltac:(lia)) as [V2 F2].
  destruct (fmul_rnd a ftwo 501 F F2 ltac:(lia)) as [E FE].
  { unfold ftwo. rewrite V2. rewrite Rabs_mult, (Rabs_pos_eq 2) by lra. replace (bpow radix2 501) with (2 * bpow radix2 500) by (change 2 with (bpow radix2 1); rewrite <- bpow_plus; reflexivity). lra. }
  split; [exact FE|]. rewrite E. unfold ftwo. rewrite V2. apply round_generic; [apply valid_rnd_N|].
  change 2 with (bpow radix2 1). apply (Mult_error.mult_bpow_pos_exact_FLT radix2 (3 - 1024 - 53) 53); [|lia]. apply (generic_format_B2R 53 1024 a).
Qed.
Definition log_error (n : R) : R := if Rlt_dec n (/ 4090) then n * n * n / 24 else 0.
Lemma log_error_pos n : 0 <= n -> 0 <= log_error n.
Proof. intros N0. unfold log_error. destruct (Rlt_dec n (/ 4090)); [|lra]. assert (0 <= n * n * n) by (repeat apply Rmult_le_pos; lra). lra. Qed.
(** from an angle to the vector *)
Lemma assemble L q e p m A (na : f64) k : unit3 e -> finite4 q -> 0 < p <= PI -> 0 < m <= 2 -> 0 < sin p -> tiny400 <= m * sin p -> val3 (fhead3 q) = scale3 (m * sin p) e -> 
  rel A p k -> 0 <= k <= 56 -> na = fnorm3 (base L) (fhead3 q) -> rel na (m * sin p) (42 / 10) -> / 10000 <= p ->
  let s := fmul ftwo (fdiv A na) in let w := mkF3 (fmul (f0 q) s) (fmul (f1 q) s) (fmul (f2 q) s) in
  finite3 w /\ dist3 (val3 w) (scale3 (2 * p) e) <= 64 * u * (2 * p).
Proof.
  intros UE FQ P M SP TN HD RA K EN RN PB s w. pose proof u53_pos as UP. pose proof u_val as UV. pose proof eta_smaller as ES. pose proof PI_decimal as PD. pose proof (sin_lt_x p ltac:(lra)) as SX. pose proof (SIN_bound p) as SB.
  set (d := m * sin p) in *. assert (D0 : 0 < d) by (unfold d; apply Rmult_lt_0_compat; lra). assert (D2 : d <= 2 * p). { unfold d. apply Rmult_le_compat; lra. }
  assert (D3 : d <= 2) by (unfold d; replace 2 with (2 * 1) by ring; apply Rmult_le_compat; lra).
  assert (LO : / 2 <= p / d). { apply (Rmult_le_reg_r d); [exact D0|]. unfold Rdiv. rewrite Rmult_assoc, Rinv_l by lra. lra. }
  assert (HI : p / d <= bpow radix2 402).
  { apply (Rmult_le_reg_r d); [exact D0|]. unfold Rdiv. rewrite Rmult_assoc, Rinv_l by lra. apply Rle_trans with (bpow radix2 402 * tiny400).
    - unfold tiny400. rewrite <- bpow_plus. change (bpow radix2 (402 + -400)) with 4. lra.
    - apply Rmult_le_compat_l; [apply bpow_ge_0|exact TN]. }
  assert (P18 : / 2 ^ 18 <= / 2) by (apply Rinv_le_contravar; [lra|]; cbn; lra).
  pose proof (rel_div _ _ _ _ _ _ RA RN ltac:(lra) D0 ltac:(lra) ltac:(lra) ltac:(lra) ltac:(apply Rle_trans with (1 := HI); apply bpow_le; lia)) as R1.
  assert (R2 : rel ftwo 2 0). { destruct (fofZ_correct 2 ltac:(lia)) as [V2 F2]. split; [exact F2|]. unfold ftwo. rewrite V2. rewrite Rminus_diag_eq by reflexivity. rewrite Rabs_R0. lra. }
  assert (HI2 : 2 * (p / d) <= bpow radix2 403). { change (bpow radix2 403) with (bpow radix2 (1 + 402)). rewrite bpow_plus. change (bpow radix2 1) with 2. lra. }
  pose proof (rel_mul _ _ _ _ _ _ R2 R1 ltac:(lra) ltac:(lra) ltac:(lra) ltac:(lra) ltac:(lra) ltac:(apply Rle_trans with (1 := HI2); apply bpow_le; lia)) as R3. fold s in R3.
  set (sg := 2 * (p / d)) in *. assert (SG : d * sg = 2 * p) by (unfold sg; field; lra).
  assert (C : forall a c, is_finite a = true -> B2R a = d * c -> Rabs c <= 1 -> is_finite (fmul a s) = true /\ Rabs (B2R (fmul a s) - 2 * p * c) <= (635 / 10) * u * Rabs (2 * p * c) + eta).
  { intros a c FA VA C1. assert (AS : B2R a * sg = 2 * p * c) by (rewrite VA, <- SG; ring).
    destruct (axis_component a s sg _ FA R3 ltac:(unfold sg; lra) ltac:(lra)) as [F E].
    { rewrite <- (Rabs_pos_eq sg) by (unfold sg; lra). rewrite <- Rabs_mult, AS, Rabs_mult, (Rabs_pos_eq (2 * p)) by lra. apply Rle_trans with (2 * p * 1); [apply Rmult_le_compat_l; lra|]. apply Rle_trans with (bpow radix2 3); [change (bpow radix2 3) with 8; lra|apply bpow_le; lia]. }
    split; [exact F|]. rewrite AS in E. apply Rle_trans with (1 := E). apply Rplus_le_compat_r, Rmult_le_compat_r; [apply Rabs_pos|]. apply Rmult_le_compat_r; lra. }
  assert (UC : Rabs (vx e) <= 1 /\ Rabs (vy e) <= 1 /\ Rabs (vz e) <= 1). { pose proof (comp3 e) as (A1 & A2 & A3). unfold norm3 in *. unfold unit3 in UE. rewrite UE, sqrt_1 in *. auto. }
  destruct FQ as (G0 & G1 & G2 & G3). destruct UC as (U1 & U2 & U3).
  destruct (C (f0 q) (vx e) G0) as [F0 E0]; [change (B2R (f0 q)) with (vx (val3 (fhead3 q))); rewrite HD; reflexivity|exact U1|].
  destruct (C (f1 q) (vy e) G1) as [F1 E1]; [change (B2R (f1 q)) with (vy (val3 (fhead3 q))); rewrite HD; reflexivity|exact U2|].
  destruct (C (f2 q) (vz e) G2) as [F2 E2]; [change (B2R (f2 q)) with (vz (val3 (fhead3 q))); rewrite HD; reflexivity|exact U3|].
  split; [exact (conj F0 (conj F1 F2))|].
  assert (NE : norm3 (scale3 (2 * p) e) = 2 * p). { rewrite norm3_scale_abs, Rabs_pos_eq by lra. unfold norm3. unfold unit3 in UE. rewrite UE, sqrt_1. ring. }
  eapply Rle_trans; [apply (dist3_rel _ _ (635 / 10 * u) eta); [lra|pose proof eta_pos; lra|exact E0|exact E1|exact E2]|]. rewrite NE.
  assert (u * / 10000 <= u * p) by (apply Rmult_le_compat_l; lra). lra.
Qed.
(** the scale 1 of the small angle: twice the vector part, exactly *)
Lemma short_log L (na : f64) (q : F4) : is_finite na = true -> 0 <= B2R na <= 1 -> fltb (fabs na) feps4 = true -> finite4 q -> norm3 (val3 (fhead3 q)) <= 2 ->
  let s := fmul ftwo (farcSinXOverX L na) in let w := mkF3 (fmul (f0 q) s) (fmul (f1 q) s) (fmul (f2 q) s) in
  finite3 w /\ val3 w = scale3 2 (val3 (fhead3 q)).
Proof.
  intros FN NB SM FQ HB s w. destruct fone_val as [F1 V1]. destruct (fofZ_correct 2 ltac:(lia)) as [V2 F2].
  destruct (fmul_rnd na na 0 FN FN ltac:(lia)) as [_ FS]. { change (bpow radix2 0) with 1. rewrite Rabs_pos_eq by (apply Rmult_le_pos; lra). replace 1 with (1 * 1) by ring. apply Rmult_le_compat; lra. }
  assert (FZ : is_finite fzero = true) by reflexivity. assert (VZ : B2R fzero = 0) by reflexivity.
  destruct (fmul_rnd (fmul na na) fzero 0 FS FZ ltac:(lia)) as [E0 FF0]. { rewrite VZ, Rmult_0_r, Rabs_R0. apply bpow_ge_0. }
  rewrite VZ, Rmult_0_r, round_0 in E0 by apply valid_rnd_N.
  destruct (fadd_rnd fone (fmul (fmul na na) fzero) 0 F1 FF0 ltac:(lia)) as [E1 FF1]. { rewrite E0, V1, Rplus_0_r, Rabs_R1. apply Rle_refl. }
  assert (AE : farcSinXOverX L na = fadd fone (fmul (fmul na na) fzero)) by (unfold farcSinXOverX; now rewrite SM).
  set (c := fadd fone (fmul (fmul na na) fzero)) in *.
  assert (VC : B2R c = 1). { rewrite E1, E0, V1, Rplus_0_r. replace 1 with (B2R fone) by exact V1. apply round_generic; [apply valid_rnd_N|apply (generic_format_B2R 53 1024)]. }
  destruct (fmul_rnd ftwo c 1 F2 FF1 ltac:(lia)) as [ES FS2]. { unfold ftwo. rewrite VC, V2. change (bpow radix2 1) with 2. rewrite Rmult_1_r, Rabs_pos_eq; lra. }
  assert (VS : B2R s = 2). { unfold s. rewrite AE, ES, VC, Rmult_1_r. unfold ftwo. rewrite V2. replace 2 with (B2R (fofZ 2)) at 2 by exact V2. rewrite V2. replace 2 with (B2R (fofZ 2)) by exact V2. apply round_generic; [apply valid_rnd_N|apply (generic_format_B2R 53 1024)]. }
  assert (FFS : is_finite s = true) by (unfold s; rewrite AE; exact FS2).
  assert (C : forall a, is_finite a = true -> Rabs (B2R a) <= 2 -> is_finite (fmul a s) = true /\ B2R (fmul a s) = 2 * B2R a).
  { intros a FA HA. destruct (fmul_rnd a s 500 FA FFS ltac:(lia)) as [EA FFA].
    { rewrite VS, Rabs_mult, (Rabs_pos_eq 2) by lra. apply Rle_trans with (bpow radix2 2); [change (bpow radix2 2) with 4; lra|apply bpow_le; lia]. }
    split; [exact FFA|]. rewrite EA, VS. rewrite Rmult_comm. rewrite (Rmult_comm 2). apply round_generic; [apply valid_rnd_N|].
    change 2 with (bpow radix2 1). apply (Mult_error.mult_bpow_pos_exact_FLT radix2 (3 - 1024 - 53) 53); [|lia]. apply (generic_format_B2R 53 1024 a). }
  destruct FQ as (G0 & G1 & G2 & G3). destruct (comp3 (val3 (fhead3 q))) as (X & Y & Z).
  destruct (C (f0 q) G0 ltac:(eapply Rle_trans; [exact X|exact HB])) as [A0 B0]. destruct (C (f1 q) G1 ltac:(eapply Rle_trans; [exact Y|exact HB])) as [A1 B1]. destruct (C (f2 q) G2 ltac:(eapply Rle_trans; [exact Z|exact HB])) as [A2 B2].
  split; [exact (conj A0 (conj A1 A2))|]. unfold val3, w, scale3, fhead3. cbn [fx fy fz vx vy vz]. now rewrite B0, B1, B2.
Qed.
Lemma finite_fabs (x : f64) : is_finite (fabs x) = is_finite x. Proof. apply is_finite_Babs. Qed.
Lemma fabs_B2R (x : f64) : B2R (fabs x) = Rabs (B2R x). Proof. apply B2R_Babs. Qed.
Theorem float_log L q v : lib2_ok L -> finite4 q -> Rabs (norm4 (val4 q) - 1) <= 32 * u -> (0 < B2R (f3 q) \/ bpow radix2 (-400) <= norm3 (head3 (val4 q))) -> logarithm v (val4 q) ->
  finite3 (fqlog L q) /\ dist3 (val3 (fqlog L q)) v <= 64 * u * norm3 v + log_error (norm3 v).
Proof.
  intros OK FQ NQ DIR LG. destruct (log_setup q v FQ NQ LG) as (e & p & UE & P & EV & NV & HD & EE & NH). change (norm3 (head3 (val4 q))) with (norm3 (val3 (fhead3 q))) in DIR. fold tiny400 in DIR.
  set (m := norm4 (val4 q)) in *. clearbody m. rewrite NV. rewrite EV. pose proof u53_pos as UP. pose proof u_val as UV. pose proof PI_decimal as PD. pose proof (Rabs_le_inv _ _ NQ) as MI.
  assert (M12 : 0 < m <= 2) by lra. pose proof (sin_ge_0 p (proj1 P) (proj2 P)) as S0. pose proof (sc1 p) as SC. pose proof (log_error_pos (2 * p) ltac:(lra)) as LE0.
  assert (T0 : 0 < tiny400) by apply bpow_gt_0. assert (T300 : bpow radix2 (-300) <= / 2 ^ 20) by (replace (/ 2 ^ 20) with (bpow radix2 (-20)) by (cbn; lra); apply bpow_le; lia). assert (V20 : / 2 ^ 20 = / 1048576) by (f_equal; ring). rewrite V20 in T300.
  assert (FH : finite3 (fhead3 q)) by (destruct FQ as (A & B & C & D); repeat split; assumption). assert (FE : is_finite (f3 q) = true) by apply FQ.
  assert (S1 : sin p <= 1) by apply SIN_bound. assert (MS : m * sin p <= 2) by (replace 2 with (2 * 1) by ring; apply Rmult_le_compat; lra).
  destruct (fnorm3_err (base L) (fhead3 q) (proj1 OK) FH ltac:(rewrite NH; apply Rle_trans with (bpow radix2 1); [exact MS|apply bpow_le; lia])) as (FN & N0 & NB & NS). rewrite NH in NB, NS.
  change (fqlog L q) with (let a := fhead3 q in let na := fnorm3 (base L) a in let eta := f3 q in
    let scale := if fltb (fabs eta) na then fdiv (m_acos L eta) na else if fltb fzero eta then farcSinXOverX L na else fdiv (fsub fM_PI (m_asin L na)) na in
    let s := fmul ftwo scale in mkF3 (fmul (f0 q) s) (fmul (f1 q) s) (fmul (f2 q) s)). cbv zeta.
  set (na := fnorm3 (base L) (fhead3 q)) in *. assert (EN : na = fnorm3 (base L) (fhead3 q)) by reflexivity. clearbody na. set (d := m * sin p) in *.
  assert (D0 : 0 <= d) by (unfold d; apply Rmult_le_pos; lra). assert (S_of_d : d <= 1001 / 1000 * sin p /\ sin p <= 1001 / 1000 * d) by (unfold d; split; [apply Rmult_le_compat_r; lra|]; assert (9999 / 10000 * sin p <= m * sin p) by (apply Rmult_le_compat_r; lra); lra).
  assert (REL : tiny400 <= d -> rel na d (42 / 10)) by (intros H; split; [exact FN|exact (NB H)]).
  assert (DN : tiny400 <= d -> 999999 / 1000000 * d <= B2R na <= 1000001 / 1000000 * d) by (intros H; exact (rel_range _ _ _ (REL H) ltac:(lra) ltac:(lra))).
  assert (AE : Rabs (B2R (f3 q)) = m * Rabs (cos p)) by (rewrite EE, Rabs_mult, (Rabs_pos_eq m) by lra; reflexivity).
  assert (AC : 999 / 1000 * Rabs (cos p) <= Rabs (B2R (f3 q)) <= 1001 / 1000 * Rabs (cos p)) by (rewrite AE; pose proof (Rabs_pos (cos p)); split; apply Rmult_le_compat_r; lra).
  destruct (fltb (fabs (f3 q)) na) eqn:B1; apply fltb_val in B1; rewrite ?finite_fabs, ?fabs_B2R in *; auto.
  - assert (TD : tiny400 <= d).
    { destruct (Rle_dec tiny400 d) as [|N]; [assumption|]. exfalso. apply Rnot_le_lt in N. pose proof (NS N) as NT.
      assert (T4 : tiny400 <= bpow radix2 (-300)) by (apply bpow_le; lia). pose proof (Rabs_pos (cos p)) as C0.
      assert (CC : cos p * cos p = Rabs (cos p) * Rabs (cos p)) by (rewrite <- Rabs_mult, Rabs_pos_eq; [reflexivity|apply Rle_0_sqr]). rewrite CC in SC.
      assert (Rabs (cos p) * Rabs (cos p) <= 1 / 10 * (1 / 10)) by (apply Rmult_le_compat; lra). assert (sin p * sin p <= 1 / 10 * (1 / 10)) by (apply Rmult_le_compat; lra). lra. }
    specialize (DN TD). assert (CS : Rabs (cos p) <= 1001 / 1000 * sin p).
    { assert (H : m * Rabs (cos p) <= 1000001 / 1000000 * (m * sin p)) by (fold d; lra). replace (1000001 / 1000000 * (m * sin p)) with (m * (1000001 / 1000000 * sin p)) in H by ring. apply Rmult_le_reg_l in H; lra. }
    destruct (sin_lower p P CS) as [SL CU]. assert (P7 : / 10000 <= p). { pose proof (sin_abs p) as SA. rewrite !Rabs_pos_eq in SA by lra. lra. }
    destruct (assemble L q e p m (m_acos L (f3 q)) na 56 UE FQ ltac:(lra) M12 ltac:(lra) TD HD (angle_by_acos L (f3 q) p m OK FE P NQ EE CS) ltac:(lra) EN (REL TD) P7) as [FW DW].
    split; [exact FW|]. lra.
  - destruct (fltb fzero (f3 q)) eqn:B2; apply fltb_val in B2; auto; change (B2R fzero) with 0 in B2.
    + assert (CP : 0 < cos p). { rewrite EE in B2. apply (Rmult_lt_reg_l m); lra. } rewrite (Rabs_pos_eq (cos p)) in AC, AE by lra. rewrite AE in B1.
      assert (PQ : p <= PI / 2). { destruct (Rle_dec p (PI / 2)) as [|G]; [assumption|]. exfalso. assert (cos p < 0) by (apply cos_lt_0; lra). lra. }
      assert (SPB : B2R na < 1 / 4 -> p <= 1001 / 1000 * sin p /\ p <= 1 \/ 1 / 100 <= sin p).
      { intros _. destruct (Rle_dec (1 / 100) (sin p)) as [|G]; [now right|]. left. assert (p <= 1).
        { destruct (Rle_dec p 1) as [|G2]; [assumption|]. exfalso. assert (sin 1 <= sin p) by (apply sin_incr_1; lra). destruct (sin_cubic 1) as (Q & _); [lra|]. lra. }
        split; [|assumption]. assert (P1 : 0 <= p <= 1) by lra. destruct (sin_cubic p P1) as (Q & _).
        assert (PP : p * p <= p) by (rewrite <- (Rmult_1_r p) at 3; apply Rmult_le_compat_l; lra). assert (P3 : p * p * p <= p * 1) by (rewrite Rmult_assoc; apply Rmult_le_compat_l; lra).
        assert (P2 : p <= 2 / 100) by lra. assert (Q2 : p * p <= 2 / 100 * (2 / 100)) by (apply Rmult_le_compat; lra). assert (p * p * p <= 4 / 10000 * p) by (apply Rmult_le_compat_r; lra). lra. }
      destruct eps4_val as [V8 F8].
      destruct (fltb (fabs na) feps4) eqn:B3.
      * pose proof B3 as B3'. apply fltb_val in B3; rewrite ?finite_fabs, ?fabs_B2R, ?V8 in *; auto. rewrite Rabs_pos_eq in B3 by exact N0.
        assert (FW0 : forall s, finite3 (mkF3 (fmul (f0 q) s) (fmul (f1 q) s) (fmul (f2 q) s)) -> True) by auto.
        destruct (short_log L na q FN ltac:(lra) B3' FQ ltac:(rewrite NH; exact MS)) as [FW VW]. split; [exact FW|]. rewrite VW, HD, scale3_scale.
        assert (DD : d <= 1 / 8000). { destruct (Rle_dec tiny400 d) as [TD|TD]; [specialize (DN TD); lra|]. apply Rnot_le_lt in TD. assert (tiny400 <= bpow radix2 (-300)) by (apply bpow_le; lia). lra. }
        destruct (SPB ltac:(lra)) as [[PS P1] | G]; [|exfalso; lra].
        assert (PS2 : 2 * p < / 4090).
        { destruct (Rle_dec tiny400 d) as [TD|TD].
          - specialize (DN TD). assert (999 / 1000 * p <= sin p) by lra. assert (9999999 / 10000000 * sin p <= d) by (unfold d; apply Rmult_le_compat_r; lra).
            assert (P2 : p <= 2 / 1000) by lra. assert (P1' : 0 <= p <= 1) by lra. destruct (sin_cubic p P1') as (Q & _). assert (Q2 : p * p <= 2 / 1000 * (2 / 1000)) by (apply Rmult_le_compat; lra). assert (p * p * p <= 4 / 1000000 * p) by (apply Rmult_le_compat_r; lra). lra.
          - apply Rnot_le_lt in TD. assert (tiny400 <= bpow radix2 (-300)) by (apply bpow_le; lia). lra. }
        unfold log_error. destruct (Rlt_dec (2 * p) (/ 4090)); [|contradiction].
        replace (dist3 (scale3 (2 * d) e) (scale3 (2 * p) e)) with (norm3 (scale3 (2 * (d - p)) e)) by (unfold dist3; f_equal; vring).
        rewrite norm3_scale_abs. replace (norm3 e) with 1 by (unfold norm3; unfold unit3 in UE; rewrite UE, sqrt_1; reflexivity). rewrite Rmult_1_r, Rabs_mult, (Rabs_pos_eq 2) by lra.
        assert (P1' : 0 <= p <= 1) by lra. destruct (sin_cubic p P1') as (Q & Q').
        assert (DP : Rabs (d - p) <= 32 * u * p + p * p * p / 6).
        { replace (d - p) with ((m - 1) * sin p + - (p - sin p)) by (unfold d; ring). apply Rle_trans with (1 := Rabs_triang _ _). rewrite Rabs_Ropp, Rabs_mult, (Rabs_pos_eq (sin p)), (Rabs_pos_eq (p - sin p)) by lra.
          assert (Rabs (m - 1) * sin p <= 32 * u * p) by (apply Rmult_le_compat; auto using Rabs_pos). lra. }
        assert (0 <= u * p) by (apply Rmult_le_pos; lra). lra.
      * pose proof B3 as B3'. apply fltb_val in B3; rewrite ?finite_fabs, ?fabs_B2R, ?V8 in *; auto. rewrite Rabs_pos_eq in B3 by exact N0.
        assert (TD : tiny400 <= d). { destruct (Rle_dec tiny400 d) as [|N]; [assumption|]. exfalso. apply Rnot_le_lt in N. pose proof (NS N). lra. } specialize (DN TD).
        assert (CS : sin p <= 1001 / 1000 * cos p). { assert (H : 999999 / 1000000 * (m * sin p) <= m * cos p) by (fold d; lra). replace (999999 / 1000000 * (m * sin p)) with (m * (999999 / 1000000 * sin p)) in H by ring. apply Rmult_le_reg_l in H; lra. }
        unfold farcSinXOverX. rewrite B3'. assert (P0 : 0 < p). { destruct (Req_dec p 0) as [Z|Z]; [rewrite Z, sin_0 in *; lra|lra]. } pose proof (sin_lt_x p P0) as SX.
        destruct (assemble L q e p m (m_asin L na) na 56 UE FQ ltac:(lra) M12 ltac:(lra) TD HD (angle_by_asin L na p m OK FN P NQ (NB TD) ltac:(lra) CS) ltac:(lra) EN (REL TD) ltac:(lra)) as [FW DW].
        split; [exact FW|]. lra.
    + destruct DIR as [D1|TD]; [exfalso; lra|]. rewrite NH in TD. specialize (DN TD).
      assert (CN : cos p <= 0). { rewrite EE in B2. destruct (Rle_dec (cos p) 0) as [|G]; [assumption|]. exfalso. assert (0 < m * cos p) by (apply Rmult_lt_0_compat; lra). lra. }
      assert (AC2 : Rabs (cos p) = - cos p) by (rewrite <- Rabs_Ropp; apply Rabs_pos_eq; lra). rewrite AC2 in AE. rewrite AE in B1.
      assert (CS : sin p <= 1001 / 1000 * - cos p). { assert (H : 999999 / 1000000 * (m * sin p) <= m * - cos p) by (fold d; lra). replace (999999 / 1000000 * (m * sin p)) with (m * (999999 / 1000000 * sin p)) in H by ring. apply Rmult_le_reg_l in H; lra. }
      assert (PQ : PI / 2 <= p). { destruct (Rle_dec (PI / 2) p) as [|G]; [assumption|]. exfalso. assert (0 < cos p) by (apply cos_gt_0; lra). lra. }
      assert (SP : 0 < sin p). { destruct (Req_dec (sin p) 0) as [Z|Z]; [unfold d in TD; rewrite Z in TD; lra|lra]. }
      destruct (assemble L q e p m (fsub fM_PI (m_asin L na)) na 56 UE FQ ltac:(lra) M12 SP TD HD (angle_beyond L na p m OK FN P NQ (NB TD) ltac:(lra) CS) ltac:(lra) EN (REL TD) ltac:(lra)) as [FW DW].
      split; [exact FW|]. lra.
Qed.
(** every nonzero quaternion has a logarithm *)
Lemma logarithm_exists q : 0 < norm4 q -> exists v, logarithm v q.
Proof.
  intros N. assert (U : unit4 (normalize4 q)).
  { now apply normalize4_is_unit. }
  destruct (unit_is_qv _ U) as (e & p & UE & P & EQ). exists (scale3 (2 * p) e). split.
  - rewrite EQ. apply qv_rotation_quaternion; [exact UE|apply P].
  - rewrite norm3_scale_abs, Rabs_pos_eq by lra. unfold norm3. unfold unit3 in UE. rewrite UE, sqrt_1. lra.
Qed.
(** there and back: the exponential of the logarithm is the quaternion *)
Theorem float_log_exp L q : lib2_ok L -> finite4 q -> Rabs (norm4 (val4 q) - 1) <= 32 * u -> (0 < B2R (f3 q) \/ bpow radix2 (-400) <= norm3 (head3 (val4 q))) ->
  forall v, logarithm v (val4 q) -> let r := faxisAngle2quat (base L) (fqlog L q) in
  finite4 r /\ Rabs (norm4 (val4 r) - 1) <= 11 * u /\ dist4 (val4 r) (normalize4 (val4 q)) <= (12 + 39 * norm3 v) * u + 2 * log_error (norm3 v).
Proof.
  intros OK FQ NQ DIR v LG r. destruct (float_log L q v OK FQ NQ DIR LG) as [FW DW]. destruct LG as [RQ NV]. set (w := fqlog L q) in *. pose proof PI_decimal as PD. pose proof u53_pos as UP. pose proof u_val as UV.
  pose proof (norm3_pos v) as V0. pose proof (log_error_pos (norm3 v) V0) as L0. set (n := norm3 v) in *.
  assert (LS : log_error n <= / 10 ^ 5 * n).
  { unfold log_error. destruct (Rlt_dec n (/ 4090)); [|lra]. assert (n * n <= / 4090 * / 4090) by (apply Rmult_le_compat; lra). assert (n * n * n <= / 4090 * / 4090 * n) by (apply Rmult_le_compat_r; lra). lra. }
  assert (UN : 0 <= u * n) by (apply Rmult_le_pos; lra). assert (UN2 : 64 * u * n <= / 10 ^ 9 * n) by (apply Rmult_le_compat_r; lra).
  assert (NW : Rabs (norm3 (val3 w) - n) <= 64 * u * n + log_error n). { apply Rle_trans with (2 := DW). unfold n. rewrite dist3_sym. pose proof (dist3_norm v (val3 w)) as T1. pose proof (dist3_norm (val3 w) v) as T2. rewrite (dist3_sym (val3 w) v) in T2. apply Rabs_le. lra. }
  apply Rabs_le_inv in NW. destruct (rotation_quaternion_exists (val3 w)) as [E RE].
  destruct (float_exp_partial (base L) w E (proj1 OK) FW ltac:(apply Rle_trans with (bpow radix2 4); [change (bpow radix2 4) with 16; lra|apply bpow_le; lia]) RE) as (FR & NR & DR). fold r in FR, NR, DR.
  split; [exact FR|]. split; [exact NR|]. apply Rle_trans with (1 := dist4_tri _ E _). pose proof (exp_lipschitz _ _ _ _ RE RQ) as XL.
  assert (SE : small_error (norm3 (val3 w)) <= 3 / 2 * log_error n).
  { unfold small_error. destruct (Rlt_dec (norm3 (val3 w)) (/ 8191)) as [S|S]; [|lra]. unfold log_error. destruct (Rlt_dec n (/ 4090)) as [T|T].
    - set (x := norm3 (val3 w)) in *. assert (X0 : 0 <= x) by apply norm3_pos. assert (XN : x <= 10001 / 10000 * n) by lra. clearbody x.
      assert (x * x <= 10001 / 10000 * n * (10001 / 10000 * n)) by (apply Rmult_le_compat; lra). assert (X3 : x * x * x <= 10001 / 10000 * n * (10001 / 10000 * n) * (10001 / 10000 * n)) by (apply Rmult_le_compat; try lra; apply Rmult_le_pos; lra).
      replace (10001 / 10000 * n * (10001 / 10000 * n) * (10001 / 10000 * n)) with (10001 / 10000 * (10001 / 10000) * (10001 / 10000) * (n * n * n)) in X3 by ring. assert (0 <= n * n * n) by (repeat apply Rmult_le_pos; lra). lra.
    - exfalso. unfold log_error in NW, LS. destruct (Rlt_dec n (/ 4090)); [contradiction|]. lra. }
  assert (NWU : u * norm3 (val3 w) <= u * (10001 / 10000 * n)) by (apply Rmult_le_compat_l; lra). lra.
Qed.
(** what the integer division Scalar_(1/6) costs: at a twentieth of a milliradian the logarithm is wrong by a billionth of its length *)
Definition short_turn : F4 := mkF4 (flit 1 (-14)) fzero fzero (flit 536870911 (-29)).
Lemma short_turn_vals : finite4 short_turn /\ val4 short_turn = V4 (/ 16384) 0 0 (1 - / 536870912).
Proof. split; [repeat split; reflexivity|]. unfold val4, short_turn. cbn [f0 f1 f2 f3]. f_equal; vm_compute; lra. Qed.
Theorem float_log_refuted : exists q v, finite4 q /\ Rabs (norm4 (val4 q) - 1) <= u /\ 1 / 2 <= B2R (f3 q) /\ logarithm v (val4 q) /\
  forall L, lib2_ok L -> finite3 (fqlog L q) /\ 1000000 * u * norm3 v < dist3 (val3 (fqlog L q)) v.
Proof.
  destruct short_turn_vals as [FQ VQ]. pose proof u_val as UV. pose proof PI_decimal as PD.
  assert (NQ : Rabs (norm4 (val4 short_turn) - 1) <= u).
  { apply norm_of_sq; [apply norm4_pos|]. rewrite norm4_sq, VQ. unfold dot4. cbn [e0 e1 e2 e3]. rewrite UV. apply Rabs_le. lra. }
  assert (NQ32 : Rabs (norm4 (val4 short_turn) - 1) <= 32 * u) by lra.
  destruct (logarithm_exists (val4 short_turn)) as [v LG]. { apply Rabs_le_inv in NQ. lra. }
  exists short_turn, v. refine (conj FQ (conj NQ (conj _ (conj LG _)))). { change (B2R (f3 short_turn)) with (e3 (val4 short_turn)). rewrite VQ. cbn [e3]. lra. }
  intros L OK. assert (F3P : 0 < B2R (f3 short_turn)) by (change (B2R (f3 short_turn)) with (e3 (val4 short_turn)); rewrite VQ; cbn [e3]; lra).
  destruct (float_log L short_turn v OK FQ NQ32 (or_introl F3P) LG) as [FW DW]. split; [exact FW|].
  destruct (log_setup short_turn v FQ NQ32 LG) as (e & p & UE & P & EV & NV & HD & EE & NH). cbv zeta in *. set (m := norm4 (val4 short_turn)) in *. clearbody m.
  change (B2R (f3 short_turn)) with (e3 (val4 short_turn)) in *. rewrite VQ in EE, F3P. cbn [e3] in EE, F3P.
  assert (HV : norm3 (val3 (fhead3 short_turn)) = / 16384). { change (val3 (fhead3 short_turn)) with (head3 (val4 short_turn)). rewrite VQ. unfold head3. cbn [e0 e1 e2]. rewrite norm3_x; lra. }
  rewrite HV in NH. apply Rabs_le_inv in NQ.
  assert (SS : 9999999999 / 10000000000 * / 16384 <= sin p <= / 16383 /\ / 16384 <= (1 + u) * sin p).
  { pose proof (sin_ge_0 p (proj1 P) (proj2 P)) as S0. assert (A : m * sin p <= (1 + u) * sin p) by (apply Rmult_le_compat_r; lra). assert (B : (1 - u) * sin p <= m * sin p) by (apply Rmult_le_compat_r; lra). rewrite <- NH in A, B. rewrite UV in A, B. rewrite UV. split; [split|]; lra. }
  destruct SS as [SS SU].
  assert (CP : 0 < cos p). { rewrite EE in F3P. apply (Rmult_lt_reg_l m); lra. }
  assert (PQ : p <= 1).
  { destruct (Rle_dec p 1) as [|G]; [assumption|]. exfalso. assert (PH : p <= PI / 2). { destruct (Rle_dec p (PI / 2)) as [|G2]; [assumption|]. exfalso. assert (cos p < 0) by (apply cos_lt_0; lra). lra. }
    assert (sin 1 <= sin p) by (apply sin_incr_1; lra). destruct (sin_cubic 1) as (Q & _); [lra|]. lra. }
  assert (P1 : 0 <= p <= 1) by lra. destruct (sin_cubic p P1) as (Q & Q').
  assert (P2 : p <= / 16000).
  { assert (A1 : p * p <= p) by (rewrite <- (Rmult_1_r p) at 3; apply Rmult_le_compat_l; lra). assert (A3 : p * p * p <= p * 1) by (rewrite Rmult_assoc; apply Rmult_le_compat_l; lra).
    assert (A2 : p <= 2 / 1000) by lra. assert (A4 : p * p <= 2 / 1000 * (2 / 1000)) by (apply Rmult_le_compat; lra). assert (p * p * p <= 4 / 1000000 * p) by (apply Rmult_le_compat_r; lra). lra. }
  pose proof (sin_fifth p P1) as SF.
  assert (L3 : / 16385 * / 16385 * / 16385 <= p ^ 3). { replace (p ^ 3) with (p * p * p) by ring. apply Rmult_le_compat; try lra. apply Rmult_le_compat; lra. }
  assert (U5 : p ^ 5 <= / 16000 * / 16000 * p ^ 3). { replace (p ^ 5) with (p * p * p ^ 3) by ring. apply Rmult_le_compat_r; [lra|]. apply Rmult_le_compat; lra. }
  assert (LOW : / 16384 + 3 / 10 ^ 14 <= p). { rewrite UV in SU. lra. }
  assert (FH : finite3 (fhead3 short_turn)) by (repeat split; reflexivity).
  destruct (fnorm3_err (base L) (fhead3 short_turn) (proj1 OK) FH ltac:(rewrite HV; apply Rle_trans with (bpow radix2 0); [change (bpow radix2 0) with 1; lra|apply bpow_le; lia])) as (FN & N0 & NB & _). rewrite HV in NB.
  specialize (NB ltac:(unfold tiny400; apply Rle_trans with (bpow radix2 (-14)); [apply bpow_le; lia|replace (bpow radix2 (-14)) with (/ 16384) by (cbn; lra); lra])). apply Rabs_le_inv in NB.
  destruct eps4_val as [V8 F8].
  assert (SM : fltb (fabs (fnorm3 (base L) (fhead3 short_turn))) feps4 = true).
  { destruct (fltb (fabs (fnorm3 (base L) (fhead3 short_turn))) feps4) eqn:B; [reflexivity|]. apply fltb_val in B; rewrite ?finite_fabs; auto. rewrite fabs_B2R, Rabs_pos_eq, V8 in B by exact N0. rewrite UV in NB. lra. }
  assert (B1 : fltb (fabs (f3 short_turn)) (fnorm3 (base L) (fhead3 short_turn)) = false).
  { destruct (fltb (fabs (f3 short_turn)) (fnorm3 (base L) (fhead3 short_turn))) eqn:B; [|reflexivity]. apply fltb_val in B; rewrite ?finite_fabs; auto. rewrite fabs_B2R in B. change (B2R (f3 short_turn)) with (e3 (val4 short_turn)) in B. rewrite VQ in B. cbn [e3] in B. rewrite Rabs_pos_eq in B by lra. rewrite UV in NB. lra. }
  assert (B2 : fltb fzero (f3 short_turn) = true) by reflexivity.
  assert (FD : fqlog L short_turn = let s := fmul ftwo (farcSinXOverX L (fnorm3 (base L) (fhead3 short_turn))) in mkF3 (fmul (f0 short_turn) s) (fmul (f1 short_turn) s) (fmul (f2 short_turn) s)).
  { unfold fqlog. rewrite B1, B2. reflexivity. }
  destruct (short_log L _ short_turn FN ltac:(rewrite UV in NB; lra) SM FQ ltac:(rewrite HV; lra)) as [_ VW]. cbv zeta in FD. rewrite <- FD in VW.
  pose proof (dist3_norm v (val3 (fqlog L short_turn))) as DN. rewrite dist3_sym in DN. rewrite NV in DN. rewrite VW in DN at 1. rewrite norm3_scale_abs, HV, (Rabs_pos_eq 2) in DN by lra. rewrite NV, UV. lra.
Qed.
(** the pole: minus the identity, a quaternion of length exactly one that stands for no rotation at all, has no logarithm in the program *)
Definition minus_one : F4 := mkF4 fzero fzero fzero (flit (-1) 0).
Lemma minus_one_norm : forallb (fun t => match fnorm3 (mkLib (fun x => x) (fun x => x) t) (fhead3 minus_one) with B754_zero false => true | _ => false end) all_orders3 = true.
Proof. vm_compute. reflexivity. Qed.
Theorem float_log_pole_refuted : finite4 minus_one /\ val4 minus_one = opp4 quatIdentity /\ (exists v, logarithm v (val4 minus_one)) /\
  forall L, lib2_ok L -> is_nan (fx (fqlog L minus_one)) = true /\ is_nan (fy (fqlog L minus_one)) = true /\ is_nan (fz (fqlog L minus_one)) = true.
Proof.
  assert (VM : val4 minus_one = V4 0 0 0 (-1)) by (unfold val4, minus_one; cbn [f0 f1 f2 f3]; f_equal; vm_compute; lra).
  refine (conj _ (conj _ (conj _ _))).
  - repeat split; reflexivity.
  - rewrite VM. unfold opp4, quatIdentity. vring.
  - apply logarithm_exists. rewrite VM. unfold norm4, dot4. cbn [e0 e1 e2 e3]. apply sqrt_lt_R0. lra.
  - intros L ((_ & _ & O3) & _ & AS & _). pose proof minus_one_norm as MN. rewrite forallb_forall in MN. specialize (MN (order3 (base L)) (orders3_complete _ O3)).
    change (fnorm3 (mkLib (fun x => x) (fun x => x) (order3 (base L))) (fhead3 minus_one)) with (fnorm3 (base L) (fhead3 minus_one)) in MN.
    assert (Z : fnorm3 (base L) (fhead3 minus_one) = fzero). { destruct (fnorm3 (base L) (fhead3 minus_one)) as [[]| | |]; try discriminate MN. reflexivity. }
    assert (FZ : is_finite fzero = true) by reflexivity. destruct (proj1 (AS fzero FZ) ltac:(change (B2R fzero) with 0; lra)) as [FA EA]. change (B2R fzero) with 0 in EA. rewrite asin_0, Rabs_R0, Rminus_0_r, Rmult_0_r, Rplus_0_l in EA.
    destruct pi_val as [FP VP]. pose proof dPI_below as DB. pose proof PI_decimal as PD. pose proof eta_smaller as ES. pose proof u_val as UV. apply Rabs_le_inv in EA. set (a := m_asin L fzero) in *.
    destruct (fsub_rnd fM_PI a 2 FP FA ltac:(lia)) as [ER FR]. { change (bpow radix2 2) with 4. rewrite VP. apply Rabs_le. lra. }
    assert (POS : B2R (fsub fM_PI a) <> 0).
    { rewrite ER. assert (1 <= rnd (B2R fM_PI - B2R a)); [|lra]. replace 1 with (rnd (bpow radix2 0)). { apply round_le; [apply fexp_correct; reflexivity|apply valid_rnd_N|]. change (bpow radix2 0) with 1. rewrite VP. lra. }
      change (bpow radix2 0) with 1. destruct fone_val as [F1 V1]. rewrite <- V1. apply round_generic; [apply valid_rnd_N|apply (generic_format_B2R 53 1024)]. }
    unfold fqlog. rewrite Z. assert (C1 : fltb (fabs (f3 minus_one)) fzero = false) by reflexivity. assert (C2 : fltb fzero (f3 minus_one) = false) by reflexivity. rewrite C1, C2. fold a. set (b := fsub fM_PI a) in *. clearbody b.
    assert (INF : exists sg, fmul ftwo (fdiv b fzero) = B754_infinity sg). { destruct b as [sb|sb|sb pl H|sb mm ee H]; try discriminate FR; [exfalso; apply POS; reflexivity|]. exists sb. destruct sb; reflexivity. }
    destruct INF as [sg ->]. cbv zeta. unfold minus_one, fhead3. cbn [f0 f1 f2 fx fy fz]. destruct sg; repeat split; reflexivity.
Qed.

(** *** the hypotheses are met *)
Definition halves : F4 := mkF4 fhalf fhalf fhalf fhalf.
Definition beyond : F4 := mkF4 fhalf fhalf fhalf (fneg fhalf).
Lemma halves_vals : val4 halves = V4 (1 / 2) (1 / 2) (1 / 2) (1 / 2) /\ val4 beyond = V4 (1 / 2) (1 / 2) (1 / 2) (- (1 / 2)).
Proof. destruct half_val as [V F]. destruct (fneg_val fhalf F) as [_ VN]. unfold val4, halves, beyond. cbn [f0 f1 f2 f3]. rewrite VN, V. split; reflexivity. Qed.
Example float_log_hypotheses : lib2_ok rounded_lib2 /\
  (finite4 halves /\ norm4 (val4 halves) = 1 /\ 0 < B2R (f3 halves) /\ exists v, logarithm v (val4 halves)) /\
  (finite4 beyond /\ norm4 (val4 beyond) = 1 /\ bpow radix2 (-400) <= norm3 (head3 (val4 beyond)) /\ exists v, logarithm v (val4 beyond)).
Proof.
  destruct halves_vals as [VH VB]. assert (N1 : norm4 (val4 halves) = 1) by (rewrite VH; unfold norm4, dot4; cbn [e0 e1 e2 e3]; replace (1 / 2 * (1 / 2) + 1 / 2 * (1 / 2) + 1 / 2 * (1 / 2) + 1 / 2 * (1 / 2)) with 1 by field; apply sqrt_1).
  assert (N2 : norm4 (val4 beyond) = 1) by (rewrite VB; unfold norm4, dot4; cbn [e0 e1 e2 e3]; replace (1 / 2 * (1 / 2) + 1 / 2 * (1 / 2) + 1 / 2 * (1 / 2) + - (1 / 2) * - (1 / 2)) with 1 by field; apply sqrt_1).
  split; [exact rounded_lib2_ok|]. split; (split; [repeat split; reflexivity|]); (split; [assumption|]); split.
  - change (B2R (f3 halves)) with (e3 (val4 halves)). rewrite VH. cbn [e3]. lra.
  - apply logarithm_exists. lra.
  - rewrite VB. unfold head3. cbn [e0 e1 e2]. pose proof (comp3 (V3 (1 / 2) (1 / 2) (1 / 2))) as (A & _). cbn [vx] in A. rewrite Rabs_pos_eq in A by lra. apply Rle_trans with (2 := A). apply Rle_trans with (bpow radix2 (-1)); [apply bpow_le; lia|]. cbn. lra.
  - apply logarithm_exists. lra.
Qed.
