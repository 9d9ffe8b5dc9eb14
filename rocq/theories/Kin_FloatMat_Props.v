(** C139: rotation matrices from angles, rotation vectors and Rodrigues parameters in binary64. *)
From Coq Require Import Reals Psatz List Permutation.
From Verif Require GTest_Props.
From Verif Require Import Float64 Nsec_Proofs TimerTable_Num Round_Proofs Kin_Angle_Props Kin_Float_Model Kin_FloatExp_Model Kin_FloatR_Model Kin_FloatMat_Model.
From Verif Require Import LinAlg Kin_Quat_Props Kin_Trans_Model Kin_Trans_Props Kin_Rot_Model Kin_Rot_Props Kin_Float_Geom Kin_Float_Num Kin_Float_Props Kin_Float_Matrix Kin_FloatR_Props Kin_FloatExp_Props Kin_Quat_Model.
Import ListNotations.
Open Scope R_scope.

(** ** errors counted in roundings *)
Definition ak (x : f64) (a k : R) : Prop := is_finite x = true /\ Rabs (B2R x - a) <= k * u.
Lemma ak_ap x a k : ak x a k <-> ap x a (k * u). Proof. reflexivity. Qed.
Lemma ak_weaken x a k l : ak x a k -> k <= l -> ak x a l.
Proof. intros [F H] L. split; [exact F|]. pose proof u53_pos as UP. assert (k * u <= l * u) by (apply Rmult_le_compat_r; lra). lra. Qed.
Lemma ak_fneg x a k : ak x a k -> ak (fneg x) (- a) k. Proof. apply ap_fneg. Qed.
Lemma ak_exact x : is_finite x = true -> ak x (B2R x) 0.
Proof. intros F. split; [exact F|]. rewrite Rminus_diag_eq, Rabs_R0 by reflexivity. lra. Qed.
Lemma ak_one : ak fone 1 0. Proof. destruct (fofZ_correct 1 ltac:(lia)) as [V F]. unfold fone. split; [exact F|]. rewrite V, Rminus_diag_eq, Rabs_R0 by reflexivity. lra. Qed.
Lemma ak_zero : ak fzero 0 0. Proof. split; [reflexivity|]. change (B2R fzero) with 0. rewrite Rminus_diag_eq, Rabs_R0 by reflexivity. lra. Qed.
Lemma ak_eq x a b k : ak x a k -> a = b -> ak x b k. Proof. now intros H <-. Qed.
Lemma ak_mul x a k y c l : ak x a k -> ak y c l -> Rabs a <= 1 -> Rabs c <= 1 -> k * u <= 1 / 100 -> l * u <= 1 / 100 -> ak (fmul x y) (a * c) (101 / 100 * k + l + 104 / 100).
Proof.
  intros X Y A C K L. pose proof (ap_abs _ _ _ X) as AX. pose proof (ap_abs _ _ _ Y) as AY. destruct X as [FX X], Y as [FY Y].
  pose proof u53_pos as UP. pose proof eta_small as ES.
  assert (P : Rabs (B2R x * B2R y) <= 1021 / 1000) by (rewrite Rabs_mult; apply Rle_trans with (101 / 100 * (101 / 100)); [apply Rmult_le_compat; auto using Rabs_pos; lra|lra]).
  destruct (fmul_rnd x y 3 FX FY ltac:(lia)) as [E F]; [rewrite <- room8; lra|]. split; [exact F|]. rewrite E.
  assert (D : Rabs (B2R x * B2R y - a * c) <= k * u * (101 / 100) + l * u).
  { replace (B2R x * B2R y - a * c) with ((B2R x - a) * B2R y + a * (B2R y - c)) by ring. apply Rle_trans with (1 := Rabs_triang _ _). rewrite !Rabs_mult.
    assert (Rabs (B2R x - a) * Rabs (B2R y) <= k * u * (101 / 100)) by (apply Rmult_le_compat; auto using Rabs_pos; lra).
    assert (Rabs a * Rabs (B2R y - c) <= 1 * (l * u)) by (apply Rmult_le_compat; auto using Rabs_pos). lra. }
  apply Rle_trans with (1 := ap_rnd _ _ _ _ D P). lra.
Qed.
Lemma ak_op s x a k y c l m : ak x a k -> ak y c l -> Rabs a + Rabs c <= m -> m <= 4 -> k * u <= 1 / 100 -> l * u <= 1 / 100 -> ak (fop s x y) (rop s a c) (k + l + m + 3 / 100).
Proof.
  intros X Y M M4 K L. pose proof u53_pos as UP. pose proof eta_small as ES.
  destruct (ap_op s _ _ _ _ _ _ (m + 2 / 100) X Y ltac:(lra) ltac:(lra)) as [F E]. split; [exact F|]. lra.
Qed.
Lemma ak_add x a k y c l m : ak x a k -> ak y c l -> Rabs a + Rabs c <= m -> m <= 4 -> k * u <= 1 / 100 -> l * u <= 1 / 100 -> ak (fadd x y) (a + c) (k + l + m + 3 / 100).
Proof. apply (ak_op false). Qed.
Lemma ak_sub x a k y c l m : ak x a k -> ak y c l -> Rabs a + Rabs c <= m -> m <= 4 -> k * u <= 1 / 100 -> l * u <= 1 / 100 -> ak (fsub x y) (a - c) (k + l + m + 3 / 100).
Proof. apply (ak_op true). Qed.
Lemma ak_accurate f g x : accurate f g -> is_finite x = true -> Rabs (g (B2R x)) <= 1 -> ak (f x) (g (B2R x)) (201 / 100).
Proof.
  intros A F G. destruct (A x F) as [FF E]. split; [exact FF|]. pose proof u53_pos as UP. pose proof eta_small as ES. pose proof (Rabs_pos (g (B2R x))).
  assert (2 * u * Rabs (g (B2R x)) <= 2 * u * 1) by (apply Rmult_le_compat_l; lra). lra.
Qed.
Lemma sin1 x : Rabs (sin x) <= 1. Proof. apply Rabs_le, SIN_bound. Qed.
Lemma cos1 x : Rabs (cos x) <= 1. Proof. apply Rabs_le, COS_bound. Qed.
Lemma prod1 a b : Rabs a <= 1 -> Rabs b <= 1 -> Rabs (a * b) <= 1.
Proof. intros A B. rewrite Rabs_mult, <- (Rmult_1_r 1). apply Rmult_le_compat; auto using Rabs_pos. Qed.
Lemma neg1 a : Rabs a <= 1 -> Rabs (- a) <= 1. Proof. now rewrite Rabs_Ropp. Qed.
Lemma ak_close A M b : ak (fx (fr0 A)) (vx (r30 M)) b -> ak (fy (fr0 A)) (vy (r30 M)) b -> ak (fz (fr0 A)) (vz (r30 M)) b ->
  ak (fx (fr1 A)) (vx (r31 M)) b -> ak (fy (fr1 A)) (vy (r31 M)) b -> ak (fz (fr1 A)) (vz (r31 M)) b ->
  ak (fx (fr2 A)) (vx (r32 M)) b -> ak (fy (fr2 A)) (vy (r32 M)) b -> ak (fz (fr2 A)) (vz (r32 M)) b -> close33 A M (b * u).
Proof. intros [? ?] [? ?] [? ?] [? ?] [? ?] [? ?] [? ?] [? ?] [? ?]. unfold close33, close3, finite3. repeat split; assumption. Qed.
Lemma small_k k : k <= 100000 -> k * u <= 1 / 100.
Proof. intros K. pose proof u53_pos as UP. assert (k * u <= 100000 * u) by (apply Rmult_le_compat_r; lra). rewrite u_val in *. lra. Qed.

(** ** Euler angles *)
Section Entries.
  Variables (x y z w r s : f64) (a b c d e f : R) (k : R).
  Hypothesis (X : ak x a (201 / 100)) (Y : ak y b (201 / 100)) (Z : ak z c (201 / 100)) (W : ak w d (201 / 100)) (RR : ak r e (201 / 100)) (SS : ak s f (201 / 100)).
  Hypothesis (A1 : Rabs a <= 1) (B1 : Rabs b <= 1) (C1 : Rabs c <= 1) (D1 : Rabs d <= 1) (E1 : Rabs e <= 1) (F1 : Rabs f <= 1).
  Lemma pair_err : ak (fmul x y) (a * b) (51 / 10).
  Proof using X Y A1 B1. eapply ak_weaken; [apply (ak_mul _ _ _ _ _ _ X Y A1 B1); apply small_k; lra|lra]. Qed.
End Entries.
Lemma triple_err x y z a b c : ak x a (201 / 100) -> ak y b (201 / 100) -> ak z c (201 / 100) -> Rabs a <= 1 -> Rabs b <= 1 -> Rabs c <= 1 -> ak (fmul (fmul x y) z) (a * b * c) (83 / 10).
Proof. intros X Y Z A B C. eapply ak_weaken; [apply (ak_mul _ _ _ _ _ _ (pair_err _ _ _ _ X Y A B) Z (prod1 _ _ A B) C); apply small_k; lra|lra]. Qed.
Lemma pair_triple s x y z v w a b c d e : ak x a (201 / 100) -> ak y b (201 / 100) -> ak z c (201 / 100) -> ak v d (201 / 100) -> ak w e (201 / 100) ->
  Rabs a <= 1 -> Rabs b <= 1 -> Rabs c <= 1 -> Rabs d <= 1 -> Rabs e <= 1 ->
  ak (fop s (fmul x y) (fmul (fmul z v) w)) (rop s (a * b) (c * d * e)) 16.
Proof.
  intros X Y Z V W A B C D E. pose proof (prod1 _ _ A B) as P. pose proof (prod1 _ _ (prod1 _ _ C D) E) as Q.
  eapply ak_weaken; [apply (ak_op s _ _ _ _ _ _ 2 (pair_err _ _ _ _ X Y A B) (triple_err _ _ _ _ _ _ Z V W C D E)); try (apply small_k; lra); lra|lra].
Qed.
Lemma zyx_close L x y z x' y' z' : lib_ok L -> is_finite x = true -> is_finite y = true -> is_finite z = true -> B2R x = x' -> B2R y = y' -> B2R z = z' ->
  close33 (fzyx_entries (m_cos L x) (m_sin L x) (m_cos L y) (m_sin L y) (m_cos L z) (m_sin L z)) (zyx_entries (cos x') (sin x') (cos y') (sin y') (cos z') (sin z')) (16 * u).
Proof.
  intros (SO & CO & _) FX FY FZ <- <- <-.
  pose proof (ak_accurate _ _ _ CO FX (cos1 _)) as KX. pose proof (ak_accurate _ _ _ SO FX (sin1 _)) as SX. pose proof (ak_accurate _ _ _ CO FY (cos1 _)) as KY.
  pose proof (ak_accurate _ _ _ SO FY (sin1 _)) as SY. pose proof (ak_accurate _ _ _ CO FZ (cos1 _)) as KZ. pose proof (ak_accurate _ _ _ SO FZ (sin1 _)) as SZ.
  pose proof (cos1 (B2R x)) as cX. pose proof (sin1 (B2R x)) as sX. pose proof (cos1 (B2R y)) as cY. pose proof (sin1 (B2R y)) as sY. pose proof (cos1 (B2R z)) as cZ. pose proof (sin1 (B2R z)) as sZ.
  pose proof (ak_fneg _ _ _ SZ) as NZ. pose proof (neg1 _ sZ) as nZ. pose proof (ak_fneg _ _ _ KZ) as MZ. pose proof (neg1 _ cZ) as mZ.
  revert KX SX KY SY KZ SZ NZ MZ cX sX cY sY cZ sZ nZ mZ.
  generalize (m_cos L x) (m_sin L x) (m_cos L y) (m_sin L y) (m_cos L z) (m_sin L z) (cos (B2R x)) (sin (B2R x)) (cos (B2R y)) (sin (B2R y)) (cos (B2R z)) (sin (B2R z)).
  intros fcx fsx fcy fsy fcz fsz cx sx cy sy cz sz KX SX KY SY KZ SZ NZ MZ cX sX cY sY cZ sZ nZ mZ.
  apply ak_close; unfold fzyx_entries, fm3, zyx_entries, m3; cbn [fr0 fr1 fr2 fx fy fz r30 r31 r32 vx vy vz].
  - eapply ak_weaken; [apply pair_err; eassumption|lra].
  - apply (pair_triple false); assumption.
  - apply (pair_triple false); assumption.
  - eapply ak_weaken; [apply pair_err; eassumption|lra].
  - apply (pair_triple false); assumption.
  - apply (pair_triple false); assumption.
  - eapply ak_weaken; [apply ak_fneg; eassumption|lra].
  - eapply ak_weaken; [apply pair_err; eassumption|lra].
  - eapply ak_weaken; [apply pair_err; eassumption|lra].
Qed.
Lemma fneg_val x : is_finite x = true -> is_finite (fneg x) = true /\ B2R (fneg x) = - B2R x.
Proof. intros F. unfold fneg. now rewrite is_finite_Bopp, B2R_Bopp. Qed.
Lemma rph2R_close L x y z : lib_ok L -> is_finite x = true -> is_finite y = true -> is_finite z = true -> close33 (frph2R L x y z) (rph2R (B2R x) (B2R y) (B2R z)) (16 * u).
Proof. intros OK FX FY FZ. now apply zyx_close. Qed.
Lemma rph2C_close L x y z : lib_ok L -> is_finite x = true -> is_finite y = true -> is_finite z = true -> close33 (frph2C L x y z) (rph2C (B2R x) (B2R y) (B2R z)) (16 * u).
Proof. intros OK FX FY FZ. destruct (fneg_val x FX), (fneg_val y FY), (fneg_val z FZ). now apply zyx_close. Qed.
Lemma zyx_C_close L p : lib_ok L -> finite3 p -> close33 (fzyx_C L p) (zyx_C (val3 p)) (16 * u).
Proof. intros OK (FX & FY & FZ). destruct (fneg_val _ FX), (fneg_val _ FY), (fneg_val _ FZ). now apply zyx_close. Qed.
Lemma ypr_C_close L p : lib_ok L -> finite3 p -> close33 (fypr_C L p) (ypr_C (val3 p)) (16 * u).
Proof. intros OK (FX & FY & FZ). now apply zyx_close. Qed.
Lemma zxy_C_close L p : lib_ok L -> finite3 p -> close33 (fzxy_C L p) (zxy_C (val3 p)) (16 * u).
Proof.
  intros (SO & CO & _) (FX & FY & FZ). unfold fzxy_C, zxy_C, val3. cbn [vx vy vz]. set (x := fx p) in *. set (y := fy p) in *. set (z := fz p) in *.
  pose proof (ak_accurate _ _ _ CO FX (cos1 _)) as KX. pose proof (ak_accurate _ _ _ SO FX (sin1 _)) as SX. pose proof (ak_accurate _ _ _ CO FY (cos1 _)) as KY.
  pose proof (ak_accurate _ _ _ SO FY (sin1 _)) as SY. pose proof (ak_accurate _ _ _ CO FZ (cos1 _)) as KZ. pose proof (ak_accurate _ _ _ SO FZ (sin1 _)) as SZ.
  pose proof (cos1 (B2R x)) as cX. pose proof (sin1 (B2R x)) as sX. pose proof (cos1 (B2R y)) as cY. pose proof (sin1 (B2R y)) as sY. pose proof (cos1 (B2R z)) as cZ. pose proof (sin1 (B2R z)) as sZ.
  pose proof (ak_fneg _ _ _ SX) as NX. pose proof (neg1 _ sX) as nX. pose proof (ak_fneg _ _ _ KY) as MY. pose proof (neg1 _ cY) as mY.
  revert KX SX KY SY KZ SZ NX MY cX sX cY sY cZ sZ nX mY.
  generalize (m_cos L x) (m_sin L x) (m_cos L y) (m_sin L y) (m_cos L z) (m_sin L z) (cos (B2R x)) (sin (B2R x)) (cos (B2R y)) (sin (B2R y)) (cos (B2R z)) (sin (B2R z)).
  intros fcx fsx fcy fsy fcz fsz cx sx cy sy cz sz KX SX KY SY KZ SZ NX MY cX sX cY sY cZ sZ nX mY.
  apply ak_close; unfold fm3, m3; cbn [fr0 fr1 fr2 fx fy fz r30 r31 r32 vx vy vz].
  - apply (pair_triple true); assumption.
  - eapply ak_weaken; [apply pair_err; eassumption|lra].
  - apply (pair_triple false); assumption.
  - apply (pair_triple false); assumption.
  - eapply ak_weaken; [apply pair_err; eassumption|lra].
  - apply (pair_triple true); assumption.
  - eapply ak_weaken; [apply pair_err; eassumption|lra].
  - eapply ak_weaken; [eassumption|lra].
  - eapply ak_weaken; [apply pair_err; eassumption|lra].
Qed.
Lemma principal_close L a : lib_ok L -> is_finite a = true ->
  close33 (fRx L a) (Rx (B2R a)) (3 * u) /\ close33 (fRy L a) (Ry (B2R a)) (3 * u) /\ close33 (fRz L a) (Rz (B2R a)) (3 * u).
Proof.
  intros (SO & CO & _) F. pose proof (ak_weaken _ _ _ 3 (ak_accurate _ _ _ CO F (cos1 _)) ltac:(lra)) as K. pose proof (ak_weaken _ _ _ 3 (ak_accurate _ _ _ SO F (sin1 _)) ltac:(lra)) as S. pose proof (ak_fneg _ _ _ S) as N.
  pose proof (ak_weaken _ _ _ 3 ak_one ltac:(lra)) as O1. pose proof (ak_weaken _ _ _ 3 ak_zero ltac:(lra)) as Z.
  repeat match goal with |- _ /\ _ => split end; apply ak_close; unfold fRx, fRy, fRz, fm3, Rx, Ry, Rz, m3; cbn [fr0 fr1 fr2 fx fy fz r30 r31 r32 vx vy vz]; assumption.
Qed.
Lemma principal_C_close L a : lib_ok L -> is_finite a = true ->
  close33 (fCx L a) (Cx (B2R a)) (3 * u) /\ close33 (fCy L a) (Cy (B2R a)) (3 * u) /\ close33 (fCz L a) (Cz (B2R a)) (3 * u).
Proof. intros OK F. destruct (fneg_val a F) as [FN V]. unfold Cx, Cy, Cz. rewrite <- V. now apply principal_close. Qed.

(** ** axis and angle *)
Lemma aa_err ax ay az sa ca x y z s c k : ak ax x 7 -> ak ay y 7 -> ak az z 7 -> ak sa s k -> ak ca c k -> Rabs x <= 1 -> Rabs y <= 1 -> Rabs z <= 1 -> Rabs s <= 1 -> Rabs c <= 1 ->
  0 <= k -> k * u <= 1 / 1000 -> close33 (faa_entries ax ay az sa ca) (aa_entries x y z s c) ((446 / 10 + 204 / 100 * k) * u).
Proof.
  intros X Y Z SA CA X1 Y1 Z1 S1 C1 K0 KU. pose proof u53_pos as UP. pose proof u_val as UV.
  assert (SK : forall m l, m <= 1000 -> l <= 3 -> (m + l * k) * u <= 1 / 100).
  { intros m l Hm Hl. assert (l * (k * u) <= 3 * (k * u)) by (apply Rmult_le_compat_r; [apply Rmult_le_pos; lra|lra]). assert (m * u <= 1000 * u) by (apply Rmult_le_compat_r; lra). rewrite UV in *. lra. }
  assert (KU' : k * u <= 1 / 100) by lra. assert (P0 : forall a, Rabs a <= 1 -> 0 <= a * a <= 1).
  { intros a A. split; [nra|]. pose proof (prod1 a a A A) as P. apply Rabs_le_inv in P. lra. }
  assert (PR : forall f g a b, ak f a 7 -> ak g b 7 -> Rabs a <= 1 -> Rabs b <= 1 -> ak (fmul f g) (a * b) (152 / 10)).
  { intros f g a b F G A B. eapply ak_weaken; [apply (ak_mul _ _ _ _ _ _ F G A B); apply small_k; lra|lra]. }
  assert (D : forall f a, ak f a 7 -> Rabs a <= 1 -> ak (fadd (fmul f f) (fmul ca (fsub fone (fmul f f)))) (a * a + c * (1 - a * a)) (446 / 10 + 204 / 100 * k)).
  { intros f a F A. pose proof (PR _ _ _ _ F F A A) as Q. destruct (P0 a A) as [A0 A2].
    assert (Q1 : ak (fsub fone (fmul f f)) (1 - a * a) (173 / 10)).
    { eapply ak_weaken; [apply (ak_sub _ _ _ _ _ _ 2 ak_one Q); try (apply small_k; lra); [|lra]; rewrite !Rabs_pos_eq by lra; lra|lra]. }
    assert (A3 : Rabs (1 - a * a) <= 1) by (apply Rabs_le; lra).
    pose proof (ak_mul _ _ _ _ _ _ CA Q1 C1 A3 KU' ltac:(apply small_k; lra)) as Q2.
    eapply ak_weaken; [apply (ak_add _ _ _ _ _ _ 2 Q Q2); [|lra|apply small_k; lra|]|lra].
    - pose proof (prod1 _ _ C1 A3). rewrite (Rabs_pos_eq (a * a)) by lra. lra.
    - replace (101 / 100 * k + 173 / 10 + 104 / 100) with (1834 / 100 + 101 / 100 * k) by lra. apply SK; lra. }
  assert (OB : forall sg f g h a b d, ak f a 7 -> ak g b 7 -> ak h d 7 -> Rabs a <= 1 -> Rabs b <= 1 -> Rabs d <= 1 ->
             ak (fop sg (fsub (fmul f g) (fmul (fmul ca f) g)) (fmul sa h)) (rop sg (a * b - c * a * b) (s * d)) (446 / 10 + 204 / 100 * k)).
  { intros sg f g h a b d F G H A B D'. pose proof (PR _ _ _ _ F G A B) as Q.
    pose proof (ak_mul _ _ _ _ _ _ CA F C1 A KU' ltac:(apply small_k; lra)) as Q1.
    assert (Q1k : (101 / 100 * k + 7 + 104 / 100) * u <= 1 / 100) by (replace (101 / 100 * k + 7 + 104 / 100) with (804 / 100 + 101 / 100 * k) by lra; apply SK; lra).
    pose proof (ak_mul _ _ _ _ _ _ Q1 G (prod1 _ _ C1 A) B Q1k ltac:(apply small_k; lra)) as Q2.
    assert (Q2' : ak (fmul (fmul ca f) g) (c * a * b) (162 / 10 + 10201 / 10000 * k)) by (eapply ak_weaken; [exact Q2|lra]). clear Q2.
    pose proof (prod1 _ _ A B) as AB. pose proof (prod1 _ _ (prod1 _ _ C1 A) B) as CAB.
    assert (Q3 : ak (fsub (fmul f g) (fmul (fmul ca f) g)) (a * b - c * a * b) (335 / 10 + 10201 / 10000 * k)).
    { eapply ak_weaken; [apply (ak_sub _ _ _ _ _ _ 2 Q Q2'); [lra|lra|apply small_k; lra|apply SK; lra]|lra]. }
    pose proof (ak_mul _ _ _ _ _ _ SA H S1 D' KU' ltac:(apply small_k; lra)) as Q4.
    pose proof (prod1 _ _ S1 D') as SD. assert (OA : Rabs (a * b - c * a * b) <= 2) by (apply Rle_trans with (1 := Rabs_triang (a * b) (- (c * a * b))); rewrite Rabs_Ropp; lra).
    eapply ak_weaken; [apply (ak_op sg _ _ _ _ _ _ 3 Q3 Q4); [lra|lra|apply SK; lra|]|lra].
    replace (101 / 100 * k + 7 + 104 / 100) with (804 / 100 + 101 / 100 * k) by lra. apply SK; lra. }
  apply ak_close; unfold faa_entries, fm3, aa_entries, m3; cbn [fr0 fr1 fr2 fx fy fz r30 r31 r32 vx vy vz];
    first [apply D; assumption | apply (OB false); assumption | apply (OB true); assumption].
Qed.
Lemma unit_comp e : unit3 e -> Rabs (vx e) <= 1 /\ Rabs (vy e) <= 1 /\ Rabs (vz e) <= 1.
Proof. unfold unit3, dot3. intros H. repeat split; apply Rabs_le; nra. Qed.
Lemma axis_comp v th c n : is_finite v = true -> is_finite th = true -> / 10 ^ 15 <= n <= 10 ^ 12 -> Rabs (B2R th - n) <= 42 / 10 * u * n -> B2R v = n * c -> Rabs c <= 1 ->
  ak (fmul v (fdiv fone th)) c 7.
Proof.
  intros FV FT [N0 N1] TN V C1. pose proof u53_pos as UP. pose proof u_val as UV. pose proof eta_small as ES. pose proof eta_pos as EP. set (T := B2R th) in *.
  assert (UN : 0 <= u * n <= n / 1000000) by (split; [apply Rmult_le_pos; lra|]; replace (n / 1000000) with (/ 1000000 * n) by field; apply Rmult_le_compat_r; lra).
  assert (TB : 999 / 1000 * n <= T <= 1001 / 1000 * n) by (apply Rabs_le_inv in TN; lra). assert (TP : 0 < T) by lra. assert (IT0 : 0 < / T) by now apply Rinv_0_lt_compat.
  assert (NT : n * / T <= 1002 / 1000).
  { apply Rmult_le_reg_r with T; [lra|]. rewrite Rmult_assoc, Rinv_l, Rmult_1_r by lra. lra. }
  assert (IB : / T <= bpow radix2 60).
  { change (bpow radix2 60) with 1152921504606846976. assert (5 / 10 * / 10 ^ 15 <= T) by lra. apply Rle_trans with (/ (5 / 10 * / 10 ^ 15)); [apply Rinv_le; lra|lra]. }
  destruct (fofZ_correct 1 ltac:(lia)) as [V1 F1]. destruct (fdiv_rnd fone th 60 F1 ltac:(fold T; lra) ltac:(lia)) as [VD FD].
  { unfold fone. rewrite V1. fold T. unfold Rdiv. rewrite Rmult_1_l, Rabs_pos_eq by lra. exact IB. }
  unfold fone in VD at 2. rewrite V1 in VD. fold T in VD. unfold Rdiv in VD. rewrite Rmult_1_l in VD. set (ra := fdiv fone th) in *.
  pose proof (rnd_err (/ T)) as RD. rewrite <- VD, (Rabs_pos_eq (/ T)) in RD by lra.
  assert (NE : n * eta <= u / 1000).
  { rewrite UV. apply Rle_trans with (10 ^ 12 * bpow radix2 (-1075)); [apply Rmult_le_compat_r; lra|]. apply Rle_trans with (10 ^ 12 * bpow radix2 (-200)); [apply Rmult_le_compat_l; [lra|apply bpow_le; lia]|].
    replace (bpow radix2 (-200)) with (/ 1606938044258990275541962092341162602522202993782792835301376) by (cbn; lra). lra. }
  assert (UNT : u * (n * / T) <= u * (1002 / 1000)) by (apply Rmult_le_compat_l; lra).
  assert (W : Rabs (n * B2R ra - 1) <= 53 / 10 * u).
  { replace (n * B2R ra - 1) with (n * (B2R ra - / T) + - (T - n) * / T) by (field; lra). apply Rle_trans with (1 := Rabs_triang _ _). rewrite !Rabs_mult, Rabs_Ropp, (Rabs_pos_eq n), (Rabs_pos_eq (/ T)) by lra.
    assert (n * Rabs (B2R ra - / T) <= n * (u * / T + eta)) by (apply Rmult_le_compat_l; lra).
    assert (Rabs (T - n) * / T <= 42 / 10 * u * n * / T) by (apply Rmult_le_compat_r; lra). lra. }
  assert (E : Rabs (B2R v * B2R ra - c) <= 53 / 10 * u).
  { rewrite V. replace (n * c * B2R ra - c) with (c * (n * B2R ra - 1)) by ring. rewrite Rabs_mult. pose proof (Rabs_pos (n * B2R ra - 1)).
    assert (Rabs c * Rabs (n * B2R ra - 1) <= 1 * Rabs (n * B2R ra - 1)) by (apply Rmult_le_compat_r; lra). lra. }
  assert (B : Rabs (B2R v * B2R ra) <= 1001 / 1000). { apply Rabs_le_inv in E, C1. apply Rabs_le. rewrite UV in E. lra. }
  destruct (fmul_rnd v ra 3 FV FD ltac:(lia)) as [VM FM]; [rewrite <- room8; lra|]. split; [exact FM|]. rewrite VM. apply Rle_trans with (1 := ap_rnd _ _ _ _ E B). lra.
Qed.
(** a matrix about e by an angle *)
Lemma turning_matrix M e a : (forall v, mv3 M v = Kin_Rot_Props.turned e (- a) v) -> M = aa_entries (vx e) (vy e) (vz e) (sin a) (cos a).
Proof. intros H. apply mat_eq. intros v. now rewrite H, aa_turned. Qed.
Lemma big_branch L p th e : lib_ok L -> finite3 p -> is_finite th = true -> let n := norm3 (val3 p) in / 10 ^ 15 <= n <= 10 ^ 12 -> Rabs (B2R th - n) <= 42 / 10 * u * n -> unit3 e -> val3 p = scale3 n e ->
  close33 (faa_entries (fmul (fx p) (fdiv fone th)) (fmul (fy p) (fdiv fone th)) (fmul (fz p) (fdiv fone th)) (m_sin L th) (m_cos L th))
          (aa_entries (vx e) (vy e) (vz e) (sin n) (cos n)) ((50 + 9 * n) * u).
Proof.
  intros (SO & CO & _) (FX & FY & FZ) FT n NB TN UE PE. pose proof u53_pos as UP. pose proof u_val as UV. destruct (unit_comp e UE) as (X1 & Y1 & Z1). clearbody n.
  destruct p as [x y z]. unfold val3, scale3 in PE. cbn [fx fy fz vx vy vz] in *. injection PE as PX PY PZ.
  pose proof (axis_comp x th _ n FX FT NB TN PX X1) as AX. pose proof (axis_comp y th _ n FY FT NB TN PY Y1) as AY. pose proof (axis_comp z th _ n FZ FT NB TN PZ Z1) as AZ.
  assert (N0 : 0 < n) by lra.
  assert (SA : ak (m_sin L th) (sin n) (201 / 100 + 42 / 10 * n)).
  { destruct (ak_accurate _ _ _ SO FT (sin1 _)) as [F E]. split; [exact F|]. pose proof (sin_dist (B2R th) n) as D.
    replace (B2R (m_sin L th) - sin n) with ((B2R (m_sin L th) - sin (B2R th)) + (sin (B2R th) - sin n)) by ring. apply Rle_trans with (1 := Rabs_triang _ _). lra. }
  assert (CA : ak (m_cos L th) (cos n) (201 / 100 + 42 / 10 * n)).
  { destruct (ak_accurate _ _ _ CO FT (cos1 _)) as [F E]. split; [exact F|]. pose proof (cos_dist (B2R th) n) as D.
    replace (B2R (m_cos L th) - cos n) with ((B2R (m_cos L th) - cos (B2R th)) + (cos (B2R th) - cos n)) by ring. apply Rle_trans with (1 := Rabs_triang _ _). lra. }
  assert (KU : (201 / 100 + 42 / 10 * n) * u <= 1 / 1000).
  { apply Rle_trans with ((201 / 100 + 42 / 10 * 10 ^ 12) * u); [apply Rmult_le_compat_r; lra|]. rewrite UV. lra. }
  eapply close33_weaken; [apply (aa_err _ _ _ _ _ _ _ _ _ _ _ AX AY AZ SA CA X1 Y1 Z1 (sin1 _) (cos1 _)); lra|].
  apply Rmult_le_compat_r; lra.
Qed.
Lemma identity_branch e n : unit3 e -> 0 <= n <= 1 -> close33 fidentity (aa_entries (vx e) (vy e) (vz e) (sin n) (cos n)) (n + n * n).
Proof.
  intros UE [N0 N1]. destruct (unit_comp e UE) as (X1 & Y1 & Z1).
  destruct (cos_quartic n ltac:(lra)) as [CL CU]. assert (C0 : cos n <= 1) by apply COS_bound.
  assert (CN : 0 <= 1 - cos n <= n * n) by (split; [lra|]; nra).
  assert (SN : Rabs (sin n) <= n) by (pose proof (sin_abs n); rewrite (Rabs_pos_eq n) in * by lra; lra).
  destruct (fofZ_correct 1 ltac:(lia)) as [V1 F1]. assert (NN : 0 <= n * n) by nra.
  assert (Z0 : is_finite fzero = true) by reflexivity. assert (ZV : B2R fzero = 0) by reflexivity.
  assert (D : forall a, Rabs a <= 1 -> Rabs (1 - (a * a + cos n * (1 - a * a))) <= n + n * n).
  { intros a A. assert (AA : 0 <= a * a <= 1) by (pose proof (prod1 a a A A) as P; apply Rabs_le_inv in P; split; [nra|lra]). replace (1 - (a * a + cos n * (1 - a * a))) with ((1 - a * a) * (1 - cos n)) by ring.
    rewrite Rabs_pos_eq by (apply Rmult_le_pos; lra). apply Rle_trans with (1 * (n * n)); [apply Rmult_le_compat; lra|lra]. }
  assert (OB : forall sg a b d, Rabs a <= 1 -> Rabs b <= 1 -> Rabs d <= 1 -> Rabs (0 - rop sg (a * b - cos n * a * b) (sin n * d)) <= n + n * n).
  { intros sg a b d A B D'. replace (0 - rop sg (a * b - cos n * a * b) (sin n * d)) with (- (a * b * (1 - cos n)) + rop sg 0 (- (sin n * d))) by (unfold rop; destruct sg; ring).
    apply Rle_trans with (1 := Rabs_triang _ _). rewrite Rabs_Ropp, Rabs_mult, (Rabs_pos_eq (1 - cos n)) by lra.
    assert (Rabs (a * b) * (1 - cos n) <= 1 * (n * n)) by (apply Rmult_le_compat; try lra; [apply Rabs_pos|now apply prod1]).
    assert (Rabs (rop sg 0 (- (sin n * d))) <= n * 1).
    { replace (Rabs (rop sg 0 (- (sin n * d)))) with (Rabs (sin n) * Rabs d) by (rewrite <- Rabs_mult; unfold rop; destruct sg; [f_equal; ring|rewrite <- Rabs_Ropp; f_equal; ring]).
      apply Rmult_le_compat; auto using Rabs_pos. }
    lra. }
  unfold close33, close3, finite3, fidentity, fm3, fone, aa_entries, m3. cbn [fr0 fr1 fr2 fx fy fz r30 r31 r32 vx vy vz]. rewrite V1, ZV.
  repeat match goal with |- _ /\ _ => split end; try assumption; first [apply D; assumption | apply (OB false); assumption | apply (OB true); assumption].
Qed.
Lemma room12 : 10 ^ 12 <= bpow radix2 290.
Proof. apply Rle_trans with (bpow radix2 40); [change (bpow radix2 40) with 1099511627776; lra|apply bpow_le; lia]. Qed.
Lemma threshold k : (1 <= k <= 15)%Z -> is_finite (fdec 1 k) = true /\ 999999 / 1000000 * / IZR (10 ^ k) <= B2R (fdec 1 k) <= 1000001 / 1000000 * / IZR (10 ^ k).
Proof.
  intros K. destruct (GTest_Props.lit_near k K) as [E F]. split; [exact F|]. pose proof u53_pos as UP. pose proof u_val as UV.
  assert (P : 0 < / IZR (10 ^ k)) by (apply Rinv_0_lt_compat, IZR_lt, Z.pow_pos_nonneg; lia). set (t := / IZR (10 ^ k)) in *.
  assert (u * t <= 1 / 1000000 * t) by (apply Rmult_le_compat_r; lra). apply Rabs_le_inv in E. lra.
Qed.
(** the two branches, for a threshold 10^-k *)
Lemma branches L p th k e : lib_ok L -> finite3 p -> norm3 (val3 p) <= 10 ^ 12 -> unit3 e -> val3 p = scale3 (norm3 (val3 p)) e -> (12 <= k <= 14)%Z ->
  (exists L', lib_ok L' /\ th = fnorm3 L' p) ->
  let n := norm3 (val3 p) in let M := aa_entries (vx e) (vy e) (vz e) (sin n) (cos n) in
  (fltb th (fdec 1 k) = true -> n <= 1001 / 1000 * / IZR (10 ^ k) /\ close33 fidentity M (n + n * n)) /\
  (fltb th (fdec 1 k) = false -> 999 / 1000 * / IZR (10 ^ k) <= n /\ 
    close33 (faa_entries (fmul (fx p) (fdiv fone th)) (fmul (fy p) (fdiv fone th)) (fmul (fz p) (fdiv fone th)) (m_sin L th) (m_cos L th)) M ((50 + 9 * n) * u)).
Proof.
  intros OK FP NU UE PE K (L' & OK' & TH) n M. destruct (fnorm3_err L' p OK' FP ltac:(pose proof room12; lra)) as (FT & T0 & TN & TT). rewrite <- TH in *. clear TH L' OK'. fold n in TN, TT, NU, PE.
  pose proof (norm3_pos (val3 p)) as N0. fold n in N0. destruct (threshold k ltac:(lia)) as [FK [KL KU]].
  assert (T14 : / 10 ^ 14 <= / IZR (10 ^ k) <= / 10 ^ 12).
  { assert (10 ^ 12 <= IZR (10 ^ k) <= 10 ^ 14).
    { rewrite !pow_IZR. split; apply IZR_le; change (10 ^ Z.of_nat 12)%Z with (10 ^ 12)%Z; change (10 ^ Z.of_nat 14)%Z with (10 ^ 14)%Z; apply Z.pow_le_mono_r; lia. }
    split; apply Rinv_le; lra. }
  set (t := / IZR (10 ^ k)) in *. pose proof u53_pos as UP. pose proof u_val as UV. clearbody t.
  assert (UN : 0 <= u * n <= n / 1000000) by (split; [apply Rmult_le_pos; lra|]; replace (n / 1000000) with (/ 1000000 * n) by field; apply Rmult_le_compat_r; lra).
  assert (TY : tiny400 <= / 10 ^ 15 / 1000). { unfold tiny400. apply Rle_trans with (bpow radix2 (-100)); [apply bpow_le; lia|]. replace (bpow radix2 (-100)) with (/ 1267650600228229401496703205376) by (cbn; lra). lra. }
  assert (TY3 : bpow radix2 (-300) <= / 10 ^ 15 / 1000). { apply Rle_trans with (bpow radix2 (-100)); [apply bpow_le; lia|]. replace (bpow radix2 (-100)) with (/ 1267650600228229401496703205376) by (cbn; lra). lra. }
  split; intros LT.
  - apply (proj1 (ltb_val _ _ FT FK)) in LT. assert (NB : n <= 1001 / 1000 * t).
    { destruct (Rlt_or_le n tiny400) as [SM|BG]; [lra|]. specialize (TN BG). apply Rabs_le_inv in TN. lra. }
    split; [exact NB|]. apply identity_branch; [exact UE|]. lra.
  - apply (proj2 (ltb_val _ _ FT FK)) in LT. destruct (Rlt_or_le n tiny400) as [SM|BG]; [specialize (TT SM); lra|]. specialize (TN BG).
    assert (NB : 999 / 1000 * t <= n) by (apply Rabs_le_inv in TN; lra). split; [exact NB|].
    refine (big_branch L p th e OK FP FT _ TN UE PE). fold n. lra.
Qed.
(** ** C139 *)
(** what the parameters denote: a rotation about e by -|p| *)
Definition denotes (p : vec3) (M : mat3) : Prop := exists e, unit3 e /\ p = scale3 (norm3 p) e /\ forall v, mv3 M v = Kin_Rot_Props.turned e (- norm3 p) v.
Lemma rv_close L p M : lib_ok L -> finite3 p -> norm3 (val3 p) <= 10 ^ 12 -> denotes (val3 p) M -> close33 (frv_C L p) M ((100 + 9 * norm3 (val3 p)) * u).
Proof.
  intros OK FP NU (e & UE & PE & TM). apply turning_matrix in TM. subst M. destruct (branches L p (fnorm3 L p) 14 e OK FP NU UE PE ltac:(lia) (ex_intro _ L (conj OK eq_refl))) as [BT BF].
  pose proof (norm3_pos (val3 p)) as N0. pose proof u53_pos as UP. pose proof u_val as UV. unfold frv_C, f1em14. set (n := norm3 (val3 p)) in *.
  change (IZR (10 ^ 14)) with 100000000000000 in *.
  assert (UN : 0 <= n * u) by (apply Rmult_le_pos; lra).
  destruct (fltb (fnorm3 L p) (fdec 1 14)).
  - destruct (BT eq_refl) as [NB C]. eapply close33_weaken; [exact C|].
    assert (n * n <= 1 / 1000 * n) by (apply Rmult_le_compat_r; lra). rewrite UV in *. lra.
  - destruct (BF eq_refl) as [_ C]. eapply close33_weaken; [exact C|]. lra.
Qed.
Lemma aa_close L p M : lib_ok L -> finite3 p -> norm3 (val3 p) <= 10 ^ 12 -> denotes (val3 p) M ->
  close33 (faxisAngle2R L p) M ((50 + 9 * norm3 (val3 p)) * u + if Rle_dec (norm3 (val3 p)) (1001 / 1000 * / 10 ^ 12) then 1001 / 1000 * norm3 (val3 p) else 0).
Proof.
  intros OK FP NU (e & UE & PE & TM). apply turning_matrix in TM. subst M. set (L' := mkLib (m_sin L) (m_cos L) (SAdd (SAdd (SLeaf 0) (SLeaf 1)) (SLeaf 2))).
  assert (OK' : lib_ok L') by (destruct OK as (SO & CO & _); refine (conj SO (conj CO _)); apply Permutation_refl).
  destruct (branches L p (fnorm3 L' p) 12 e OK FP NU UE PE ltac:(lia) (ex_intro _ L' (conj OK' eq_refl))) as [BT BF].
  pose proof (norm3_pos (val3 p)) as N0. pose proof u53_pos as UP. pose proof u_val as UV.
  assert (EQ : faxisAngle2R L p = if fltb (fnorm3 L' p) f1em12 then fidentity else let d := fdiv fone (fnorm3 L' p) in faxisAngle2R4 L (fnorm3 L' p) (fmul (fx p) d) (fmul (fy p) d) (fmul (fz p) d)) by reflexivity.
  rewrite EQ. clear EQ. unfold faxisAngle2R4, f1em12. set (n := norm3 (val3 p)) in *. change (IZR (10 ^ 12)) with 1000000000000 in *.
  assert (UN : 0 <= n * u) by (apply Rmult_le_pos; lra).
  destruct (fltb (fnorm3 L' p) (fdec 1 12)).
  - destruct (BT eq_refl) as [NB C]. eapply close33_weaken; [exact C|].
    assert (n * n <= 1 / 1000 * n) by (apply Rmult_le_compat_r; lra). destruct (Rle_dec n _) as [|X]; [lra|]. exfalso. apply X. lra.
  - destruct (BF eq_refl) as [_ C]. eapply close33_weaken; [exact C|]. destruct (Rle_dec n _); lra.
Qed.

(** ** Rodrigues parameters *)
Lemma er_scale L p : lib_ok L -> finite3 p -> norm3 (val3 p) <= bpow radix2 290 ->
  let n2 := dot3 (val3 p) (val3 p) in let s := fdiv (fofZ 2) (fadd fone (fdot3 L p)) in
  is_finite s = true /\ Rabs (B2R s - 2 / (1 + n2)) <= 51 / 10 * u * (2 / (1 + n2)) /\ 0 <= n2 /\ n2 + 1 <= BIG.
Proof.
  intros (_ & _ & OK) (A0 & A1 & A2) NU n2 s. pose proof (norm3_pos (val3 p)) as N0. pose proof (norm3_sq (val3 p)) as NS. fold n2 in NS.
  pose proof u_val as UV. pose proof u53_pos as UP. pose proof eta_pos as EP. pose proof eta_small as ES.
  assert (P0 : 0 <= n2) by (rewrite <- NS; nra).
  assert (NB : n2 + 1 <= BIG).
  { rewrite <- NS. apply Rle_trans with (bpow radix2 290 * bpow radix2 290 + bpow radix2 0); [apply Rplus_le_compat; [apply Rmult_le_compat; lra|cbn; lra]|]. rewrite <- bpow_plus.
    apply Rle_trans with (bpow radix2 580 + bpow radix2 580); [apply Rplus_le_compat; apply bpow_le; lia|]. replace (bpow radix2 580 + bpow radix2 580) with (bpow radix2 580 * bpow radix2 1) by (change (bpow radix2 1) with 2; ring).
    rewrite <- bpow_plus. apply bpow_le. lia. }
  set (x := fun i => fmul (fat3 p i) (fat3 p i)). set (b := fun i => B2R (fat3 p i) * B2R (fat3 p i)).
  assert (B0 : forall i, 0 <= b i) by (intros i; unfold b; nra).
  assert (FI : forall i, is_finite (fat3 p i) = true) by (intros [|[|i]]; assumption).
  assert (BS : Rsum (map b (leaves (order3 L))) = n2).
  { rewrite (Rsum_perm _ _ (Permutation_map b OK)). unfold n2, dot3, val3, b. cbn [map Rsum fold_right fat3 vx vy vz]. ring. }
  assert (BI : forall i, b i <= n2).
  { intros i. unfold n2, dot3, val3, b. cbn [vx vy vz]. pose proof (B0 0%nat). pose proof (B0 1%nat). pose proof (B0 2%nat). unfold b in *. cbn [fat3] in *. destruct i as [|[|i]]; cbn [fat3]; lra. }
  assert (XB : forall i, nr (x i) (b i) (b i) (101 / 100) 2).
  { intros i. assert (AA : Rabs (B2R (fat3 p i)) * Rabs (B2R (fat3 p i)) = b i) by (unfold b, Rabs; destruct (Rcase_abs _); ring).
    unfold x. pose proof (nr_mul_exact (fat3 p i) (fat3 p i) (FI i) (FI i)) as NM. rewrite AA in NM. apply NM. specialize (BI i). lra. }
  assert (LN : INR (length (leaves (order3 L))) = 3) by (rewrite (Permutation_length OK); cbn; lra).
  destruct (tree_nr x b (order3 L) B0 XB) as [NZ _]; [lra|lra|]. rewrite LN, BS in NZ. change (fsum_tree x (order3 L)) with (fdot3 L p) in NZ. subst s. revert NZ. generalize (fdot3 L p). intros zz NZ.
  destruct (fofZ_correct 1 ltac:(lia)) as [V1 F1]. destruct two_val as [V2 F2].
  assert (NO : nr fone 1 1 (101 / 100 * 3) 0).
  { split; [exact F1|]. split; [rewrite Rabs_pos_eq; lra|]. unfold fone. rewrite V1, Rminus_diag_eq, Rabs_R0 by reflexivity. lra. }
  pose proof (nr_add _ _ _ _ _ _ _ _ _ NO NZ ltac:(lra) ltac:(lra) ltac:(lra) ltac:(lra) ltac:(lra)) as (FW & _ & EW). set (w := fadd fone zz) in *. clearbody w. set (W := 1 + n2) in *.
  assert (W1 : 1 <= W) by (unfold W; lra). assert (UW : u * 1 <= u * W) by (apply Rmult_le_compat_l; lra).
  assert (EW' : Rabs (B2R w - W) <= 405 / 100 * (u * W)) by lra. clear EW.
  assert (UWS : u * W <= / 1000000 * W) by (apply Rmult_le_compat_r; lra).
  assert (WB : 999 / 1000 * W <= B2R w <= 1001 / 1000 * W) by (apply Rabs_le_inv in EW'; lra). assert (WP : 0 < B2R w) by lra.
  set (S := 2 / W). assert (SP : 0 < S) by (unfold S; apply Rmult_lt_0_compat; [lra|apply Rinv_0_lt_compat; lra]).
  assert (WW : W * / B2R w <= 1002 / 1000) by (apply Rmult_le_reg_r with (B2R w); [lra|]; rewrite Rmult_assoc, Rinv_l, Rmult_1_r by lra; lra).
  assert (IW : 0 < / B2R w) by now apply Rinv_0_lt_compat.
  assert (SW : 2 / B2R w = S * (W * / B2R w)) by (unfold S; field; lra).
  assert (SWB : 2 / B2R w <= 1002 / 1000 * S) by (rewrite SW; assert (S * (W * / B2R w) <= S * (1002 / 1000)) by (apply Rmult_le_compat_l; lra); lra).
  assert (SWP : 0 <= 2 / B2R w) by (unfold Rdiv; lra).
  assert (S2 : S <= 2). { unfold S. apply Rmult_le_reg_r with W; [lra|]. replace (2 / W * W) with 2 by (field; lra). lra. }
  destruct (fdiv_rnd (fofZ 2) w 3 F2 ltac:(lra) ltac:(lia)) as [VS FS]; [rewrite V2, Rabs_pos_eq, <- room8; lra|]. rewrite V2 in VS. split; [exact FS|]. split; [|split; lra].
  pose proof (rnd_err (2 / B2R w)) as RS. rewrite <- VS, (Rabs_pos_eq (2 / B2R w)) in RS by lra. set (sv := B2R (fdiv (fofZ 2) w)) in *.
  assert (E1 : Rabs (2 / B2R w - S) <= 406 / 100 * u * S).
  { replace (2 / B2R w - S) with (S * (- (B2R w - W) * / B2R w)) by (unfold S; field; lra). rewrite !Rabs_mult, Rabs_Ropp, (Rabs_pos_eq S), (Rabs_pos_eq (/ B2R w)) by lra.
    assert (Rabs (B2R w - W) * / B2R w <= 405 / 100 * (u * W) * / B2R w) by (apply Rmult_le_compat_r; lra).
    assert (u * (W * / B2R w) <= u * (1002 / 1000)) by (apply Rmult_le_compat_l; lra).
    assert (S * (Rabs (B2R w - W) * / B2R w) <= S * (406 / 100 * u)) by (apply Rmult_le_compat_l; lra). lra. }
  assert (ET : eta <= 1 / 1000 * u * S).
  { assert (SB : bpow radix2 (-600) <= S).
    { unfold S. apply Rmult_le_reg_r with W; [lra|]. replace (2 / W * W) with 2 by (field; lra). apply Rle_trans with (bpow radix2 (-600) * BIG); [apply Rmult_le_compat_l; [apply bpow_ge_0|unfold W; lra]|].
      unfold BIG. rewrite <- bpow_plus. cbn. lra. }
    apply Rle_trans with (1 / 1000 * u * bpow radix2 (-600)); [|apply Rmult_le_compat_l; lra].
    rewrite UV. apply Rle_trans with (/ 10 ^ 20 * bpow radix2 (-600)); [|apply Rmult_le_compat_r; [apply bpow_ge_0|lra]].
    apply Rle_trans with (bpow radix2 (-100) * bpow radix2 (-600)); [rewrite <- bpow_plus; apply bpow_le; lia|]. apply Rmult_le_compat_r; [apply bpow_ge_0|]. replace (bpow radix2 (-100)) with (/ 1267650600228229401496703205376) by (cbn; lra). lra. }
  assert (u * (2 / B2R w) <= u * (1002 / 1000 * S)) by (apply Rmult_le_compat_l; lra).
  replace (sv - S) with ((sv - 2 / B2R w) + (2 / B2R w - S)) by ring. apply Rle_trans with (1 := Rabs_triang _ _). lra.
Qed.
Lemma er_entry s S i I g G Mg : is_finite s = true -> 0 <= S <= 2 -> Rabs (B2R s - S) <= 51 / 10 * u * S -> nr g G Mg (303 / 100) 8 -> S * Mg <= 3 -> ak i I 0 -> Rabs I <= 1 ->
  ak (fadd i (fmul s g)) (I + S * G) 33.
Proof.
  intros FS [S0 S2] SE (FG & GM & GE) SM AI I1. pose proof u_val as UV. pose proof u53_pos as UP. pose proof eta_pos as EP. pose proof eta_small as ES.
  pose proof (Rabs_pos G) as G0. assert (USM : u * (S * Mg) <= u * 3) by (apply Rmult_le_compat_l; lra). assert (SM0 : 0 <= S * Mg) by (apply Rmult_le_pos; lra).
  assert (UE : u * eta <= eta) by (rewrite <- (Rmult_1_l eta) at 2; apply Rmult_le_compat_r; lra). assert (UEP : 0 <= u * eta) by (apply Rmult_le_pos; lra).
  assert (SET : S * eta <= 2 * eta) by (apply Rmult_le_compat_r; lra). assert (USE : u * (S * eta) <= u * (2 * eta)) by (apply Rmult_le_compat_l; lra).
  assert (UM : u * Mg <= / 1000000 * Mg) by (apply Rmult_le_compat_r; lra).
  assert (GV : Rabs (B2R g) <= 1001 / 1000 * Mg + 8 * eta) by (replace (B2R g) with ((B2R g - G) + G) by ring; apply Rle_trans with (1 := Rabs_triang _ _); lra).
  assert (E1 : Rabs ((B2R s - S) * B2R g) <= 154 / 10 * u).
  { rewrite Rabs_mult. apply Rle_trans with (51 / 10 * u * S * (1001 / 1000 * Mg + 8 * eta)); [apply Rmult_le_compat; auto using Rabs_pos|]. lra. }
  assert (E2 : Rabs (S * (B2R g - G)) <= 91 / 10 * u).
  { rewrite Rabs_mult, (Rabs_pos_eq S) by lra. apply Rle_trans with (S * (303 / 100 * u * Mg + 8 * eta)); [apply Rmult_le_compat_l; lra|]. lra. }
  assert (E : Rabs (B2R s * B2R g - S * G) <= 246 / 10 * u).
  { replace (B2R s * B2R g - S * G) with ((B2R s - S) * B2R g + S * (B2R g - G)) by ring. apply Rle_trans with (1 := Rabs_triang _ _). lra. }
  assert (SG : Rabs (S * G) <= 3) by (rewrite Rabs_mult, (Rabs_pos_eq S) by lra; apply Rle_trans with (2 := SM); apply Rmult_le_compat_l; lra).
  assert (B : Rabs (B2R s * B2R g) <= 301 / 100). { apply Rabs_le_inv in E, SG. apply Rabs_le. rewrite UV in E. lra. }
  destruct (fmul_rnd s g 3 FS FG ltac:(lia)) as [VM FM]; [rewrite <- room8; lra|].
  assert (AM : ak (fmul s g) (S * G) 28) by (split; [exact FM|]; rewrite VM; apply Rle_trans with (1 := ap_rnd _ _ _ _ E B); lra).
  eapply ak_weaken; [apply (ak_add _ _ _ _ _ _ 4 AI AM); try (apply small_k; lra); lra|lra].
Qed.
Lemma er_close L p : lib_ok L -> finite3 p -> norm3 (val3 p) <= bpow radix2 290 -> close33 (fer_C L p) (er_C (val3 p)) (33 * u).
Proof.
  intros OK FP NU. destruct (er_scale L p OK FP NU) as (FS & SE & N0 & NB). cbv zeta in *. unfold fer_C, er_C. cbv zeta. set (s := fdiv (fofZ 2) (fadd fone (fdot3 L p))) in *. clearbody s.
  assert (DV : dot3 (val3 p) (val3 p) = B2R (fx p) * B2R (fx p) + B2R (fy p) * B2R (fy p) + B2R (fz p) * B2R (fz p)) by reflexivity.
  set (n2 := dot3 (val3 p) (val3 p)) in *. destruct FP as (FX & FY & FZ). clear OK NU. pose proof eta_pos as EP. pose proof u53_pos as UP.
  assert (W1 : 0 < 1 + n2) by lra. set (S := 2 / (1 + n2)) in *.
  assert (SV : S * (1 + n2) = 2) by (unfold S; field; lra).
  assert (S0 : 0 <= S) by (unfold S; apply Rmult_le_pos; [lra|left; now apply Rinv_0_lt_compat]). assert (S2 : S <= 2) by (assert (0 <= S * n2) by (apply Rmult_le_pos; lra); lra).
  assert (FN : forall v, is_finite v = true -> is_finite (fneg v) = true /\ B2R (fneg v) = - B2R v /\ Rabs (B2R (fneg v)) = Rabs (B2R v)).
  { intros v F. destruct (fneg_val v F) as [A B]. rewrite B, Rabs_Ropp. auto. }
  assert (AA : forall v : f64, Rabs (B2R v) * Rabs (B2R v) = B2R v * B2R v) by (intros v; rewrite <- Rabs_mult; apply Rabs_pos_eq; nra).
  assert (A2 : forall v w : f64, 2 * (Rabs (B2R v) * Rabs (B2R w)) <= B2R v * B2R v + B2R w * B2R w).
  { intros v w. rewrite <- (AA v), <- (AA w). set (a := Rabs (B2R v)). set (b := Rabs (B2R w)). pose proof (Rle_0_sqr (a - b)) as Z. unfold Rsqr in Z. lra. }
  assert (A1 : forall v : f64, 2 * Rabs (B2R v) <= 1 + B2R v * B2R v).
  { intros v. rewrite <- (AA v). set (a := Rabs (B2R v)). pose proof (Rle_0_sqr (a - 1)) as Z. unfold Rsqr in Z. lra. }
  assert (SQ : forall v : f64, 0 <= B2R v * B2R v) by (intros v; nra).
  assert (NZ : nr fzero 0 0 (202 / 100) 0).
  { split; [reflexivity|]. split; [rewrite Rabs_R0; lra|]. change (B2R fzero) with 0. rewrite Rminus_diag_eq, Rabs_R0 by reflexivity. lra. }
  assert (OFF : forall a b c, is_finite a = true -> is_finite b = true -> is_finite c = true -> B2R a * B2R a + B2R b * B2R b + B2R c * B2R c = n2 ->
    ak (fadd fzero (fmul s (fsub (fmul a b) c))) (0 + S * (B2R a * B2R b - B2R c)) 33).
  { intros a b c FA FB FC EN. pose proof (SQ a). pose proof (SQ b). pose proof (SQ c). pose proof (A2 a b). pose proof (A1 c).
    pose proof (nr_mul_exact a b FA FB ltac:(lra)) as M1. pose proof (nr_weaken _ _ _ _ _ _ (101 / 100) 0 (nr_exact c FC) (Rle_refl _) ltac:(lra) ltac:(lra) ltac:(lra)) as M2.
    pose proof (nr_sub _ _ _ _ _ _ _ _ _ M1 M2 ltac:(lra) ltac:(lra) ltac:(lra) ltac:(lra) ltac:(lra)) as M3.
    apply (er_entry s S fzero 0 _ _ (Rabs (B2R a) * Rabs (B2R b) + Rabs (B2R c))); auto using ak_zero.
    - eapply nr_weaken; [exact M3|lra|lra|lra|lra].
    - assert (S * (Rabs (B2R a) * Rabs (B2R b) + Rabs (B2R c)) <= S * (1 + n2)) by (apply Rmult_le_compat_l; lra). lra.
    - rewrite Rabs_R0. lra. }
  assert (DG : forall a b c : f64, is_finite a = true -> is_finite b = true -> B2R a * B2R a + B2R b * B2R b + B2R c * B2R c = n2 ->
    ak (fadd fone (fmul s (fsub (fadd (fmul (fneg a) a) (fmul b (fneg b))) fzero))) (1 + S * (- B2R a * B2R a + B2R b * - B2R b - 0)) 33).
  { intros a b c FA FB EN. pose proof (SQ a). pose proof (SQ b). pose proof (SQ c). destruct (FN a FA) as (FA' & VA & RA). destruct (FN b FB) as (FB' & VB & RB).
    pose proof (nr_mul_exact (fneg a) a FA' FA) as M1. rewrite RA, AA, VA in M1. specialize (M1 ltac:(lra)). pose proof (nr_mul_exact b (fneg b) FB FB') as M2. rewrite RB, AA, VB in M2. specialize (M2 ltac:(lra)).
    pose proof (nr_add _ _ _ _ _ _ _ _ _ M1 M2 ltac:(lra) ltac:(lra) ltac:(lra) ltac:(lra) ltac:(lra)) as M3.
    assert (M3' : nr (fadd (fmul (fneg a) a) (fmul b (fneg b))) (- B2R a * B2R a + B2R b * - B2R b) (B2R a * B2R a + B2R b * B2R b) (202 / 100) 6) by (eapply nr_weaken; [exact M3|lra|lra|lra|lra]).
    pose proof (nr_sub _ _ _ _ _ _ _ _ _ M3' NZ ltac:(lra) ltac:(lra) ltac:(lra) ltac:(lra) ltac:(lra)) as M4.
    apply (er_entry s S fone 1 _ _ (B2R a * B2R a + B2R b * B2R b)); auto using ak_one.
    - eapply nr_weaken; [exact M4|lra|lra|lra|lra].
    - assert (S * (B2R a * B2R a + B2R b * B2R b) <= S * (1 + n2)) by (apply Rmult_le_compat_l; lra). lra.
    - rewrite Rabs_pos_eq; lra. }
  destruct (FN _ FX) as (FX' & VX & _), (FN _ FY) as (FY' & VY & _), (FN _ FZ) as (FZ' & VZ & _).
  assert (NN : forall v : f64, - B2R v * - B2R v = B2R v * B2R v) by (intros; ring).
  apply ak_close; unfold fm3; cbn [fr0 fr1 fr2 fx fy fz].
  - eapply ak_eq; [apply (DG _ _ (fx p)); try assumption; lra|]. unfold val3. vunfold. unfold crossMx. vunfold. ring.
  - eapply ak_eq; [apply OFF; try assumption; rewrite ?VZ, ?NN; lra|]. rewrite VZ. unfold val3. vunfold. unfold crossMx. vunfold. ring.
  - eapply ak_eq; [apply OFF; try assumption; lra|]. unfold val3. vunfold. unfold crossMx. vunfold. ring.
  - eapply ak_eq; [apply OFF; try assumption; lra|]. unfold val3. vunfold. unfold crossMx. vunfold. ring.
  - eapply ak_eq; [apply (DG _ _ (fy p)); try assumption; lra|]. unfold val3. vunfold. unfold crossMx. vunfold. ring.
  - eapply ak_eq; [apply OFF; try assumption; rewrite ?VX, ?NN; lra|]. rewrite VX. unfold val3. vunfold. unfold crossMx. vunfold. ring.
  - eapply ak_eq; [apply OFF; try assumption; rewrite ?VY, ?NN; lra|]. rewrite VY. unfold val3. vunfold. unfold crossMx. vunfold. ring.
  - eapply ak_eq; [apply OFF; try assumption; lra|]. unfold val3. vunfold. unfold crossMx. vunfold. ring.
  - eapply ak_eq; [apply (DG _ _ (fz p)); try assumption; lra|]. unfold val3. vunfold. unfold crossMx. vunfold. ring.
Qed.

(** ** how far from orthonormal such a matrix is; the products below are exact *)
Definition nearly_orthonormal (A : FM3) (b : R) : Prop :=
  let r i := val3 (match i with O => fr0 A | S O => fr1 A | _ => fr2 A end) in
  forall i j, (i < 3)%nat -> (j < 3)%nat -> Rabs (dot3 (r i) (r j) - if Nat.eqb i j then 1 else 0) <= b.
Lemma rows_near a a' v w b x : close3 a v b -> close3 a' w b -> dot3 v v = 1 -> dot3 w w = 1 -> dot3 v w = x -> b <= 1 / 100 -> Rabs (dot3 (val3 a) (val3 a') - x) <= 35 / 10 * b.
Proof.
  intros (_ & X1 & X2 & X3) (_ & Y1 & Y2 & Y3) V W VW B.
  assert (B0 : 0 <= b) by (pose proof (Rabs_pos (B2R (fx a) - vx v)); lra).
  set (E := sub3 (val3 a) v). set (F := sub3 (val3 a') w).
  assert (SN : forall e, Rabs (vx e) <= b -> Rabs (vy e) <= b -> Rabs (vz e) <= b -> norm3 e <= 1733 / 1000 * b).
  { intros e H1 H2 H3. apply Rabs_le_inv in H1, H2, H3. unfold norm3. apply Rle_trans with (sqrt ((1733 / 1000 * b) * (1733 / 1000 * b))); [|rewrite sqrt_square by lra; lra].
    apply sqrt_le_1_alt. unfold dot3. assert (vx e * vx e <= b * b) by nra. assert (vy e * vy e <= b * b) by nra. assert (vz e * vz e <= b * b) by nra. assert (0 <= b * b) by nra. lra. }
  assert (EN : norm3 E <= 1733 / 1000 * b) by (apply SN; assumption). assert (FN : norm3 F <= 1733 / 1000 * b) by (apply SN; assumption).
  assert (NV : norm3 v = 1) by (unfold norm3; rewrite V; apply sqrt_1). assert (NW : norm3 w = 1) by (unfold norm3; rewrite W; apply sqrt_1).
  pose proof (cauchy3 v F) as C1. pose proof (cauchy3 E w) as C2. pose proof (cauchy3 E F) as C3. rewrite NV in C1. rewrite NW in C2. pose proof (norm3_pos E) as E0. pose proof (norm3_pos F) as F0.
  assert (EF : norm3 E * norm3 F <= 1733 / 1000 * b * (1733 / 1000 * b)) by (apply Rmult_le_compat; lra).
  assert (BB : b * b <= 1 / 100 * b) by (apply Rmult_le_compat_r; lra).
  replace (dot3 (val3 a) (val3 a') - x) with (dot3 v F + (dot3 E w + dot3 E F)).
  { apply Rle_trans with (1 := Rabs_triang _ _). pose proof (Rabs_triang (dot3 E w) (dot3 E F)). lra. }
  rewrite <- VW. unfold E, F. generalize (val3 a) (val3 a'). intros p q. vring.
Qed.
Lemma rotation_rows M : is_rotation M -> let r i := match i with O => r30 M | S O => r31 M | _ => r32 M end in forall i j, (i < 3)%nat -> (j < 3)%nat -> dot3 (r i) (r j) = if Nat.eqb i j then 1 else 0.
Proof.
  intros ((H & _) & _). destruct M as [[a b c] [d e f] [g h k]]. revert H. unfold dot3. vunfold. intros H. injection H as H1 H2 H3 H4 H5 H6 H7 H8 H9.
  intros i j I J. destruct i as [|[|[|]]]; [| | |lia]; (destruct j as [|[|[|]]]; [| | |lia]); cbn [Nat.eqb vx vy vz r30 r31 r32]; lra.
Qed.
Lemma close_orthonormal A M b : is_rotation M -> close33 A M b -> b <= 1 / 100 -> nearly_orthonormal A (35 / 10 * b).
Proof.
  intros RM (C0 & C1 & C2) B. unfold nearly_orthonormal. cbv zeta. intros i j I J. pose proof (rotation_rows M RM) as RR. cbv zeta in RR.
  pose proof (RR 0 0 ltac:(lia) ltac:(lia))%nat as R00. pose proof (RR 1 1 ltac:(lia) ltac:(lia))%nat as R11. pose proof (RR 2 2 ltac:(lia) ltac:(lia))%nat as R22. cbn [Nat.eqb] in R00, R11, R22.
  pose proof (RR i j I J) as RIJ.
  destruct i as [|[|[|]]]; [| | |lia]; (destruct j as [|[|[|]]]; [| | |lia]); cbn [Nat.eqb] in *; eapply rows_near; eassumption.
Qed.

(** ** C139: the theorems *)
(** every triple of angles, of any size: the matrix is, coefficient by coefficient, within 16 roundings of the product of the three principal rotations *)
Theorem float_euler_matrices L p : lib_ok L -> finite3 p -> let a := B2R (fx p) in let b := B2R (fy p) in let c := B2R (fz p) in
  close33 (frph2R L (fx p) (fy p) (fz p)) (mm3 (Rz c) (mm3 (Ry b) (Rx a))) (16 * u) /\
  close33 (frph2C L (fx p) (fy p) (fz p)) (mm3 (Cz c) (mm3 (Cy b) (Cx a))) (16 * u) /\
  close33 (fzyx_C L p) (mm3 (Cz a) (mm3 (Cy b) (Cx c))) (16 * u) /\
  close33 (fypr_C L p) (mm3 (Rz a) (mm3 (Ry b) (Rx c))) (16 * u) /\
  close33 (fzxy_C L p) (mm3 (Rz a) (mm3 (Rx b) (Ry c))) (16 * u) /\
  (forall M, In M [frph2R L (fx p) (fy p) (fz p); frph2C L (fx p) (fy p) (fz p); fzyx_C L p; fypr_C L p; fzxy_C L p] -> nearly_orthonormal M (56 * u)).
Proof.
  intros OK FP a b c. pose proof FP as (FX & FY & FZ). pose proof (rph2R_close L _ _ _ OK FX FY FZ) as C1. pose proof (rph2C_close L _ _ _ OK FX FY FZ) as C2.
  pose proof (zyx_C_close L p OK FP) as C3. pose proof (ypr_C_close L p OK FP) as C4. pose proof (zxy_C_close L p OK FP) as C5.
  pose proof (rph2R_rotation (B2R (fx p)) (B2R (fy p)) (B2R (fz p))) as R1. pose proof (rph2C_rotation (B2R (fx p)) (B2R (fy p)) (B2R (fz p))) as R2.
  destruct (zyx_product (val3 p)) as [P3 R3]. destruct (ypr_product (val3 p)) as [P4 R4]. destruct (zxy_product (val3 p)) as [P5 R5].
  assert (S : 16 * u <= 1 / 100) by (rewrite u_val; lra).
  assert (N : forall A M, is_rotation M -> close33 A M (16 * u) -> nearly_orthonormal A (56 * u)).
  { intros A M RM CM. replace (56 * u) with (35 / 10 * (16 * u)) by field. now apply (close_orthonormal A M). }
  refine (conj _ (conj _ (conj _ (conj _ (conj _ _))))).
  - rewrite <- rph2R_product. exact C1.
  - rewrite <- rph2C_product. exact C2.
  - rewrite P3 in C3. exact C3.
  - rewrite P4 in C4. exact C4.
  - rewrite P5 in C5. exact C5.
  - intros M. cbn [In]. intros [<- | [<- | [<- | [<- | [<- | []]]]]]; eauto.
Qed.
Theorem float_principal_matrices L a : lib_ok L -> is_finite a = true ->
  close33 (fRx L a) (Rx (B2R a)) (3 * u) /\ close33 (fRy L a) (Ry (B2R a)) (3 * u) /\ close33 (fRz L a) (Rz (B2R a)) (3 * u) /\
  close33 (fCx L a) (Rx (- B2R a)) (3 * u) /\ close33 (fCy L a) (Ry (- B2R a)) (3 * u) /\ close33 (fCz L a) (Rz (- B2R a)) (3 * u).
Proof. intros OK F. destruct (principal_close L a OK F) as (A & B & C). destruct (principal_C_close L a OK F) as (D & E & G). auto 6. Qed.
(** rotation vectors: RotationVector to (100 + 9 |p|) roundings for every vector; axisAngle2R only down to 1e-12, below it the identity is returned *)
Lemma denotes_rotation p M : denotes p M -> is_rotation M.
Proof. intros (e & UE & _ & TM). apply turning_matrix in TM. subst M. now apply aa_rotation. Qed.
Theorem float_rotation_vector_matrix L p M : lib_ok L -> finite3 p -> norm3 (val3 p) <= 10 ^ 12 -> denotes (val3 p) M ->
  close33 (frv_C L p) M ((100 + 9 * norm3 (val3 p)) * u) /\ nearly_orthonormal (frv_C L p) ((350 + 32 * norm3 (val3 p)) * u).
Proof.
  intros OK FP N D. pose proof (rv_close L p M OK FP N D) as C. split; [exact C|]. pose proof u53_pos as UP. pose proof (norm3_pos (val3 p)) as N0.
  assert (B : (100 + 9 * norm3 (val3 p)) * u <= 1 / 100) by (apply Rle_trans with ((100 + 9 * 10 ^ 12) * u); [apply Rmult_le_compat_r; lra|rewrite u_val; lra]).
  pose proof (close_orthonormal _ _ _ (denotes_rotation _ _ D) C B) as O. unfold nearly_orthonormal. cbv zeta. intros i j I J. apply Rle_trans with (1 := O i j I J).
  assert (0 <= norm3 (val3 p) * u) by (apply Rmult_le_pos; lra). lra.
Qed.
Theorem float_axis_angle_matrix_partial L p M : lib_ok L -> finite3 p -> norm3 (val3 p) <= 10 ^ 12 -> denotes (val3 p) M ->
  close33 (faxisAngle2R L p) M ((50 + 9 * norm3 (val3 p)) * u + if Rle_dec (norm3 (val3 p)) (1001 / 1000 * / 10 ^ 12) then 1001 / 1000 * norm3 (val3 p) else 0).
Proof. exact (aa_close L p M). Qed.
(** Rodrigues parameters p: the rotation of the quaternion (p, 1) / sqrt (1 + p.p) *)
Theorem float_rodrigues_matrix L p : lib_ok L -> finite3 p -> norm3 (val3 p) <= bpow radix2 290 ->
  let q := scale4 (1 / sqrt (1 + dot3 (val3 p) (val3 p))) (cons4 (val3 p) 1) in
  unit4 q /\ close33 (fer_C L p) (quat2r q) (33 * u) /\ nearly_orthonormal (fer_C L p) (116 * u).
Proof.
  intros OK FP N q. destruct (er_quaternion (val3 p)) as [E U]. pose proof (er_close L p OK FP N) as C. split; [exact U|]. rewrite E in C. fold q in C, U. split; [exact C|].
  assert (RQ : is_rotation (quat2r q)) by (apply quat2r_rotation; exact U).
  pose proof (close_orthonormal _ _ _ RQ C ltac:(rewrite u_val; lra)) as O. unfold nearly_orthonormal. cbv zeta. intros i j I J. apply Rle_trans with (1 := O i j I J). pose proof u53_pos. lra.
Qed.
(** ... and on to the quaternion (r2quat): from angles to a stored rotation *)
Theorem float_euler_quaternion L p : lib_ok L -> finite3 p -> let a := B2R (fx p) in let b := B2R (fy p) in let c := B2R (fz p) in
  forall F M, (F = frph2R L (fx p) (fy p) (fz p) /\ M = mm3 (Rz c) (mm3 (Ry b) (Rx a))) \/ (F = fzyx_C L p /\ M = mm3 (Cz a) (mm3 (Cy b) (Cx c))) \/
              (F = fypr_C L p /\ M = mm3 (Rz a) (mm3 (Ry b) (Rx c))) \/ (F = fzxy_C L p /\ M = mm3 (Rz a) (mm3 (Rx b) (Ry c))) ->
  exists Q, unit4 Q /\ quat2r Q = M /\ dist4 (val4 (fr2quat F)) Q <= 126 * u /\ Rabs (norm4 (val4 (fr2quat F)) - 1) <= 126 * u.
Proof.
  intros OK FP a b c F M H. destruct (float_euler_matrices L p OK FP) as (C1 & _ & C3 & C4 & C5 & _).
  assert (K : is_rotation M /\ close33 F M (16 * u)).
  { destruct H as [[-> ->] | [[-> ->] | [[-> ->] | [-> ->]]]]; (split; [|assumption]).
    - unfold a, b, c. rewrite <- rph2R_product. apply rph2R_rotation.
    - destruct (zyx_product (val3 p)) as [P R]. rewrite P in R. exact R.
    - destruct (ypr_product (val3 p)) as [P R]. rewrite P in R. exact R.
    - destruct (zxy_product (val3 p)) as [P R]. rewrite P in R. exact R. }
  destruct K as [RM CM]. destruct (float_matrix_to_quaternion F M (16 * u) RM CM ltac:(rewrite u_val; lra)) as (_ & _ & N & (Q & UQ & EQ & DQ) & _).
  exists Q. repeat split; auto; [apply Rle_trans with (1 := DQ)|apply Rle_trans with (1 := N)]; pose proof u53_pos; lra.
Qed.
(** axisAngle2R is not accurate to a fixed number of roundings: for (2^-40, 0, 0) it returns exactly the identity, 8000 roundings away, where RotationVector is within 101 *)
Definition tiny_vector : F3 := mkF3 (flit 1 (-40)) fzero fzero.
Lemma tiny_vector_ok : finite3 tiny_vector /\ val3 tiny_vector = V3 (/ 1099511627776) 0 0 /\ norm3 (val3 tiny_vector) = / 1099511627776.
Proof.
  assert (V : B2R (flit 1 (-40)) = / 1099511627776) by (vm_compute; lra). assert (FV : is_finite (flit 1 (-40)) = true) by (vm_compute; reflexivity). destruct zero_val as [VZ FZ].
  split; [repeat split; assumption|]. assert (E : val3 tiny_vector = V3 (/ 1099511627776) 0 0) by (unfold val3, tiny_vector; cbn [fx fy fz]; now rewrite V, VZ). split; [exact E|]. rewrite E. apply norm3_x. lra.
Qed.
Theorem float_axis_angle_matrix_refuted : exists p M, finite3 p /\ denotes (val3 p) M /\
  forall L, lib_ok L -> ~ close33 (faxisAngle2R L p) M (8000 * u) /\ close33 (frv_C L p) M (101 * u).
Proof.
  destruct tiny_vector_ok as (F & E & N). set (n := / 1099511627776) in *.
  exists tiny_vector, (aa_entries 1 0 0 (sin n) (cos n)). split; [exact F|].
  assert (D : denotes (val3 tiny_vector) (aa_entries 1 0 0 (sin n) (cos n))).
  { exists ex. split; [unfold unit3, dot3, ex; cbn [vx vy vz]; ring|]. rewrite N, E. split; [unfold ex; vring|]. intros v. exact (aa_turned ex n v). }
  split; [exact D|]. intros L OK. split.
  - assert (I : faxisAngle2R L tiny_vector = fidentity).
    { unfold faxisAngle2R. assert (T : fltb (fsqrt (fadd (fadd (fmul (fx tiny_vector) (fx tiny_vector)) (fmul (fy tiny_vector) (fy tiny_vector))) (fmul (fz tiny_vector) (fz tiny_vector)))) f1em12 = true) by (vm_compute; reflexivity).
      cbv zeta. rewrite T. reflexivity. }
    rewrite I. intros (_ & (_ & _ & _ & H) & _). unfold fidentity, fm3, aa_entries, m3 in H. cbn [fr1 fz r31 vz] in H. change (B2R fzero) with 0 in H.
    destruct (sin_cubic n ltac:(unfold n; lra)) as [SL SU]. replace (0 - (0 * 0 - cos n * 0 * 0 + sin n * 1)) with (- sin n) in H by ring. rewrite Rabs_Ropp in H.
    apply Rabs_le_inv in H. rewrite u_val in H. assert (n * n * n <= n / 1000000) by (replace (n / 1000000) with (n * (1 / 1000000)) by field; rewrite Rmult_assoc; apply Rmult_le_compat_l; unfold n; lra).
    assert (n ^ 3 = n * n * n) by ring. unfold n in *. lra.
  - eapply close33_weaken; [apply (rv_close L _ _ OK F); [rewrite N; unfold n; lra|exact D]|]. rewrite N. pose proof u53_pos. apply Rmult_le_compat_r; [lra|unfold n; lra].
Qed.

(** *** the hypotheses are met *)
Example ex_angles : finite3 ex_rotation /\ lib_ok rounded_lib /\ norm3 (val3 ex_rotation) <= 10 ^ 12 /\ norm3 (val3 ex_rotation) <= bpow radix2 290.
Proof.
  split; [apply ex_rotation_ok|]. split; [exact rounded_lib_ok|].
  assert (N : norm3 (val3 ex_rotation) <= 6).
  { assert (V1 : B2R (fofZ 3) = 3) by (vm_compute; lra). assert (V2 : B2R (fneg (fofZ 1)) = -1) by (vm_compute; lra). assert (V3 : B2R fhalf = 1 / 2) by apply fhalf_correct.
    replace 6 with (2 * 3) by ring. apply norm3_le; unfold val3, ex_rotation; cbn [fx fy fz vx vy vz]; rewrite ?V1, ?V2, ?V3; try lra; unfold Rabs; destruct (Rcase_abs _); lra. }
  pose proof room12. lra.
Qed.
Example ex_denotes : forall p, exists M, denotes p M.
Proof.
  intros p. destruct (Req_dec (norm3 p) 0) as [Z|NZ].
  - exists I3. exists ex. split; [unfold unit3, dot3, ex; cbn [vx vy vz]; ring|]. rewrite Z. assert (P : p = zero3).
    { pose proof (norm3_sq p) as NS. rewrite Z in NS. unfold dot3 in NS. destruct p as [x y z]. cbn [vx vy vz] in NS. assert (x = 0) by nra. assert (y = 0) by nra. assert (z = 0) by nra. subst. reflexivity. }
    split; [rewrite P; unfold ex; vring|]. intros v. unfold Kin_Rot_Props.turned. rewrite Ropp_0, cos_0, sin_0. vring.
  - pose proof (norm3_pos p). eexists. exists (scale3 (1 / norm3 p) p). split; [|split].
    + unfold unit3. replace (dot3 (scale3 (1 / norm3 p) p) (scale3 (1 / norm3 p) p)) with (1 / norm3 p * (1 / norm3 p) * dot3 p p) by (unfold dot3, scale3; cbn [vx vy vz]; ring). rewrite <- norm3_sq. field. lra.
    + destruct p as [x y z]. set (n := norm3 _) in *. unfold scale3. cbn [vx vy vz]. f_equal; field; lra.
    + intros v. apply aa_turned.
Qed.
