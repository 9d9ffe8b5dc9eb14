(** C79, C80: covariances of uncertain transformations, points and vectors. *)
From Verif Require Import LinAlg DenseN Kin_Rot_Model Kin_Quat_Model Kin_Rot_Props Kin_Quat_Props Kin_Trans_Model Kin_Trans_Props Kin_Hom_Props Kin_Unc_Model.
Import ListNotations.
Open Scope R_scope.

(** ** specification: a covariance matrix is symmetric and positive semidefinite *)
Definition cov3 (U : mat3) : Prop := tr3 U = U /\ forall x, 0 <= dot3 x (mv3 U x).
Definition cov4 (U : mat4) : Prop := tr4 U = U /\ forall x, 0 <= dot4 x (mv4 U x).
Definition cov6 (U : mat6) : Prop := tr6 U = U /\ forall x, 0 <= dot6 x (mv6 U x).

(** ** M U M^T *)
Definition tr46v (M : mat46) (x : vec4) : vec6 := V6 (V3 (dot4 (col43 (l46 M) 0) x) (dot4 (col43 (l46 M) 1) x) (dot4 (col43 (l46 M) 2) x)) (V3 (dot4 (col43 (h46 M) 0) x) (dot4 (col43 (h46 M) 1) x) (dot4 (col43 (h46 M) 2) x)).
Lemma cov4_sandwich M U : cov4 U -> cov4 (mm4 (mm4 M U) (tr4 M)).
Proof. intros [S P]. split. rewrite !tr4_mm, tr4_tr, S, mm4_assoc. auto. intros x. rewrite !mv4_mm. rewrite <- (tr4_tr M) at 1. rewrite <- dot4_tr. apply P. Qed.
Lemma cov3_sandwich M U : cov3 U -> cov3 (mm3 (mm3 M U) (tr3 M)).
Proof. intros [S P]. split. rewrite !tr3_mm, tr3_tr, S, mm3_assoc. auto. intros x. rewrite !mv3_mm. rewrite <- (tr3_tr M) at 1. rewrite <- dot3_tr. apply P. Qed.
Lemma cov6_sandwich M U : cov6 U -> cov6 (mm6 (mm6 M U) (tr6 M)).
Proof. intros [S P]. split. rewrite !tr6_mm, tr6_tr, S, mm6_assoc. auto. intros x. rewrite !mv6_mm. rewrite <- (tr6_tr M) at 1. rewrite <- dot6_tr. apply P. Qed.
Lemma cov4_add A B : cov4 A -> cov4 B -> cov4 (madd4 A B).
Proof. intros [S P] [T Q]. split. rewrite tr4_add, S, T. auto. intros x. specialize (P x). specialize (Q x). replace (dot4 x (mv4 (madd4 A B) x)) with (dot4 x (mv4 A x) + dot4 x (mv4 B x)) by (clear; vring). lra. Qed.
Lemma cov6_add A B : cov6 A -> cov6 B -> cov6 (madd6 A B).
Proof.
  intros [S P] [T Q]. split. rewrite tr6_add, S, T. auto. intros x. specialize (P x). specialize (Q x). rewrite mv6_add.
  replace (dot6 x (add6 (mv6 A x) (mv6 B x))) with (dot6 x (mv6 A x) + dot6 x (mv6 B x)). lra. generalize (mv6 A x) (mv6 B x). clear. intros [a b] [c d]. destruct x as [e f]. unfold dot6, add6. cbn [hi6 lo6]. vring.
Qed.
Lemma cov4_zero : cov4 Z4. Proof. split. vring. intros x. replace (dot4 x (mv4 Z4 x)) with 0 by vring. lra. Qed.
Lemma cov6_zero : cov6 Z6.
Proof. split. unfold tr6, Z6. cbn [b11 b12 b21 b22]. f_equal; vring. intros [x y]. replace (dot6 (V6 x y) (mv6 Z6 (V6 x y))) with 0. lra. unfold dot6, mv6, Z6. cbn [b11 b12 b21 b22 hi6 lo6]. vring. Qed.
Lemma cov34_sandwich M U : cov4 U -> cov3 (mm34t (mm34_4 M U) M).
Proof.
  intros [S P]. split.
  - rewrite <- S at 2. destruct M as [[a0 a1 a2 a3] [c0 c1 c2 c3] [d0 d1 d2 d3]]. destruct U as [[m00 m01 m02 m03] [m10 m11 m12 m13] [m20 m21 m22 m23] [m30 m31 m32 m33]].
    unfold mm34t, mm34_4. cbn [u0 u1 u2]. vunfold. veq; ring.
  - intros x. set (y := mv4 (tr4 (M4 (u0 M) (u1 M) (u2 M) zero4)) (cons4 x 0)). replace (dot3 x (mv3 (mm34t (mm34_4 M U) M) x)) with (dot4 y (mv4 U y)). apply P.
    unfold y. clear. destruct M as [[a0 a1 a2 a3] [c0 c1 c2 c3] [d0 d1 d2 d3]]. destruct U as [[m00 m01 m02 m03] [m10 m11 m12 m13] [m20 m21 m22 m23] [m30 m31 m32 m33]]. destruct x as [p q r].
    unfold mm34t, mm34_4. cbn [u0 u1 u2]. vunfold. ring.
Qed.
Lemma cov43_sandwich M U : cov3 U -> cov4 (mm43t (mm43_3 M U) M).
Proof.
  intros [S P]. split.
  - rewrite <- S at 2. destruct M as [[a0 a1 a2] [c0 c1 c2] [d0 d1 d2] [f0 f1 f2]]. destruct U as [[m00 m01 m02] [m10 m11 m12] [m20 m21 m22]].
    unfold mm43t, mm43_3. cbn [s0 s1 s2 s3]. vunfold. veq; ring.
  - intros x. set (y := V3 (dot4 (col43 M 0) x) (dot4 (col43 M 1) x) (dot4 (col43 M 2) x)). replace (dot4 x (mv4 (mm43t (mm43_3 M U) M) x)) with (dot3 y (mv3 U y)). apply P.
    unfold y. clear. destruct M as [[a0 a1 a2] [c0 c1 c2] [d0 d1 d2] [f0 f1 f2]]. destruct U as [[m00 m01 m02] [m10 m11 m12] [m20 m21 m22]]. destruct x as [p q r t].
    unfold mm43t, mm43_3, col43. cbn [s0 s1 s2 s3]. vunfold. ring.
Qed.
Ltac d43 M := destruct M as [[? ? ?] [? ? ?] [? ? ?] [? ? ?]].
Ltac g43 := intros; repeat match goal with M : mat43 |- _ => d43 M end; vdestruct; unfold mm43t, mm43_3, madd43, mv43, col43; cbn [s0 s1 s2 s3]; vunfold; repeat match goal with |- M43 _ _ _ _ = M43 _ _ _ _ => f_equal end; veq; ring.
Lemma tr_mm43t A B : tr4 (mm43t A B) = mm43t B A. Proof. g43. Qed.
Lemma mm43t_move A B N : mm43t A (mm43_3 B N) = mm43t (mm43_3 A (tr3 N)) B. Proof. g43. Qed.
Lemma mm43t_add_l A B C : mm43t (madd43 A B) C = madd4 (mm43t A C) (mm43t B C). Proof. g43. Qed.
Lemma mm43t_add_r A B C : mm43t C (madd43 A B) = madd4 (mm43t C A) (mm43t C B). Proof. g43. Qed.
Lemma mv_mm43t A B x : mv4 (mm43t A B) x = mv43 A (V3 (dot4 (col43 B 0) x) (dot4 (col43 B 1) x) (dot4 (col43 B 2) x)). Proof. g43. Qed.
Lemma mv_mm43_3 A N v : mv43 (mm43_3 A N) v = mv43 A (mv3 N v). Proof. g43. Qed.
Lemma mv43_madd A B v : mv43 (madd43 A B) v = add4 (mv43 A v) (mv43 B v). Proof. g43. Qed.
Lemma mv43_add A v w : mv43 A (add3 v w) = add4 (mv43 A v) (mv43 A w). Proof. g43. Qed.
Lemma dot_mv43 A x v : dot4 x (mv43 A v) = dot3 (V3 (dot4 (col43 A 0) x) (dot4 (col43 A 1) x) (dot4 (col43 A 2) x)) v. Proof. g43. Qed.
Lemma madd4_perm a b c d : madd4 (madd4 a b) (madd4 c d) = madd4 (madd4 a c) (madd4 b d). Proof. vring. Qed.
Lemma add4_perm a b c d : add4 (add4 a b) (add4 c d) = add4 (add4 a c) (add4 b d). Proof. vring. Qed.
Lemma mv_mm46t A B x : mv4 (mm46t A B) x = mv46 A (tr46v B x).
Proof. unfold mm46t, mv46, tr46v. cbn [hi6 lo6]. rewrite <- !mv_mm43t. vring. Qed.
Lemma mv_mm46_6 A N v : mv46 (mm46_6 A N) v = mv46 A (mv6 N v).
Proof. destruct N as [n1 n2 n3 n4], v as [v1 v2]. unfold mm46_6, mv46, mv6. cbn [l46 h46 hi6 lo6 b11 b12 b21 b22]. rewrite !mv43_madd, !mv_mm43_3, !mv43_add. apply add4_perm. Qed.
Lemma dot_mv46 A x v : dot4 x (mv46 A v) = dot6 (tr46v A x) v.
Proof. unfold mv46, tr46v, dot6. cbn [hi6 lo6]. rewrite <- !dot_mv43. vring. Qed.
Lemma tr_mm46t A B : tr4 (mm46t A B) = mm46t B A. Proof. unfold mm46t. rewrite tr4_add, !tr_mm43t. auto. Qed.
Lemma mm46t_move A B N : mm46t A (mm46_6 B N) = mm46t (mm46_6 A (tr6 N)) B.
Proof. destruct N as [n1 n2 n3 n4]. unfold mm46t, mm46_6, tr6. cbn [l46 h46 b11 b12 b21 b22]. rewrite !mm43t_add_r, !mm43t_add_l, !mm43t_move. apply madd4_perm. Qed.
Lemma cov46_sandwich J U : cov6 U -> cov4 (mm46t (mm46_6 J U) J).
Proof. intros [S P]. split. rewrite tr_mm46t, mm46t_move, S. auto. intros x. rewrite mv_mm46t, mv_mm46_6, dot_mv46. apply P. Qed.
Lemma cov6_diag a b : 0 <= a -> 0 <= b -> cov6 (diag_cov a b).
Proof.
  intros A B. split. unfold diag_cov, tr6. cbn [b11 b12 b21 b22]. f_equal; vring. intros [[x y z] [p q r]].
  replace (dot6 _ _) with (a * (x * x + y * y + z * z) + b * (p * p + q * q + r * r)). nra. unfold dot6, mv6, diag_cov. cbn [hi6 lo6 b11 b12 b21 b22]. vunfold. ring.
Qed.
Lemma cov4_embed U : cov3 U -> cov4 (embed3 U).
Proof.
  intros [S P]. split. { rewrite <- S at 2. unfold embed3. vring. } intros x. replace (dot4 x (mv4 (embed3 U) x)) with (dot3 (head3 x) (mv3 U (head3 x))). apply P. unfold embed3. clear. vring.
Qed.

(** ** C79: covariances stay covariances *)
Theorem uh_constructors_cov p q U3 U4 : cov3 U3 -> cov4 U4 ->
  cov4 (uh_U uh_zero) /\ cov4 (uh_U (uh_of_euclidean p)) /\ cov4 (uh_U (uh_certain q)) /\ cov4 (uh_U (uh_of_euclideanU p U3)) /\ cov4 (uh_U (uh_make q U4)).
Proof. intros A B. repeat split; try apply cov4_zero; try (apply cov4_embed; auto); apply B. Qed.
Theorem uh_ops_cov x y q : cov4 (uh_U x) -> cov4 (uh_U y) ->
  cov4 (uh_U (uh_add_hp x q)) /\ cov4 (uh_U (uh_sub_hp x q)) /\ cov4 (uh_U (hp_add_uh q y)) /\ cov4 (uh_U (hp_sub_uh q y)) /\ cov4 (uh_U (uh_add x y)) /\ cov4 (uh_U (uh_sub x y)).
Proof.
  intros A B. assert (C : cov4 (uh_plus_cov x y)) by (apply cov4_add; apply cov4_sandwich; auto). repeat (split; [assumption|]). assumption.
Qed.
Theorem uh_U3_cov x U : cov4 (uh_U x) -> uh_U3 x = Some U -> cov3 U.
Proof. intros A. unfold uh_U3. destruct (fromHomogeneousJacobian (uh_p x)) as [J|]; intros E; inversion E. apply cov34_sandwich. auto. Qed.
Theorem uh_U_av_form_cov x U : cov4 (uh_U x) -> uh_U_av_form x = Some U -> cov3 U.
Proof. intros A. unfold uh_U_av_form. destruct (near_unit (uh_p x)); intros E; inversion E. apply cov34_sandwich. auto. Qed.
Theorem uh_setUOplus_cov x U y : cov3 U -> uh_setUOplus x U = Some y -> uh_p y = uh_p x /\ cov4 (uh_U y).
Proof. intros A. unfold uh_setUOplus. destruct (near_unit (uh_p x)); intros E; inversion E. split; auto. apply cov43_sandwich. auto. Qed.
Theorem uh_normalize_cov x y : cov4 (uh_U x) -> uh_normalize x = Some y -> cov4 (uh_U y) /\ unit4 (uh_p y) /\ hp_normalize (uh_p x) = Some (uh_p y).
Proof.
  intros A. unfold uh_normalize, normalizeAndJacobian4, hp_normalize. destruct (Req_EM_T (norm4 (uh_p x)) 0) as [|N]; intros E; inversion E. clear E. cbn [uh_U uh_p]. split; [apply cov4_sandwich; auto|]. split; auto.
  unfold unit4. replace (dot4 (scale4 (1 / norm4 (uh_p x)) (uh_p x)) (scale4 (1 / norm4 (uh_p x)) (uh_p x))) with (1 / norm4 (uh_p x) * (1 / norm4 (uh_p x)) * dot4 (uh_p x) (uh_p x)) by (generalize (1 / norm4 (uh_p x)); vring).
  rewrite <- norm4_sq. field. auto.
Qed.
Theorem ut_ops_cov x y a b f p q : cov6 (ut_U x) -> cov6 (ut_U y) -> cov4 (uh_U p) -> 0 <= a -> 0 <= b ->
  cov6 (ut_U (ut_certain f)) /\ cov6 (ut_U (ut_diag f a b)) /\ cov6 (ut_U (ut_mul x y)) /\ cov6 (ut_U (ut_inverse x)) /\ cov6 (ut_U (ut_mul_tf x f)) /\ cov6 (ut_U (tf_mul_ut f y)) /\
  cov4 (uh_U (ut_act_uh x p)) /\ cov4 (uh_U (ut_act_hp x q)) /\ cov4 (uh_U (tf_act_uh f p)).
Proof.
  intros A B C D E. split; [apply cov6_zero|]. split; [apply cov6_diag; auto|]. split; [apply cov6_add; [auto|apply cov6_sandwich; auto]|]. split; [apply cov6_sandwich; auto|]. split; [auto|].
  split; [apply cov6_sandwich; auto|]. split; [apply cov4_add; [apply cov46_sandwich|apply cov4_sandwich]; auto|]. split; [apply cov46_sandwich; auto|apply cov4_sandwich; auto].
Qed.
(** The constructors taking two variances: the first for the translation (rows and columns 0-2), the second for the rotation. *)
Theorem ut_diag_values f a b : ut_T (ut_diag f a b) = f /\ ut_U (ut_diag f a b) = M6 (m3 a 0 0 0 a 0 0 0 a) Z3 Z3 (m3 b 0 0 0 b 0 0 0 b).
Proof. split; reflexivity. Qed.
Theorem ut_setUOplus_cov x U : cov6 U -> cov6 (ut_U (ut_setUOplus x U)) /\ ut_T (ut_setUOplus x U) = ut_T x.
Proof. intros A. split; auto. apply cov6_sandwich. auto. Qed.
Theorem tf_rotate_uv_cov x v P : cov3 P -> cov3 (snd (tf_rotate_uv x v P)).
Proof. intros A. apply cov3_sandwich. auto. Qed.
(** a certain operand is an uncertain one with zero covariance *)
Lemma sandwich6_zero B : mm6 (mm6 B Z6) (tr6 B) = Z6.
Proof. destruct B as [a b c d]. unfold mm6, tr6, Z6. cbn [b11 b12 b21 b22]. rewrite !mm3_Z_r, !madd3_Z_l, !mm3_Z_l, !madd3_Z_l. auto. Qed.
Lemma madd6_Z_r A : madd6 A Z6 = A. Proof. destruct A as [a b c d]. unfold madd6, Z6. cbn [b11 b12 b21 b22]. rewrite !madd3_Z_r. auto. Qed.
Lemma madd6_Z_l A : madd6 Z6 A = A. Proof. destruct A as [a b c d]. unfold madd6, Z6. cbn [b11 b12 b21 b22]. rewrite !madd3_Z_l. auto. Qed.
Lemma mat4_ext A B : (forall v, mv4 A v = mv4 B v) -> A = B.
Proof.
  intros H. destruct A as [[a00 a01 a02 a03] [a10 a11 a12 a13] [a20 a21 a22 a23] [a30 a31 a32 a33]]. destruct B as [[c00 c01 c02 c03] [c10 c11 c12 c13] [c20 c21 c22 c23] [c30 c31 c32 c33]].
  pose proof (H (V4 1 0 0 0)) as H0. pose proof (H (V4 0 1 0 0)) as H1. pose proof (H (V4 0 0 1 0)) as H2. pose proof (H (V4 0 0 0 1)) as H3. clear H.
  unfold mv4, dot4 in *. cbn [r40 r41 r42 r43 e0 e1 e2 e3] in *. injection H0. injection H1. injection H2. injection H3. intros. f_equal; f_equal; lra.
Qed.
Lemma sandwich46_zero J : mm46t (mm46_6 J Z6) J = Z4.
Proof. apply mat4_ext. intros v. rewrite mv_mm46t, mv_mm46_6. replace (mv6 Z6 (tr46v J v)) with (V6 zero3 zero3). unfold mv46. cbn [hi6 lo6]. destruct J as [A B]. cbn [l46 h46]. g43. generalize (tr46v J v). intros [a b]. unfold mv6, Z6. cbn [b11 b12 b21 b22 hi6 lo6]. f_equal; vring. Qed.
Lemma madd4_Z_l A : madd4 Z4 A = A. Proof. vring. Qed.
Lemma madd4_Z_r A : madd4 A Z4 = A. Proof. vring. Qed.
Lemma sandwich4_zero T : mm4 (mm4 T Z4) (tr4 T) = Z4. Proof. vring. Qed.
Theorem certain_operands x y f p q :
  ut_mul_tf x f = ut_mul x (ut_certain f) /\ tf_mul_ut f y = ut_mul (ut_certain f) y /\ tf_act_uh f p = ut_act_uh (ut_certain f) p /\ ut_act_hp x q = ut_act_uh x (uh_certain q) /\
  uh_p (tf_act_uh f (uh_certain q)) = tf_actH f q /\ uh_U (tf_act_uh f (uh_certain q)) = Z4.
Proof.
  split; [unfold ut_mul_tf, ut_mul, ut_certain; cbn [ut_T ut_U]; rewrite sandwich6_zero, madd6_Z_r; auto|].
  split; [unfold tf_mul_ut, ut_mul, ut_certain; cbn [ut_T ut_U]; rewrite madd6_Z_l; auto|].
  split; [unfold tf_act_uh, ut_act_uh, ut_certain; cbn [ut_T ut_U]; rewrite sandwich46_zero, madd4_Z_l; auto|].
  split; [unfold ut_act_hp, ut_act_uh, uh_certain; cbn [uh_p uh_U]; rewrite sandwich4_zero, madd4_Z_r; auto|].
  split; [auto|]. unfold tf_act_uh, uh_certain. cbn [uh_U uh_p]. apply sandwich4_zero.
Qed.
(** composition and inversion form a group action including the covariances *)
Definition uvalid (x : utf) : Prop := valid (ut_T x).
Lemma sandwich6_assoc A B U : mm6 (mm6 A (mm6 (mm6 B U) (tr6 B))) (tr6 A) = mm6 (mm6 (mm6 A B) U) (tr6 (mm6 A B)).
Proof. rewrite tr6_mm, !mm6_assoc. auto. Qed.
Lemma sandwich6_add A U V : mm6 (mm6 A (madd6 U V)) (tr6 A) = madd6 (mm6 (mm6 A U) (tr6 A)) (mm6 (mm6 A V) (tr6 A)).
Proof. rewrite mm6_add_r, mm6_add_l. auto. Qed.
Lemma sandwich6_I U : mm6 (mm6 I6 U) (tr6 I6) = U. Proof. rewrite tr6_I, mm6_I_l, mm6_I_r. auto. Qed.
Lemma boxTimes_mul x y : valid x -> valid y -> boxTimes (tf_T (tf_mul x y)) = mm6 (boxTimes (tf_T x)) (boxTimes (tf_T y)).
Proof. intros A B. rewrite tf_mul_T, boxTimes_product by auto using tf_T_rigid. auto. Qed.
Lemma boxTimes_inv x : valid x -> mm6 (boxTimes (tf_T x)) (boxTimes (tf_T (tf_inverse x))) = I6 /\ mm6 (boxTimes (tf_T (tf_inverse x))) (boxTimes (tf_T x)) = I6.
Proof. intros A. rewrite tf_inverse_T by auto. apply boxTimes_inverse. auto using tf_T_rigid. Qed.
Lemma boxTimes_id : boxTimes (tf_T tf_identity) = I6.
Proof. rewrite tf_identity_T. unfold boxTimes, I6. f_equal; unfold crossMx; vring. Qed.
Lemma madd6_comm A B : madd6 A B = madd6 B A. Proof. destruct A as [a b c d], B as [e f g h]. unfold madd6. cbn [b11 b12 b21 b22]. f_equal; apply madd3_comm. Qed.
Theorem ut_group x y z : uvalid x -> uvalid y -> uvalid z ->
  ut_mul (ut_mul x y) z = ut_mul x (ut_mul y z) /\ ut_mul (ut_certain tf_identity) x = x /\ ut_mul x (ut_certain tf_identity) = x /\
  ut_inverse (ut_inverse x) = x /\ ut_inverse (ut_mul x y) = ut_mul (ut_inverse y) (ut_inverse x) /\ ut_T (ut_mul x (ut_inverse x)) = tf_identity /\ ut_U (ut_mul x (ut_inverse x)) = madd6 (ut_U x) (ut_U x).
Proof.
  unfold uvalid. destruct x as [X U], y as [Y V], z as [Z W]. cbn [ut_T]. intros A B C. destruct (tf_group X Y Z A B C) as (G1 & G2 & G3 & G4 & G5 & G6 & G7). destruct (boxTimes_inv X A) as [I1 I2]. destruct (boxTimes_inv Y B) as [J1 J2].
  destruct tf_valid as (_ & VM & VI & _). unfold ut_mul, ut_inverse, ut_certain. cbn [ut_T ut_U]. repeat (split; [|]).
  - rewrite G1. f_equal. rewrite boxTimes_mul by auto. rewrite sandwich6_add, sandwich6_assoc, madd6_assoc. auto.
  - rewrite G2, boxTimes_id, sandwich6_I, madd6_Z_l. auto.
  - rewrite G3, sandwich6_zero, madd6_Z_r. auto.
  - rewrite G6. f_equal. rewrite sandwich6_assoc, I1, sandwich6_I. auto.
  - rewrite G7. f_equal. rewrite boxTimes_mul by auto. rewrite sandwich6_add, !sandwich6_assoc. rewrite (mm6_assoc (boxTimes (tf_T (tf_inverse Y))) (boxTimes (tf_T (tf_inverse X))) (boxTimes (tf_T X))), I2, mm6_I_r, madd6_comm. auto.
  - auto.
  - rewrite sandwich6_assoc, I1, sandwich6_I. auto.
Qed.
Lemma boxMinus_boxTimes x p d : valid x -> mv46 (boxMinus (mv4 (tf_T x) p)) (mv6 (boxTimes (tf_T x)) d) = mv4 (tf_T x) (mv46 (boxMinus p) d).
Proof.
  intros V. pose proof (tf_T_rigid x V) as R. pose proof (boxTimes_adjoint (tf_T x) d R) as E. destruct (inverseTransform_rigid _ R) as (I1 & I2 & _). generalize dependent (inverseTransform (tf_T x)). intros N E I1 I2.
  rewrite !boxMinus_boxPlus, <- E, !mv4_mm, <- (mv4_mm N), I1, mv4_I. vring.
Qed.
Lemma act4_T x p : valid x -> tf_act4 x p = mv4 (tf_T x) p.
Proof. destruct p as [a b c w]. intros Z. apply (tf_act_T x (V3 a b c) w Z). Qed.
Lemma dot4_comm a b : dot4 a b = dot4 b a. Proof. vring. Qed.
Lemma dot6_tr' A v w : dot6 v (mv6 A w) = dot6 (mv6 (tr6 A) v) w.
Proof. rewrite dot6_tr, tr6_tr. auto. Qed.
Lemma add4_assoc a b c : add4 (add4 a b) c = add4 a (add4 b c). Proof. vring. Qed.
Theorem ut_action x y p : uvalid x -> uvalid y -> ut_act_uh (ut_mul x y) p = ut_act_uh x (ut_act_uh y p) /\ ut_act_uh (ut_certain tf_identity) p = p.
Proof.
  unfold uvalid. destruct tf_valid as (VI & VM & _). destruct x as [X U], y as [Y V], p as [q P]. cbn [ut_T]. intros A B. split.
  - unfold ut_act_uh, ut_mul. cbn [ut_T ut_U uh_p uh_U]. rewrite !act4_T, tf_mul_T, mv4_mm by auto. f_equal. apply mat4_ext. intros v.
    assert (AD : forall M N w, mv4 (madd4 M N) w = add4 (mv4 M w) (mv4 N w)) by vring. rewrite !AD, !mv4_mm, tr4_mm, mv4_mm, !AD, mv4_add, !mv4_mm.
    rewrite !mv_mm46t, !mv_mm46_6, mv6_add, !mv6_mm.
    assert (AL : forall M a b, mv46 M (add6 a b) = add4 (mv46 M a) (mv46 M b)). { intros M [a a'] [b b']. unfold mv46, add6. cbn [hi6 lo6]. rewrite !mv43_add. apply add4_perm. }
    rewrite AL, boxMinus_boxTimes by auto. rewrite add4_assoc. f_equal. f_equal. f_equal. f_equal. f_equal.
    (* the transposed identity *)
    assert (D : forall a b : vec6, (forall d, dot6 a d = dot6 b d) -> a = b).
    { clear. intros [[x y z] [p q r]] [[x' y' z'] [p' q' r']] H. unfold dot6, dot3 in H. cbn [hi6 lo6 vx vy vz] in H.
      pose proof (H (V6 (V3 1 0 0) zero3)). pose proof (H (V6 (V3 0 1 0) zero3)). pose proof (H (V6 (V3 0 0 1) zero3)). pose proof (H (V6 zero3 (V3 1 0 0))). pose proof (H (V6 zero3 (V3 0 1 0))). pose proof (H (V6 zero3 (V3 0 0 1))).
      cbn [hi6 lo6 vx vy vz zero3] in *. f_equal; f_equal; lra. }
    apply D. intros d. rewrite <- (dot6_tr' (boxTimes (tf_T X))).
    rewrite <- !dot_mv46, boxMinus_boxTimes by auto. rewrite <- (dot4_comm (mv4 _ _)), dot4_tr, dot4_comm. auto.
  - unfold ut_act_uh, ut_certain. cbn [ut_T ut_U uh_p uh_U]. rewrite act4_T, tf_identity_T, mv4_I, sandwich46_zero by auto. f_equal. rewrite madd4_Z_l. vring.
Qed.
(** the oplus form of the covariance.  Eigen's inverse() is any function returning the inverse of S and of its transpose if they have one. *)
Definition inverts6 (inv : mat6 -> mat6) (M : mat6) : Prop := forall N, mm6 M N = I6 -> mm6 N M = I6 -> inv M = N.
Lemma block_inverse A B : A = mopp3 B -> mm6 (M6 I3 A Z3 I3) (M6 I3 B Z3 I3) = I6.
Proof. intros ->. unfold mm6, I6. cbn [b11 b12 b21 b22]. rewrite !mm3_I_l, !mm3_I_r, !mm3_Z_l, !mm3_Z_r, !madd3_Z_l, !madd3_Z_r. f_equal. vring. Qed.
Theorem ut_UOplus_roundtrip inv x U : inverts6 inv (tf_S (ut_T x)) -> inverts6 inv (tr6 (tf_S (ut_T x))) ->
  ut_U (ut_setUOplus x (ut_UOplus inv x)) = ut_U x /\ ut_UOplus inv (ut_setUOplus x U) = U /\ (cov6 (ut_U x) -> cov6 (ut_UOplus inv x)).
Proof.
  destruct x as [[q t] V]. unfold ut_UOplus, ut_setUOplus, tf_S. cbn [ut_U ut_T tt]. intros H H'. set (S := M6 I3 (mopp3 (crossMx t)) Z3 I3). set (N := M6 I3 (crossMx t) Z3 I3).
  assert (E1 : mm6 S N = I6) by (apply block_inverse; auto). assert (E2 : mm6 N S = I6) by (apply block_inverse; generalize (crossMx t); vring).
  assert (F1 : mm6 (tr6 S) (tr6 N) = I6) by (rewrite <- tr6_mm, E2; apply tr6_I). assert (F2 : mm6 (tr6 N) (tr6 S) = I6) by (rewrite <- tr6_mm, E1; apply tr6_I).
  specialize (H N E1 E2). specialize (H' (tr6 N) F1 F2). fold S in H, H'. rewrite H, H'. split; [|split].
  - rewrite sandwich6_assoc, E1, sandwich6_I. auto.
  - rewrite sandwich6_assoc, E2, sandwich6_I. auto.
  - intros C. apply cov6_sandwich. auto.
Qed.
Lemma inverse6_unique A B C : mm6 A B = I6 -> mm6 C A = I6 -> B = C.
Proof. intros H K. rewrite <- (mm6_I_l B), <- K, mm6_assoc, H, mm6_I_r. auto. Qed.
Example inverts6_met x : exists inv, inverts6 inv (tf_S (ut_T x)) /\ inverts6 inv (tr6 (tf_S (ut_T x))).
Proof.
  exists (fun M => M6 I3 (mopp3 (b12 M)) (mopp3 (b21 M)) I3). destruct x as [[q t] V]. unfold tf_S, tr6. cbn [ut_T tt b11 b12 b21 b22]. rewrite tr3_I. split; intros N H K; symmetry; apply (inverse6_unique _ _ _ H); cbn [b12 b21].
  - unfold mm6, I6. cbn [b11 b12 b21 b22]. rewrite !mm3_I_l, !mm3_I_r, !mm3_Z_r, !madd3_Z_r. f_equal; generalize (crossMx t); vring.
  - unfold mm6, I6. cbn [b11 b12 b21 b22]. rewrite !mm3_I_l, !mm3_I_r. f_equal; generalize (crossMx t); vring.
Qed.
(** points: U_av_form reads back what setUOplus wrote; for a point only approximately on the sphere, scaled by |p|^4 *)
Theorem uh_UOplus_roundtrip x U y : uh_setUOplus x U = Some y -> uh_U_av_form y = Some (mscale3 (dot4 (uh_p x) (uh_p x) * dot4 (uh_p x) (uh_p x)) U).
Proof.
  unfold uh_setUOplus, uh_U_av_form. destruct (near_unit (uh_p x)) eqn:E; intros H; inversion H. cbn [uh_p uh_U]. rewrite E. f_equal. clear. destruct x as [[a b c d] V]. cbn [uh_p]. destruct U as [[m00 m01 m02] [m10 m11 m12] [m20 m21 m22]].
  unfold quatS, quatInvS, mm34t, mm34_4, mm43t, mm43_3. cbn [u0 u1 u2 s0 s1 s2 s3]. vunfold. veq; field.
Qed.
Theorem uh_setUOplus_throws x U : uh_setUOplus x U = None <-> / 10 ^ 6 < Rabs (1 - norm4 (uh_p x)).
Proof.
  unfold uh_setUOplus, near_unit. rewrite (Rabs_right (/ 10 ^ 6)) by (apply Rle_ge, Rlt_le, Rinv_0_lt_compat, pow_lt; lra). destruct (Rle_dec (Rabs (1 - norm4 (uh_p x))) (/ 10 ^ 6)); split; intros; try congruence; try lra; auto.
Qed.
(** the other way only the part of the covariance tangential to the sphere survives *)
Theorem uh_UOplus_restores_tangential x U y : unit4 (uh_p x) -> tr4 (uh_U x) = uh_U x -> mv4 (uh_U x) (uh_p x) = zero4 -> uh_U_av_form x = Some U -> uh_setUOplus x U = Some y -> y = x.
Proof.
  unfold uh_setUOplus, uh_U_av_form. destruct (near_unit (uh_p x)) eqn:E; [|discriminate]. intros UN SY TA H K. inversion H. subst U. inversion K. destruct x as [p V]. cbn [uh_p uh_U] in *. f_equal. apply mat4_ext. intros v.
  set (proj := msub4 I4 (outer4 p p)). assert (PV : forall w, mv4 proj w = sub4 w (scale4 (dot4 p w) p)) by (intros w; unfold proj, outer4, msub4; clear; vring).
  transitivity (mv4 proj (mv4 V (mv4 proj v))).
  - clear - UN. assert (Q : forall w, mv43 (quatInvS p) (mv34 (quatS p) w) = sub4 (scale4 (dot4 p p) w) (scale4 (dot4 p w) p)).
    { intros w. clear. destruct p as [a b c d], w as [r s t u]. unfold mv43, mv34, quatInvS, quatS. cbn [u0 u1 u2 s0 s1 s2 s3]. vunfold. veq; field. }
    assert (T : forall w, mv34 (quatS p) (mv4 V (mv4 (tr4 (M4 (u0 (quatS p)) (u1 (quatS p)) (u2 (quatS p)) zero4)) (cons4 w 0))) = mv3 (mm34t (mm34_4 (quatS p) V) (quatS p)) w).
    { intros w. generalize (quatS p). clear. intros M. destruct M as [[a0 a1 a2 a3] [c0 c1 c2 c3] [d0 d1 d2 d3]]. destruct V as [[m00 m01 m02 m03] [m10 m11 m12 m13] [m20 m21 m22 m23] [m30 m31 m32 m33]]. destruct w as [x y z].
      unfold mm34t, mm34_4, mv34. cbn [u0 u1 u2]. vunfold. veq; ring. }
    rewrite mv_mm43t, mv_mm43_3, <- T, Q. unfold unit4 in UN. rewrite UN.
    assert (ARG : mv4 (tr4 (M4 (u0 (quatS p)) (u1 (quatS p)) (u2 (quatS p)) zero4)) (cons4 (V3 (dot4 (col43 (quatInvS p) 0) v) (dot4 (col43 (quatInvS p) 1) v) (dot4 (col43 (quatInvS p) 2) v)) 0) = sub4 (scale4 (dot4 p p) v) (scale4 (dot4 p v) p)).
    { clear. destruct p as [a b c d], v as [r s t u]. unfold col43, quatInvS, quatS. cbn [u0 u1 u2 s0 s1 s2 s3]. vunfold. veq; field. }
    rewrite ARG, UN. replace (mv4 proj v) with (sub4 (scale4 1 v) (scale4 (dot4 p v) p)) by (unfold proj, outer4, msub4; clear; vring). generalize (mv4 V (sub4 (scale4 1 v) (scale4 (dot4 p v) p))). clear. intros w. unfold proj, outer4, msub4. vring.
  - rewrite (PV v). replace (mv4 V (sub4 v (scale4 (dot4 p v) p))) with (sub4 (mv4 V v) (scale4 (dot4 p v) (mv4 V p))) by (clear; vring). rewrite TA. rewrite PV. replace (dot4 p (sub4 (mv4 V v) (scale4 (dot4 p v) zero4))) with (dot4 (mv4 V p) v) by (rewrite dot4_tr, SY; clear; vring). rewrite TA. clear. vring.
Qed.

(** ** uncertain vectors of every dimension and uncertain scalars *)
Theorem uv_ops_cov n x y M v s c : covn n (uv_E x) -> covn n (uv_E y) -> 0 <= us_E s ->
  covn n (uv_E uv_zero) /\ covn n (uv_E (uv_certain v)) /\ covn n (uv_E (uv_linear n M x)) /\ covn n (uv_E (uv_add x y)) /\ covn n (uv_E (uv_addv x v)) /\ covn n (uv_E (uv_sub x y)) /\ covn n (uv_E (uv_subv x v)) /\
  covn n (uv_E (uv_mul x s)) /\ covn n (uv_E (uv_scale x c)) /\ covn n (uv_E (us_mulv s v)) /\ 0 <= us_E (uv_dot n x y) /\ 0 <= us_E (uv_dotv n x v).
Proof.
  intros A B C. split; [apply cov_zero|]. split; [apply cov_zero|]. split; [apply cov_sandwich; auto|]. split; [apply cov_add; auto|]. split; [auto|]. split; [apply cov_add; auto|]. split; [auto|].
  split. { apply (cov_ext n (maddn (mscalen (us_E s) (outern (uv_v x) (uv_v x))) (mscalen (us_v s * us_v s) (uv_E x)))). intros i j _ _. unfold maddn, mscalen, outern, uv_mul. cbn [uv_E]. ring. apply cov_add; apply cov_scale; auto using cov_outer. nra. }
  split. { apply (cov_ext n (mscalen (c * c) (uv_E x))). intros i j _ _. unfold mscalen, uv_scale. cbn [uv_E]. ring. apply cov_scale; auto. nra. }
  split. { apply (cov_ext n (mscalen (us_E s) (outern v v))). intros i j _ _. unfold mscalen, outern, us_mulv. cbn [uv_E]. ring. apply cov_scale; auto using cov_outer. }
  split; unfold uv_dot, uv_dotv; cbn [us_E]; [|apply cov_quad; auto]. pose proof (cov_quad n (uv_E y) (uv_v x) B). pose proof (cov_quad n (uv_E x) (uv_v y) A). lra.
Qed.
Theorem uv_normalized_cov n x y : covn n (uv_E x) -> uv_normalized n x = Some y -> covn n (uv_E y) /\ dotn n (uv_v y) (uv_v y) = 1 /\ exists k, 0 < k /\ forall i, uv_v x i = k * uv_v y i.
Proof.
  intros A. unfold uv_normalized, normalizeAndJacobianN. destruct (Req_EM_T (normn n (uv_v x)) 0) as [|N]; intros E; inversion E. clear E. cbn [uv_E uv_v]. split; [apply cov_sandwich; auto|].
  assert (Q : normn n (uv_v x) * normn n (uv_v x) = dotn n (uv_v x) (uv_v x)) by (apply sqrt_sqrt, dotn_pos). split.
  - rewrite dotn_scale_r, dotn_comm, dotn_scale_r, <- Q. field. auto.
  - exists (normn n (uv_v x)). split. assert (0 <= normn n (uv_v x)) by apply sqrt_pos. lra. intros i. unfold scalen. field. auto.
Qed.
Theorem uv_normalized_defined n x : uv_normalized n x = None <-> forall i, (i < n)%nat -> uv_v x i = 0.
Proof.
  unfold uv_normalized, normalizeAndJacobianN. destruct (Req_EM_T (normn n (uv_v x)) 0) as [Z|N]; split; try discriminate; auto.
  - intros _ i I. assert (Q : dotn n (uv_v x) (uv_v x) = 0). { rewrite <- (sqrt_sqrt (dotn n (uv_v x) (uv_v x))) by apply dotn_pos. unfold normn in Z. rewrite Z. ring. }
    assert (G : forall m f, (forall k, (k < m)%nat -> 0 <= f k) -> sumn m f = 0 -> forall k, (k < m)%nat -> f k = 0).
    { clear. induction m; intros f P S k K; [lia|]. cbn in S. assert (0 <= sumn m f) by (apply sum_nonneg; intros; apply P; lia). assert (0 <= f m) by (apply P; lia). destruct (Nat.eq_dec k m) as [->|]; [lra|]. apply IHm; [intros; apply P; lia|lra|lia]. }
    assert (uv_v x i * uv_v x i = 0) by (apply (G n (fun i => uv_v x i * uv_v x i)); auto; intros; nra). nra.
  - intros H. exfalso. apply N. unfold normn. replace (dotn n (uv_v x) (uv_v x)) with 0. apply sqrt_0. symmetry. apply sum_zero. intros. rewrite H by auto. ring.
Qed.
Theorem us_ops_cov x y r z : 0 <= us_E x -> 0 <= us_E y ->
  0 <= us_E (us_mul x y) /\ 0 <= us_E (us_mulr x r) /\ 0 <= us_E (us_add x y) /\ 0 <= us_E (us_addv x r) /\ 0 <= us_E (us_sub x y) /\ 0 <= us_E (us_subv x r) /\ (us_div x y = Some z -> 0 <= us_E z) /\ (us_divv x r = Some z -> 0 <= us_E z).
Proof.
  destruct x as [a A], y as [b B]. cbn [us_E]. intros HA HB. assert (SQ : forall u w, 0 <= w -> 0 <= u * w * u) by (intros; nra).
  unfold us_mul, us_mulr, us_dot, us_dotv, us_add, us_addv, us_sub, us_subv, us_div, us_divv. cbn [us_E us_v]. split; [|split; [|split; [|split; [|split; [|split; [|split]]]]]]; try lra; auto.
  - pose proof (SQ b A HA). pose proof (SQ a B HB). lra.
  - destruct (Req_EM_T b 0); intros E; inversion E. cbn [us_E]. pose proof (SQ (1 / b) A HA). pose proof (SQ (- a / (b * b)) B HB). lra.
  - destruct (Req_EM_T r 0); intros E; inversion E. cbn [us_E]. auto.
Qed.
(** certain operands again *)
Theorem uv_certain_operands n x v c i j :
  uv_v (uv_add x (uv_certain v)) i = uv_v (uv_addv x v) i /\ uv_E (uv_add x (uv_certain v)) i j = uv_E (uv_addv x v) i j /\ uv_v (uv_sub x (uv_certain v)) i = uv_v (uv_subv x v) i /\ uv_E (uv_sub x (uv_certain v)) i j = uv_E (uv_subv x v) i j /\
  uv_v (uv_mul x (US c 0)) i = uv_v (uv_scale x c) i /\ uv_E (uv_mul x (US c 0)) i j = uv_E (uv_scale x c) i j /\ uv_dot n x (uv_certain v) = uv_dotv n x v.
Proof.
  unfold uv_add, uv_addv, uv_sub, uv_subv, uv_certain, uv_mul, uv_scale, uv_dot, uv_dotv, maddn, Zn. cbn [uv_v uv_E us_v us_E]. repeat split; try ring. f_equal. match goal with |- ?a + _ = _ => replace a with 0 end. ring.
  symmetry. apply sum_zero. intros. unfold mvn. rewrite sum_zero. ring. intros. ring.
Qed.

(** ** C80: adding or subtracting a certain point.  The code keeps the covariance; the general operators give R U R^T. *)
Theorem hp_uncertain_mean x q : uh_p (uh_add_hp x q) = hp_add (uh_p x) q /\ uh_p (uh_sub_hp x q) = hp_sub (uh_p x) q /\ uh_p (hp_add_uh q x) = hp_add q (uh_p x) /\ uh_p (hp_sub_uh q x) = hp_sub q (uh_p x) /\
  uh_p (uh_add x (uh_certain q)) = hp_add (uh_p x) q /\ uh_p (uh_sub x (uh_certain q)) = hp_sub (uh_p x) q.
Proof. repeat split. Qed.
Lemma sq_eq_0 a : a * a = 0 -> a = 0. Proof. nra. Qed.
Lemma cov_last_zero U : cov4 U -> e3 (r43 U) = 0 -> e3 (r40 U) = 0 /\ e3 (r41 U) = 0 /\ e3 (r42 U) = 0 /\ r43 U = zero4.
Proof.
  intros [S P]. destruct U as [[a b c d] [b' f g h] [c' g' k l] [d' h' l' m]]. unfold tr4 in S. vunfold. injection S. intros E1 E2 E3 E4 E5 E6 E7 E8 E9 E10 E11 E12. clear S. subst b' c' d' g' h' l'. intros ->.
  assert (Q : forall al be, (forall t, 0 <= al + 2 * t * be) -> be = 0). { clear. intros al be H. destruct (Req_EM_T be 0); auto. specialize (H ((- al - 1) / (2 * be))). replace (al + 2 * ((- al - 1) / (2 * be)) * be) with (-1) in H by (field; auto). lra. }
  assert (d = 0). { apply (Q a). intros t. specialize (P (V4 1 0 0 t)). cbn [e0 e1 e2 e3] in P. lra. }
  assert (h = 0). { apply (Q f). intros t. specialize (P (V4 0 1 0 t)). cbn [e0 e1 e2 e3] in P. lra. }
  assert (l = 0). { apply (Q k). intros t. specialize (P (V4 0 0 1 t)). cbn [e0 e1 e2 e3] in P. lra. }
  subst. auto.
Qed.
(** exactly when the two answers agree: nothing is uncertain, or q is [v;+-1] and either v = 0 or the homogeneous coordinate is certain *)
Theorem certain_point_covariance x q : cov4 (uh_U x) ->
  (uh_U (uh_add_hp x q) = uh_U (uh_add x (uh_certain q)) <-> uh_U x = Z4 \/ (e3 q * e3 q = 1 /\ (head3 q = zero3 \/ e3 (r43 (uh_U x)) = 0))).
Proof.
  intros C. unfold uh_add_hp, uh_add, uh_plus_cov, uh_certain. cbn [uh_U uh_p]. rewrite sandwich4_zero, madd4_Z_r. pose proof (cov_last_zero _ C) as L. destruct C as [S _]. destruct x as [p U]. cbn [uh_U] in *.
  destruct U as [[a b c d] [b' f g h] [c' g' k l] [d' h' l' m]]. unfold tr4 in S. cbv [col4 at4 r40 r41 r42 r43 e0 e1 e2 e3] in S. injection S. intros E1 E2 E3 E4 E5 E6 E7 E8 E9 E10 E11 E12. clear S. subst b' c' d' g' h' l'. destruct q as [q0 q1 q2 w]. cbn [r40 r41 r42 r43 e3 head3] in *.
  unfold toHomogeneousPlus. split.
  - intros E. cbv [mm4 rowmul4 tr4 col4 at4 r40 r41 r42 r43 e0 e1 e2 e3 dot4] in E. injection E. clear E. intros Em El Eh Ed _ Ek _ _ _ Eg Ef _ _ Ec Eb Ea.
    destruct (Req_EM_T (w * w) 1) as [W|W].
    + right. split; auto. destruct (Req_EM_T m 0) as [M|M]; auto. left.
      assert (X0 : d = w * w * d + w * q0 * m) by lra. assert (X1 : h = w * w * h + w * q1 * m) by lra. assert (X2 : l = w * w * l + w * q2 * m) by lra. rewrite W in X0, X1, X2.
      assert (w <> 0) by (intros ->; lra). assert (q0 = 0). { apply (Rmult_eq_reg_l (w * m)). lra. apply Rmult_integral_contrapositive_currified; auto. } assert (q1 = 0). { apply (Rmult_eq_reg_l (w * m)). lra. apply Rmult_integral_contrapositive_currified; auto. } assert (q2 = 0). { apply (Rmult_eq_reg_l (w * m)). lra. apply Rmult_integral_contrapositive_currified; auto. }
      subst. auto.
    + left. assert (M : m = 0). { assert ((w * w - 1) * m = 0) by lra. destruct (Rmult_integral _ _ H); lra. } destruct (L M) as (-> & -> & -> & _). subst m.
      assert (Z : forall u, u = w * w * u -> u = 0). { intros u H. assert ((w * w - 1) * u = 0) by lra. destruct (Rmult_integral _ _ H0); lra. }
      assert (a = 0) by (apply Z; lra). assert (b = 0) by (apply Z; lra). assert (c = 0) by (apply Z; lra). assert (f = 0) by (apply Z; lra). assert (g = 0) by (apply Z; lra). assert (k = 0) by (apply Z; lra). subst. auto.
  - intros [E|[W [H|M]]].
    + rewrite E. rewrite sandwich4_zero. auto.
    + unfold head3, zero3 in H. cbn [e0 e1 e2] in H. injection H as -> -> ->. cbv [mm4 rowmul4 tr4 col4 at4 r40 r41 r42 r43 e0 e1 e2 e3 dot4]. assert (G : forall u, u = w * u * w) by (intros u; replace (w * u * w) with (w * w * u) by ring; rewrite W; ring). f_equal; f_equal; ring [W].
    + destruct (L M) as (-> & -> & -> & _). subst m. cbv [mm4 rowmul4 tr4 col4 at4 r40 r41 r42 r43 e0 e1 e2 e3 dot4]. assert (G : forall u, u = w * u * w) by (intros u; replace (w * u * w) with (w * w * u) by ring; rewrite W; ring). f_equal; f_equal; ring [W].
Qed.
Theorem certain_point_covariance_other x q :
  uh_U (uh_sub_hp x q) = uh_U (uh_add_hp x q) /\ uh_U (hp_add_uh q x) = uh_U (uh_add_hp x q) /\ uh_U (hp_sub_uh q x) = uh_U (uh_add_hp x q) /\
  uh_U (uh_sub x (uh_certain q)) = uh_U (uh_add x (uh_certain q)) /\ uh_U (uh_add (uh_certain q) x) = uh_U (uh_add x (uh_certain q)) /\ uh_U (uh_sub (uh_certain q) x) = uh_U (uh_add x (uh_certain q)).
Proof. unfold uh_sub, uh_add, uh_plus_cov, uh_certain. cbn [uh_U uh_p]. rewrite !sandwich4_zero, madd4_Z_r, madd4_Z_l. repeat split. Qed.
(** the Euclidean covariance of a sum of uncertain points is the sum of the Euclidean covariances *)
Ltac d34 M := destruct M as [[? ? ? ?] [? ? ? ?] [? ? ? ?]].
Lemma sandwich34_assoc J P U : mm34t (mm34_4 J (mm4 (mm4 P U) (tr4 P))) J = mm34t (mm34_4 (mm34_4 J P) U) (mm34_4 J P).
Proof.
  assert (A : forall M X Y, mm34_4 M (mm4 X Y) = mm34_4 (mm34_4 M X) Y). { intros M X Y. d34 M. vdestruct. unfold mm34_4. cbn [u0 u1 u2]. vunfold. f_equal; veq; ring. }
  assert (B : forall M N X, mm34t (mm34_4 M (tr4 X)) N = mm34t M (mm34_4 N X)). { intros M N X. d34 M. d34 N. vdestruct. unfold mm34_4, mm34t. cbn [u0 u1 u2]. vunfold. veq; ring. }
  rewrite !A, B. auto.
Qed.
Lemma sandwich34_add J U V : mm34t (mm34_4 J (madd4 U V)) J = madd3 (mm34t (mm34_4 J U) J) (mm34t (mm34_4 J V) J).
Proof. d34 J. vdestruct. unfold mm34_4, mm34t. cbn [u0 u1 u2]. vunfold. veq; ring. Qed.
Lemma jac_some v : e3 v <> 0 -> fromHomogeneousJacobian v = Some (M34 (V4 (1 / e3 v) 0 0 (- (e0 v / (e3 v * e3 v)))) (V4 0 (1 / e3 v) 0 (- (e1 v / (e3 v * e3 v)))) (V4 0 0 (1 / e3 v) (- (e2 v / (e3 v * e3 v))))).
Proof. intros H. unfold fromHomogeneousJacobian. destruct (Req_EM_T (e3 v) 0); [congruence|]. unfold scale3, head3. cbn [vx vy vz]. f_equal. f_equal; f_equal; field; auto. Qed.
Lemma U3_some x : (exists A, uh_U3 x = Some A) <-> e3 (uh_p x) <> 0.
Proof. unfold uh_U3, fromHomogeneousJacobian. destruct (Req_EM_T (e3 (uh_p x)) 0); split; intros H; try (destruct H; discriminate); try congruence. eauto. Qed.
Lemma jac_plus p q J K : fromHomogeneousJacobian p = Some J -> e3 q <> 0 -> fromHomogeneousJacobian (hp_add p q) = Some K -> mm34_4 K (toHomogeneousPlus q) = J.
Proof.
  intros A Q B. assert (P : e3 p <> 0) by (unfold fromHomogeneousJacobian in A; destruct (Req_EM_T (e3 p) 0); congruence). rewrite jac_some in A by auto. inversion A. subst J.
  assert (R : e3 (hp_add p q) <> 0) by (unfold hp_add; cbn [cons4 e3]; apply Rmult_integral_contrapositive_currified; auto). rewrite jac_some in B by auto. inversion B. clear A B R. destruct p as [a b c d], q as [r s t w]. cbn [e3] in *.
  unfold mm34_4, toHomogeneousPlus, hp_add. cbn [u0 u1 u2]. vunfold. f_equal; f_equal; field; auto.
Qed.
Lemma hp_add_comm p q : hp_add p q = hp_add q p. Proof. unfold hp_add. vring. Qed.
Theorem uh_add_euclidean x y A B : uh_U3 x = Some A -> uh_U3 y = Some B -> uh_U3 (uh_add x y) = Some (madd3 A B).
Proof.
  intros HA HB. assert (X : e3 (uh_p x) <> 0) by (apply U3_some; eauto). assert (Y : e3 (uh_p y) <> 0) by (apply U3_some; eauto). unfold uh_U3 in *. cbn [uh_add uh_p uh_U].
  destruct (fromHomogeneousJacobian (uh_p x)) as [J|] eqn:EJ; [|discriminate]. destruct (fromHomogeneousJacobian (uh_p y)) as [L|] eqn:EL; [|discriminate]. inversion HA. inversion HB. subst A B.
  destruct (fromHomogeneousJacobian (hp_add (uh_p x) (uh_p y))) as [K|] eqn:EK.
  - f_equal. unfold uh_plus_cov. rewrite sandwich34_add, !sandwich34_assoc. rewrite (jac_plus _ _ _ _ EJ Y EK). rewrite hp_add_comm in EK. rewrite (jac_plus _ _ _ _ EL X EK). auto.
  - exfalso. rewrite jac_some in EK; [discriminate|]. unfold hp_add; cbn [cons4 e3]; apply Rmult_integral_contrapositive_currified; auto.
Qed.
Corollary uh_add_certain_euclidean x q A : uh_U3 x = Some A -> e3 q <> 0 -> uh_U3 (uh_add x (uh_certain q)) = Some A.
Proof.
  intros HA Q. assert (B : uh_U3 (uh_certain q) = Some Z3). { unfold uh_U3, uh_certain. cbn [uh_p uh_U]. rewrite jac_some by auto. f_equal. unfold mm34t, mm34_4. cbn [u0 u1 u2]. vunfold. veq; ring. }
  rewrite (uh_add_euclidean _ _ _ _ HA B), madd3_Z_r. auto.
Qed.
(** subtraction: the same Jacobians are used, which is right only when the homogeneous coordinates are certain *)
Definition certain_scale (x : uhp) : Prop := exists U, uh_U x = embed3 U.
Lemma U3_certain_scale p U : e3 p <> 0 -> uh_U3 (UH p (embed3 U)) = Some (mscale3 (1 / (e3 p * e3 p)) U).
Proof.
  intros H. unfold uh_U3. cbn [uh_p uh_U]. rewrite jac_some by auto. f_equal. destruct p as [a b c d]. cbn [e3] in H. unfold mm34t, mm34_4, embed3. cbn [u0 u1 u2].
  destruct U as [[m00 m01 m02] [m10 m11 m12] [m20 m21 m22]]. vunfold. veq; field; auto.
Qed.
Theorem uh_sub_euclidean_partial x y A B : certain_scale x -> certain_scale y -> uh_U3 x = Some A -> uh_U3 y = Some B -> uh_U3 (uh_sub x y) = Some (madd3 A B).
Proof.
  destruct x as [p V], y as [q W]. intros (U1 & E1) (U2 & E2) HA HB. assert (X : e3 p <> 0) by (apply (U3_some (UH p V)); eauto). assert (Y : e3 q <> 0) by (apply (U3_some (UH q W)); eauto). cbn [uh_U] in E1, E2. subst V W.
  rewrite U3_certain_scale in HA, HB by auto. inversion HA. inversion HB. unfold uh_sub, uh_plus_cov. cbn [uh_p uh_U].
  replace (madd4 (mm4 (mm4 (toHomogeneousPlus q) (embed3 U1)) (tr4 (toHomogeneousPlus q))) (mm4 (mm4 (toHomogeneousPlus p) (embed3 U2)) (tr4 (toHomogeneousPlus p)))) with (embed3 (madd3 (mscale3 (e3 q * e3 q) U1) (mscale3 (e3 p * e3 p) U2))) by (clear; unfold embed3, toHomogeneousPlus; vring).
  assert (R : e3 (hp_sub p q) = e3 p * e3 q) by reflexivity. rewrite U3_certain_scale by (rewrite R; apply Rmult_integral_contrapositive_currified; auto). rewrite R. f_equal. clear - X Y. destruct p as [p0 p1 p2 p3], q as [q0 q1 q2 q3]. cbn [e3] in *. destruct U1 as [[m00 m01 m02] [m10 m11 m12] [m20 m21 m22]], U2 as [[n00 n01 n02] [n10 n11 n12] [n20 n21 n22]]. vunfold. veq; field; auto.
Qed.
Lemma Some_inj T (a b : T) : Some a = Some b -> a = b. Proof. congruence. Qed.
Definition scale_only : mat4 := M4 zero4 zero4 zero4 (V4 0 0 0 1).
Lemma cov_scale_only : cov4 scale_only. Proof. split. unfold scale_only. vring. intros [a b c d]. unfold scale_only. vunfold. nra. Qed.
Theorem uh_sub_euclidean_refuted : exists x y A B, cov4 (uh_U x) /\ cov4 (uh_U y) /\ uh_U3 x = Some A /\ uh_U3 y = Some B /\ uh_U3 (uh_sub x y) <> Some (madd3 A B).
Proof.
  exists (UH (V4 0 0 0 1) scale_only), (UH (V4 1 0 0 1) Z4), Z3, Z3. split; [apply cov_scale_only|]. split; [apply cov4_zero|]. unfold uh_U3. cbn [uh_p uh_U uh_sub hp_sub cons4 e3].
  rewrite !jac_some by (unfold hp_sub; cbn [cons4 e3]; lra). split; [|split].
  - f_equal. unfold mm34t, mm34_4, scale_only. cbn [u0 u1 u2]. vunfold. veq; field.
  - f_equal. unfold mm34t, mm34_4, scale_only. cbn [u0 u1 u2]. vunfold. veq; field.
  - intros E. apply Some_inj in E. apply (f_equal (fun M => vx (r30 M))) in E. revert E. unfold uh_plus_cov, toHomogeneousPlus, mm34t, mm34_4, scale_only, hp_sub. cbn [uh_p uh_U u0 u1 u2]. vunfold. lra.
Qed.
(** C80 as stated is false: both for the 4x4 covariance and for the Euclidean one *)
Theorem certain_point_refuted : exists x q A, cov4 (uh_U x) /\ e3 q = 1 /\ uh_U (uh_add_hp x q) <> uh_U (uh_add x (uh_certain q)) /\ uh_U3 x = Some A /\ uh_U3 (uh_add_hp x q) <> Some A.
Proof.
  exists (UH (V4 0 0 0 1) scale_only), (V4 1 0 0 1), Z3. split; [apply cov_scale_only|]. split; [auto|]. split; [|split].
  - intros E. apply certain_point_covariance in E; [|apply cov_scale_only]. cbn [uh_U e3 head3] in E. unfold scale_only, Z4, zero4, head3, zero3 in E. cbn [r43 e3 e0 e1 e2] in E. destruct E as [E|[_ [E|E]]]; [injection E; lra|injection E; lra|lra].
  - unfold uh_U3. cbn [uh_p uh_U]. rewrite jac_some by (cbn [e3]; lra). f_equal. unfold mm34t, mm34_4, scale_only. cbn [u0 u1 u2]. vunfold. veq; field.
  - unfold uh_U3. cbn [uh_p uh_U uh_add_hp]. rewrite jac_some by (unfold hp_add; cbn [cons4 e3]; lra). intros E. apply Some_inj in E. apply (f_equal (fun M => vx (r30 M))) in E. revert E. unfold mm34t, mm34_4, scale_only, hp_add. cbn [u0 u1 u2]. vunfold. lra.
Qed.
Theorem certain_point_euclidean_partial x q A : certain_scale x -> e3 q * e3 q = 1 -> uh_U3 x = Some A -> uh_U3 (uh_add_hp x q) = Some A /\ uh_U3 (uh_sub_hp x q) = Some A /\ uh_U3 (hp_add_uh q x) = Some A /\ uh_U3 (hp_sub_uh q x) = Some A.
Proof.
  destruct x as [p V]. intros (U & E) W HA. assert (X : e3 p <> 0) by (apply (U3_some (UH p V)); eauto). assert (Y : e3 q <> 0) by (intros Y; rewrite Y in W; lra). cbn [uh_U] in E. subst V. rewrite U3_certain_scale in HA by auto. inversion HA. clear HA.
  unfold uh_add_hp, uh_sub_hp, hp_add_uh, hp_sub_uh. cbn [uh_p uh_U].
  assert (N : e3 p * e3 q <> 0) by (apply Rmult_integral_contrapositive_currified; auto). assert (N' : e3 q * e3 p <> 0) by (apply Rmult_integral_contrapositive_currified; auto).
  assert (S : forall r, e3 r <> 0 -> e3 r * e3 r = e3 p * e3 p -> uh_U3 (UH r (embed3 U)) = Some (mscale3 (1 / (e3 p * e3 p)) U)) by (intros r R1 R2; rewrite U3_certain_scale, R2 by auto; auto).
  repeat split; apply S; unfold hp_add, hp_sub; cbn [cons4 e3]; auto; ring [W].
Qed.

(** ** the hypotheses are met *)
Definition U6x : mat6 := mm6 (M6 I3 (crossMx (V3 1 2 3)) Z3 I3) (tr6 (M6 I3 (crossMx (V3 1 2 3)) Z3 I3)).
Lemma cov6_I : cov6 I6.
Proof. split. apply tr6_I. intros x. replace (mv6 I6 x) with x. destruct x as [a b]. unfold dot6, dot3. cbn [hi6 lo6]. nra. destruct x as [a b]. unfold mv6, I6. cbn [b11 b12 b21 b22 hi6 lo6]. f_equal; vring. Qed.
Example ex_cov6 : cov6 U6x /\ U6x <> I6 /\ uvalid (UT (TQ qx (V3 1 2 3)) U6x).
Proof.
  split; [|split]. { unfold U6x. rewrite <- (mm6_I_r (M6 I3 (crossMx (V3 1 2 3)) Z3 I3)) at 1. apply cov6_sandwich. apply cov6_I. }
  unfold U6x, mm6, tr6, I6. cbn [b11 b12 b21 b22]. intros E. injection E. unfold crossMx. vunfold. lra. apply ex_valid.
Qed.
(** A Euclidean covariance given to the constructor is the Euclidean covariance read back. *)
Theorem uh_of_euclideanU_reads p U : uh_U3 (uh_of_euclideanU p U) = Some U /\ hp_toEuclidean (uh_p (uh_of_euclideanU p U)) = Some p.
Proof.
  unfold uh_of_euclideanU. split.
  - rewrite U3_certain_scale by (unfold hp_of_euclidean; cbn [cons4 e3]; lra). f_equal. unfold hp_of_euclidean. cbn [cons4 e3]. replace (1 / (1 * 1)) with 1 by field. vring.
  - cbn [uh_p]. unfold hp_toEuclidean, hp_of_euclidean. cbn [cons4 e3]. destruct (Req_EM_T 1 0); [lra|]. destruct p as [a b c]. cbn [e0 e1 e2 vx vy vz]. f_equal. f_equal; field.
Qed.
(** Rotating an uncertain vector: with the matrix R of the rotation (R u is the rotated u, for all u) the covariance becomes R P R^T. *)
Theorem tf_rotate_uv_propagates x v P R : unit4 (tq x) -> (forall u, mv3 R u = tf_rotate3 x u) ->
  tf_rotate_uv x v P = (tf_rotate3 x v, mm3 (mm3 R P) (tr3 R)).
Proof.
  intros U H. assert (E : R = tf_C x). { apply mat3_ext. intros u. rewrite H. unfold tf_rotate3, tf_C. apply quatRotate_matrix. auto. }
  subst R. reflexivity.
Qed.
Example ex_uhp : cov4 (mm4 (toHomogeneousPlus (V4 1 2 3 1)) (tr4 (toHomogeneousPlus (V4 1 2 3 1)))) /\ (exists A, uh_U3 (UH (V4 1 2 3 2) I4) = Some A) /\ certain_scale (uh_of_euclideanU (V3 1 2 3) I3) /\ cov3 I3 /\
  exists y, uh_setUOplus (UH qx I4) I3 = Some y.
Proof.
  assert (C4 : cov4 I4) by (split; [vring|intros [a b c d]; vunfold; nra]). split; [rewrite <- (mm4_I_r (toHomogeneousPlus _)) at 1; apply cov4_sandwich; auto|].
  split; [apply U3_some; cbn [uh_p e3]; lra|]. split; [exists I3; auto|]. split; [split; [vring|intros [a b c]; vunfold; nra]|].
  unfold uh_setUOplus, near_unit. cbn [uh_p]. replace (norm4 qx) with 1 by (symmetry; apply norm4_unit; exact (proj1 ex_valid)). rewrite Rminus_diag_eq, Rabs_R0 by auto. destruct (Rle_dec 0 (Rabs (/ 10 ^ 6))) as [|N]; [eauto|]. exfalso. apply N. apply Rabs_pos.
Qed.
Example ex_uvec : covn 2 (uv_E (UV (fun i => INR i) In_)) /\ exists y, uv_normalized 2 (UV (fun i => INR i) In_) = Some y.
Proof.
  split. { apply (cov_ext 2 (maddn (outern (In_ 0%nat) (In_ 0%nat)) (outern (In_ 1%nat) (In_ 1%nat)))). intros i j I J. unfold maddn, outern, In_. destruct i as [|[|]], j as [|[|]]; cbn; try lra; lia. apply cov_add; apply cov_outer. }
  destruct (uv_normalized 2 (UV (fun i => INR i) In_)) eqn:E; [eauto|]. apply (uv_normalized_defined 2) with (i := 1%nat) in E; [cbn in E; lra|lia].
Qed.
