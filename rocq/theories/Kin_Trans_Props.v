(** C73, C74, C76, C77, C85, and the transformation part of C71: transformation matrices, the Transformation class, homogeneous points. *)
From Verif Require Import Kin_Trans_Model Kin_Quat_Props Kin_Rot_Props.
From Coq Require Import Lra Psatz Lia.
Import ListNotations.
Open Scope R_scope.

(** ** C71: toTEuler and fromTEuler *)
Theorem fromTEuler_toTEuler d : euler_range (- vx (lo6 d)) (- vy (lo6 d)) (- vz (lo6 d)) -> fromTEuler (toTEuler d) = d.
Proof.
  intros H. unfold fromTEuler, toTEuler. rewrite topRight_rt, topLeft_rt, R2rph_rph2R by auto. destruct d as [t [x y z]]. cbn [hi6 lo6 vx vy vz]. unfold opp3. cbn [vx vy vz]. rewrite !Ropp_involutive. auto.
Qed.
Theorem toTEuler_arguments x y z r p h : toTEuler6 x y z r p h = toTEuler (V6 (V3 x y z) (V3 r p h)). Proof. reflexivity. Qed.
Theorem toTEuler_rigid d : is_rigid (toTEuler d).
Proof. exists (rph2R (- vx (lo6 d)) (- vy (lo6 d)) (- vz (lo6 d))), (hi6 d). split; auto. apply rph2R_rotation. Qed.
Theorem toTEuler_fromTEuler T : is_rigid T -> -1 < e0 (r42 T) < 1 -> toTEuler (fromTEuler T) = T.
Proof.
  intros (C & t & HC & ->) H. unfold fromTEuler, toTEuler. rewrite topRight_rt, topLeft_rt. cbn [hi6 lo6]. assert (R : -1 < vx (r32 C) < 1) by exact H.
  pose proof (rph2R_R2rph C HC R) as E. cbv zeta in E. unfold opp3. cbn [vx vy vz]. rewrite !Ropp_involutive, E. auto.
Qed.

(** ** C73 *)
Lemma one_sided C : mm3 (tr3 C) C = I3 -> orthonormal C.
Proof.
  intros H. split; auto. set (adj := tr3 (M3 (cross (r31 C) (r32 C)) (cross (r32 C) (r30 C)) (cross (r30 C) (r31 C)))).
  assert (A : mm3 C adj = mscale3 (det3 C) I3) by (unfold adj; vring).
  assert (D : det3 C * det3 C = 1). { rewrite <- det3_I, <- H, det3_mm, det3_tr. ring. }
  assert (E : mscale3 (det3 C) (tr3 C) = adj). { rewrite <- (mm3_I_l adj), <- H, mm3_assoc, A. vring. }
  assert (G : mscale3 (det3 C) (mm3 C (tr3 C)) = mscale3 (det3 C) I3). { rewrite <- A, <- E. vring. }
  assert (K : forall M, mscale3 (det3 C) (mscale3 (det3 C) M) = M). { intros M. assert (S2 : forall s, mscale3 s (mscale3 s M) = mscale3 (s * s) M) by vring. rewrite S2, D. vring. }
  rewrite <- (K (mm3 C (tr3 C))), G, K. auto.
Qed.
Lemma one_sided' C : mm3 C (tr3 C) = I3 -> orthonormal C.
Proof. intros H. destruct (one_sided (tr3 C)) as [A B]. rewrite tr3_tr; auto. rewrite tr3_tr in *. split; auto. Qed.
Lemma inverse_orthonormal C t : orthonormal C -> mm4 (inverseTransform (rt C t)) (rt C t) = I4 /\ mm4 (rt C t) (inverseTransform (rt C t)) = I4.
Proof.
  intros [A B]. unfold inverseTransform. rewrite topLeft_rt, topRight_rt, !rt_mm. assert (R : rt I3 zero3 = I4) by vring. split.
  - rewrite B, <- R. f_equal. vring.
  - rewrite A, <- R. f_equal. replace (mv3 C (mv3 (mopp3 (tr3 C)) t)) with (opp3 (mv3 (mm3 C (tr3 C)) t)) by vring. rewrite A. vring.
Qed.
Theorem inverseTransform_rigid T : is_rigid T -> mm4 (inverseTransform T) T = I4 /\ mm4 T (inverseTransform T) = I4 /\ is_rigid (inverseTransform T).
Proof.
  intros (C & t & HC & ->). destruct (inverse_orthonormal C t (proj1 HC)) as [A B]. split; [|split]; auto.
  exists (tr3 C), (mv3 (mopp3 (tr3 C)) t). split; [apply orth_rotation_tr; auto|]. unfold inverseTransform. rewrite topLeft_rt, topRight_rt. auto.
Qed.
(** It inverts nothing else than matrices with an orthonormal (possibly reflecting) 3x3 block and bottom row 0 0 0 1. *)
Theorem inverseTransform_only_orthonormal T : (mm4 (inverseTransform T) T = I4 <-> exists C t, orthonormal C /\ T = rt C t) /\ (mm4 T (inverseTransform T) = I4 <-> exists C t, orthonormal C /\ T = rt C t).
Proof.
  assert (L : forall T, mm4 (inverseTransform T) T = I4 -> exists C t, orthonormal C /\ T = rt C t).
  { clear T. intros T H. assert (B : r43 (mm4 (inverseTransform T) T) = r43 T) by (unfold inverseTransform; vring). rewrite H in B. exists (topLeft T), (topRight T).
    assert (E : T = rt (topLeft T) (topRight T)). { destruct T as [a b c d]. cbn [r43] in B. subst d. destruct a, b, c. reflexivity. }
    split; auto. apply one_sided. apply (f_equal topLeft) in H. rewrite E in H at 2. unfold inverseTransform in H. rewrite rt_mm, topLeft_rt in H. exact H. }
  assert (M : forall T, mm4 T (inverseTransform T) = I4 -> exists C t, orthonormal C /\ T = rt C t).
  { clear T. intros T H. exists (topLeft T), (topRight T).
    assert (O : orthonormal (topLeft T)). { apply one_sided'. apply (f_equal topLeft) in H. rewrite <- (mm3_I_l I3) at 1. replace (topLeft (mm4 T (inverseTransform T))) with (mm3 (topLeft T) (tr3 (topLeft T))) in H by (unfold inverseTransform; vring). rewrite H. vring. }
    split; auto. assert (Bw : mv3 (topLeft T) (head3 (r43 T)) = zero3). { transitivity (head3 (r43 (mm4 T (inverseTransform T)))). unfold inverseTransform; vring. rewrite H. vring. }
    assert (B3 : head3 (r43 T) = zero3). { destruct O as [_ O]. rewrite <- (mv3_I (head3 (r43 T))), <- O, mv3_mm, Bw. vring. }
    assert (W : e3 (r43 T) = 1). { apply (f_equal (fun m => e3 (r43 m))) in H. cbn [r43 I4 e3] in H. rewrite <- H. destruct T as [a b c [d0 d1 d2 d3]]. unfold head3 in B3. cbn [r43 e0 e1 e2 e3] in *. injection B3 as -> -> ->. unfold inverseTransform. vunfold. ring. }
    destruct T as [a b c [d0 d1 d2 d3]]. unfold head3 in B3. cbn [r43 e0 e1 e2 e3] in *. injection B3 as -> -> ->. subst d3. destruct a, b, c. reflexivity. }
  split; split; auto; intros (C & t & HC & ->); apply inverse_orthonormal; auto.
Qed.
(** hence also a reflection, which is not rigid *)
Theorem inverseTransform_reflection : exists T, mm4 (inverseTransform T) T = I4 /\ ~ is_rigid T.
Proof.
  exists (rt (m3 1 0 0 0 1 0 0 0 (-1)) zero3). split.
  - apply inverse_orthonormal. split; vunfold; veq; lra.
  - intros (C & t & [_ D] & E). apply (f_equal topLeft) in E. rewrite !topLeft_rt in E. subst C. vunfold. lra.
Qed.
Theorem rt2Transform_parts C t : transform2C (rt2Transform C t) = C /\ transform2rho (rt2Transform C t) = t /\ transform2rhoHomogeneous (rt2Transform C t) = cons4 t 1 /\
  (forall p, mv4 (rt2Transform C t) (toHomogeneous p) = toHomogeneous (add3 (mv3 C p) t)).
Proof. destruct C as [[] [] []], t. repeat split. intros []. unfold toHomogeneous, rt2Transform. vunfold. veq; ring. Qed.

(** ** C85 *)
Theorem boxMinus_boxPlus p d : mv46 (boxMinus p) d = opp4 (mv4 (boxPlus d) p).
Proof. destruct p as [a b c w], d as [[d0 d1 d2] [d3 d4 d5]]. unfold mv46, boxMinus, boxPlus, mv43. cbn [l46 h46 hi6 lo6 s0 s1 s2 s3]. vunfold. veq; ring. Qed.
Lemma crossMx_mv a b : mv3 (crossMx a) b = cross a b. Proof. unfold crossMx. vring. Qed.
Lemma mat3_ext A B : (forall v, mv3 A v = mv3 B v) -> A = B. Proof. apply mat_eq. Qed.
Lemma crossMx_conj C a : is_rotation C -> mm3 (mm3 C (crossMx a)) (tr3 C) = crossMx (mv3 C a).
Proof.
  intros [[O1 O2] D]. apply mat3_ext. intros v. rewrite !mv3_mm, !crossMx_mv. rewrite <- (cross_mv C) by (auto; split; auto). rewrite <- (mv3_mm C (tr3 C)), O1, mv3_I. auto.
Qed.
Lemma boxPlus_rt d : boxPlus d = M4 (cons4 (r30 (crossMx (lo6 d))) (- vx (hi6 d))) (cons4 (r31 (crossMx (lo6 d))) (- vy (hi6 d))) (cons4 (r32 (crossMx (lo6 d))) (- vz (hi6 d))) zero4.
Proof. destruct d as [[] []]. reflexivity. Qed.
Definition bt (A : mat3) (v : vec3) : mat4 := M4 (cons4 (r30 A) (vx v)) (cons4 (r31 A) (vy v)) (cons4 (r32 A) (vz v)) zero4.
Lemma bt_left C t A v : mm4 (rt C t) (bt A v) = bt (mm3 C A) (mv3 C v). Proof. unfold bt. vring. Qed.
Lemma bt_right A v C t : mm4 (bt A v) (rt C t) = bt (mm3 A C) (add3 (mv3 A t) v). Proof. unfold bt. vring. Qed.
Theorem boxTimes_adjoint T d : is_rigid T -> mm4 (mm4 T (boxPlus d)) (inverseTransform T) = boxPlus (mv6 (boxTimes T) d).
Proof.
  intros (C & t & HC & ->). rewrite !boxPlus_rt. change (M4 (cons4 (r30 (crossMx (lo6 d))) (- vx (hi6 d))) (cons4 (r31 (crossMx (lo6 d))) (- vy (hi6 d))) (cons4 (r32 (crossMx (lo6 d))) (- vz (hi6 d))) zero4) with (bt (crossMx (lo6 d)) (opp3 (hi6 d))).
  set (d' := mv6 (boxTimes (rt C t)) d). change (mm4 (mm4 (rt C t) (bt (crossMx (lo6 d)) (opp3 (hi6 d)))) (inverseTransform (rt C t)) = bt (crossMx (lo6 d')) (opp3 (hi6 d'))).
  assert (HL : lo6 d' = mv3 C (lo6 d)). { unfold d', boxTimes, mv6. rewrite topLeft_rt. cbn [b21 b22 lo6]. vring. }
  assert (HH : hi6 d' = sub3 (mv3 C (hi6 d)) (cross t (mv3 C (lo6 d)))). { unfold d', boxTimes, mv6. rewrite topLeft_rt. cbn [b11 b12 hi6]. unfold crossMx. vring. }
  rewrite HL, HH. unfold inverseTransform. rewrite topLeft_rt, topRight_rt, bt_left, bt_right, crossMx_conj by auto. f_equal.
  replace (mv3 (mm3 C (crossMx (lo6 d))) (mv3 (mopp3 (tr3 C)) t)) with (opp3 (mv3 (mm3 (mm3 C (crossMx (lo6 d))) (tr3 C)) t)) by vring. rewrite crossMx_conj, crossMx_mv by auto. vring.
Qed.
Theorem boxTimes_product T1 T2 : is_rigid T1 -> is_rigid T2 -> boxTimes (mm4 T1 T2) = mm6 (boxTimes T1) (boxTimes T2).
Proof.
  intros (A & a & HA & ->) (B & b & HB & ->). rewrite rt_mm. unfold boxTimes, mm6. rewrite !topLeft_rt. cbn [b11 b12 b21 b22 rt r40 r41 r42 cons4 e3].
  rewrite !mm3_Z_l, !mm3_Z_r, !madd3_Z_r, madd3_Z_l. f_equal.
  apply mat3_ext. intros v. rewrite !mv3_madd, !mv3_mm. assert (N : forall m w, mv3 (mopp3 m) w = opp3 (mv3 m w)) by vring. rewrite !N, !crossMx_mv, !mv3_opp, <- (cross_mv A) by (apply HA). assert (Eb : V3 (vx b) (vy b) (vz b) = b) by (destruct b; auto). rewrite Eb. generalize (mv3 A (mv3 B v)) (mv3 A b). clear. vring.
Qed.
Theorem boxTimes_inverse T : is_rigid T -> mm6 (boxTimes T) (boxTimes (inverseTransform T)) = I6 /\ mm6 (boxTimes (inverseTransform T)) (boxTimes T) = I6.
Proof.
  intros H. destruct (inverseTransform_rigid T H) as (A & B & R). assert (I : boxTimes I4 = I6). { unfold boxTimes, I6. f_equal; unfold crossMx; vring. }
  rewrite <- !boxTimes_product, A, B by auto. auto.
Qed.

(** ** C74: the Transformation class *)
Definition valid (x : trafo) : Prop := unit4 (tq x).
Lemma norm4_unit q : unit4 q -> norm4 q = 1. Proof. intros H. unfold norm4. rewrite H. apply sqrt_1. Qed.
Lemma normalize4_unit q : unit4 q -> normalize4 q = q.
Proof. intros H. unfold normalize4. rewrite norm4_unit by auto. destruct (Rlt_dec 0 1); auto. destruct q. vunfold. veq; field. Qed.
Lemma unit_qplus p q : unit4 p -> unit4 q -> unit4 (qplus p q).
Proof. unfold unit4. intros A B. replace (dot4 (qplus p q) (qplus p q)) with (dot4 p p * dot4 q q) by (unfold qplus; vring). rewrite A, B. ring. Qed.
Lemma unit_quatInv q : unit4 q -> unit4 (quatInv q).
Proof. unfold unit4. intros A. rewrite <- A. unfold quatInv. vring. Qed.
Lemma unit_identity : unit4 quatIdentity. Proof. unfold unit4, quatIdentity. vunfold. ring. Qed.
(** the constructor from a quaternion normalises it, and keeps the direction *)
Theorem tf_make_valid q t : dot4 q q <> 0 -> valid (tf_make q t) /\ tt (tf_make q t) = t /\ exists s, 0 < s /\ tq (tf_make q t) = scale4 s q.
Proof.
  intros H. unfold tf_make, valid. cbn [tq tt]. assert (P : 0 < norm4 q) by (apply sqrt_lt_R0; unfold dot4 in *; nra). unfold normalize4. destruct (Rlt_dec 0 (norm4 q)); [|lra].
  repeat split. 2: { exists (1 / norm4 q). split; auto. apply Rdiv_lt_0_compat; lra. } unfold unit4. replace (dot4 (scale4 (1 / norm4 q) q) (scale4 (1 / norm4 q) q)) with ((1 / norm4 q) * (1 / norm4 q) * dot4 q q) by vring. rewrite <- norm4_sq. field. lra.
Qed.
Theorem tf_valid :
  valid tf_identity /\ (forall x y, valid x -> valid y -> valid (tf_mul x y)) /\ (forall x, valid x -> valid (tf_inverse x)) /\ (forall T, is_rigid T -> valid (tf_of_matrix T)).
Proof.
  repeat split.
  - apply unit_identity.
  - intros x y A B. unfold valid, tf_mul, tf_make. cbn [tq]. rewrite normalize4_unit; auto using unit_qplus.
  - intros x A. unfold valid, tf_inverse, tf_make. cbn [tq]. rewrite normalize4_unit; auto using unit_quatInv.
  - intros T (C & t & HC & ->). unfold valid, tf_of_matrix. cbn [tq]. rewrite topLeft_rt. apply r2quat_unit. auto.
Qed.
Theorem tf_T_rigid x : valid x -> is_rigid (tf_T x).
Proof. intros H. exists (quat2r (tq x)), (tt x). split; auto. apply quat2r_rotation, H. Qed.
Theorem tf_of_matrix_T T : is_rigid T -> tf_T (tf_of_matrix T) = T.
Proof. intros (C & t & HC & ->). unfold tf_T, tf_of_matrix. cbn [tq tt]. rewrite topLeft_rt, topRight_rt, r2quat_inverts_quat2r; auto. Qed.
Theorem tf_T_of_matrix x : valid x -> tt (tf_of_matrix (tf_T x)) = tt x /\ (tq (tf_of_matrix (tf_T x)) = tq x \/ tq (tf_of_matrix (tf_T x)) = opp4 (tq x)).
Proof. intros H. unfold tf_of_matrix, tf_T. cbn [tq tt]. rewrite topLeft_rt, topRight_rt. split; auto. apply r2quat_quat2r. auto. Qed.
Theorem tf_T3x4_top x p : mv34 (tf_T3x4 x) p = head3 (mv4 (tf_T x) p). Proof. destruct x as [q t]. unfold tf_T3x4, tf_T, mv34. cbn [u0 u1 u2 tq tt]. generalize (quat2r q). vring. Qed.
Theorem tf_identity_T : tf_T tf_identity = I4. Proof. unfold tf_T, tf_identity. cbn [tq tt]. rewrite quat2r_identity. vring. Qed.
Theorem tf_mul_T x y : valid x -> valid y -> tf_T (tf_mul x y) = mm4 (tf_T x) (tf_T y).
Proof.
  intros A B. unfold tf_T, tf_mul, tf_make. cbn [tq tt]. rewrite normalize4_unit by auto using unit_qplus. rewrite rt_mm, quat2r_qplus, quatRotate_matrix by auto. auto.
Qed.
Theorem tf_inverse_T x : valid x -> tf_T (tf_inverse x) = inverseTransform (tf_T x).
Proof.
  intros A. unfold tf_T, tf_inverse, tf_make, inverseTransform. cbn [tq tt]. rewrite normalize4_unit by auto using unit_quatInv. rewrite quatRotate_matrix by auto using unit_quatInv. rewrite topLeft_rt, topRight_rt, quat2r_inv. f_equal. vring.
Qed.
(** the action on points is that of the matrix *)
Theorem tf_act_T x p w : valid x ->
  tf_act4 x (cons4 p w) = mv4 (tf_T x) (cons4 p w) /\ tf_actH x (cons4 p w) = mv4 (tf_T x) (cons4 p w) /\ cons4 (tf_act3 x p) 1 = mv4 (tf_T x) (cons4 p 1) /\ tf_rotate3 x p = mv3 (tf_C x) p /\ cons4 (tf_rotate3 x p) w = tf_rotate4 x (cons4 p w).
Proof.
  intros A. unfold tf_act4, tf_actH, tf_act3, tf_rotate3, tf_rotate4, tf_T, tf_C. rewrite !rt_mv, !head3_cons4. change (e3 (cons4 p w)) with w. rewrite !quatRotate_matrix by auto.
  repeat split. f_equal. rewrite scale3_1; auto.
Qed.
Lemma trafo_eq x y : tq x = tq y -> tt x = tt y -> x = y. Proof. destruct x, y; cbn; intros -> ->; auto. Qed.
Lemma tf_mul_valid x y : valid x -> valid y -> tf_mul x y = TQ (qplus (tq x) (tq y)) (add3 (mv3 (quat2r (tq x)) (tt y)) (tt x)).
Proof. intros A B. unfold tf_mul, tf_make. rewrite normalize4_unit, quatRotate_matrix by auto using unit_qplus. auto. Qed.
Lemma tf_inverse_valid x : valid x -> tf_inverse x = TQ (quatInv (tq x)) (opp3 (mv3 (tr3 (quat2r (tq x))) (tt x))).
Proof. intros A. unfold tf_inverse, tf_make. rewrite normalize4_unit, quatRotate_matrix, quat2r_inv, mv3_opp by auto using unit_quatInv. auto. Qed.
Theorem tf_group x y z : valid x -> valid y -> valid z ->
  tf_mul (tf_mul x y) z = tf_mul x (tf_mul y z) /\ tf_mul tf_identity x = x /\ tf_mul x tf_identity = x /\ tf_mul x (tf_inverse x) = tf_identity /\ tf_mul (tf_inverse x) x = tf_identity /\
  tf_inverse (tf_inverse x) = x /\ tf_inverse (tf_mul x y) = tf_mul (tf_inverse y) (tf_inverse x).
Proof.
  destruct tf_valid as (V1 & V2 & V3' & _). intros A B D. destruct (quat2r_rotation _ A) as [[O1 O2] _]. destruct (quatInv_inverse _ A) as [Q1 Q2].
  repeat split.
  - rewrite !tf_mul_valid by auto. cbn [tq tt]. rewrite qplus_assoc, quat2r_qplus, mv3_mm, mv3_add, add3_assoc. auto.
  - rewrite tf_mul_valid by auto. cbn [tf_identity tq tt]. destruct x as [q t]. cbn [tq tt]. rewrite (proj1 (qplus_identity q)), quat2r_identity, mv3_I. f_equal. vring.
  - rewrite tf_mul_valid by auto. cbn [tf_identity tq tt]. destruct x as [q t]. cbn [tq tt]. rewrite (proj2 (qplus_identity q)). f_equal. vring.
  - rewrite tf_mul_valid by auto. rewrite tf_inverse_valid by auto. cbn [tq tt]. rewrite Q1, mv3_opp, <- mv3_mm, O1, mv3_I. unfold tf_identity. f_equal. vring.
  - rewrite tf_mul_valid by auto. rewrite tf_inverse_valid by auto. cbn [tq tt]. rewrite Q2, quat2r_inv. unfold tf_identity. f_equal. vring.
  - rewrite (tf_inverse_valid (tf_inverse x)) by auto. rewrite tf_inverse_valid by auto. cbn [tq tt]. rewrite quat2r_inv, tr3_tr, mv3_opp, <- mv3_mm, O1, mv3_I. destruct x as [q t]. cbn [tq tt]. f_equal; [unfold quatInv|]; vring.
  - rewrite (tf_inverse_valid (tf_mul x y)), tf_mul_valid, (tf_mul_valid (tf_inverse y)), !tf_inverse_valid by auto. cbn [tq tt]. rewrite quat2r_qplus, quat2r_inv, tr3_mm. f_equal. { unfold quatInv, qplus. vring. }
    rewrite mv3_mm, !mv3_add, mv3_opp, <- (mv3_mm (tr3 (quat2r (tq x)))), O2, mv3_I. generalize (mv3 (tr3 (quat2r (tq y))) (mv3 (tr3 (quat2r (tq x))) (tt x))) (mv3 (tr3 (quat2r (tq y))) (tt y)). clear. vring.
Qed.
Theorem tf_action x y p w : valid x -> valid y ->
  tf_act3 (tf_mul x y) p = tf_act3 x (tf_act3 y p) /\ tf_act4 (tf_mul x y) (cons4 p w) = tf_act4 x (tf_act4 y (cons4 p w)) /\ tf_actH (tf_mul x y) (cons4 p w) = tf_actH x (tf_actH y (cons4 p w)) /\
  tf_act3 (tf_inverse x) (tf_act3 x p) = p /\ tf_act3 tf_identity p = p.
Proof.
  destruct tf_valid as (V1 & V2 & V3' & _). intros A B.
  assert (E3 : forall z r, valid z -> tf_act3 z r = add3 (mv3 (quat2r (tq z)) r) (tt z)) by (intros z r Z; unfold tf_act3; rewrite quatRotate_matrix by auto; auto).
  assert (E4 : forall z r, valid z -> tf_act4 z r = mv4 (tf_T z) r). { intros z [a b c v] Z. apply (tf_act_T z (V3 a b c) v Z). }
  assert (EH : forall z r, valid z -> tf_actH z r = mv4 (tf_T z) r). { intros z [a b c v] Z. apply (tf_act_T z (V3 a b c) v Z). }
  repeat split.
  - rewrite !E3 by auto. rewrite tf_mul_valid by auto. cbn [tq tt]. rewrite quat2r_qplus, mv3_mm, mv3_add, add3_assoc. auto.
  - rewrite !E4, tf_mul_T, mv4_mm by auto. auto.
  - rewrite !EH, tf_mul_T, mv4_mm by auto. auto.
  - rewrite !E3, tf_inverse_valid by auto. cbn [tq tt]. rewrite quat2r_inv, mv3_add, <- mv3_mm. destruct (quat2r_rotation _ A) as [[O1 O2] _]. rewrite O2, mv3_I. generalize (mv3 (tr3 (quat2r (tq x))) (tt x)). clear. vring.
  - rewrite E3 by auto. cbn [tf_identity tq tt]. rewrite quat2r_identity, mv3_I. vring.
Qed.
(** oplus: composes with the quaternion of the update, hence keeps the quaternion unit when that quaternion is *)
Theorem updateQuat_product q d : updateQuat q d = qplus (axisAngle2quat d) q.
Proof. unfold updateQuat. cbv zeta. generalize (axisAngle2quat d). unfold qplus. vring. Qed.
Theorem tf_oplus_valid_partial x d : valid x -> eps4 <= norm3 (lo6 d) \/ lo6 d = zero3 -> valid (tf_oplus x d).
Proof. intros A H. unfold valid, tf_oplus. cbn [tq]. rewrite updateQuat_product. apply unit_qplus; auto. apply axisAngle2quat_unit. auto. Qed.
(** In exact arithmetic the small-angle branch leaves the sphere, by less than the precision of a double. *)
Lemma small_quaternion_norm a : norm3 a < eps4 -> 1 <= dot4 (axisAngle2quat a) (axisAngle2quat a) <= 1 + / 2 ^ 54 /\ (0 < norm3 a -> 1 < dot4 (axisAngle2quat a) (axisAngle2quat a)).
Proof.
  intros H. pose proof (norm3_pos a) as P. unfold axisAngle2quat. rewrite small_true by auto. set (n := norm3 a) in *. set (k := 1 / 2 + n * n * (1 / 48)).
  replace (dot4 (cons4 (scale3 k a) (cos (n * (1 / 2)))) (cons4 (scale3 k a) (cos (n * (1 / 2))))) with (k * k * (n * n) + cos (n * (1 / 2)) * cos (n * (1 / 2))). 2: { unfold n. rewrite norm3_sq. generalize (cos (norm3 a * (1 / 2))). vring. }
  set (x := n * (1 / 2)). assert (X : 0 <= x <= / 16384) by (unfold x, eps4 in *; lra). assert (NX : n = 2 * x) by (unfold x; lra). unfold k. clearbody x n. subst n. pose proof (sc1 x) as S. destruct (sin_cubic x) as [L U]; [lra|].
  set (s := sin x) in *. replace (cos x * cos x) with (1 - s * s) by lra. clear - X L U H P. clearbody s.
  assert (X4 : x * x * (x * x) <= / 2 ^ 56). { assert (x * x <= / 2 ^ 28) by (replace (/ 2 ^ 28) with (/ 16384 * / 16384) by field; nra). replace (/ 2 ^ 56) with (/ 2 ^ 28 * / 2 ^ 28) by field. nra. }
  assert (SP : 0 <= s) by nra. replace ((1 / 2 + 2 * x * (2 * x) * (1 / 48)) * (1 / 2 + 2 * x * (2 * x) * (1 / 48)) * (2 * x * (2 * x))) with ((x + x * x * x / 6) * (x + x * x * x / 6)) by field.
  assert (C0 : 0 <= x * x * x) by nra. split; [split|].
  - nra.
  - assert (Q : (x + x * x * x / 6) * (x + x * x * x / 6) - s * s <= (x + x * x * x / 6) * (x + x * x * x / 6) - (x - x * x * x / 6) * (x - x * x * x / 6)). { assert (0 <= x - x * x * x / 6) by nra. nra. }
    replace ((x + x * x * x / 6) * (x + x * x * x / 6) - (x - x * x * x / 6) * (x - x * x * x / 6)) with (2 / 3 * (x * x * (x * x))) in Q by field. replace (/ 2 ^ 54) with (4 * / 2 ^ 56) by field. assert (0 < / 2 ^ 56) by (apply Rinv_0_lt_compat, pow_lt; lra). set (z := / 2 ^ 56) in *. clearbody z. lra.
  - intros PX. assert (0 < x * x * x) by (assert (0 < x) by lra; assert (0 < x * x) by nra; nra). nra.
Qed.
Theorem tf_oplus_norm x d : valid x -> norm3 (lo6 d) < eps4 -> 1 <= dot4 (tq (tf_oplus x d)) (tq (tf_oplus x d)) <= 1 + / 2 ^ 54.
Proof.
  intros A H. unfold tf_oplus. cbn [tq]. rewrite updateQuat_product. replace (dot4 (qplus (axisAngle2quat (lo6 d)) (tq x)) (qplus (axisAngle2quat (lo6 d)) (tq x))) with (dot4 (axisAngle2quat (lo6 d)) (axisAngle2quat (lo6 d)) * dot4 (tq x) (tq x)) by (generalize (axisAngle2quat (lo6 d)); unfold qplus; vring).
  rewrite A, Rmult_1_r. apply small_quaternion_norm. auto.
Qed.
Theorem tf_oplus_valid_refuted : exists x d, valid x /\ ~ valid (tf_oplus x d).
Proof.
  exists tf_identity, (V6 zero3 (V3 (/ 16384) 0 0)). split; [apply unit_identity|]. unfold valid, tf_oplus. cbn [tq lo6 tf_identity]. rewrite updateQuat_product. destruct (qplus_identity (axisAngle2quat (V3 (/ 16384) 0 0))) as [_ E]. rewrite E.
  assert (N : norm3 (V3 (/ 16384) 0 0) = / 16384) by (apply norm3_x; lra). destruct (small_quaternion_norm (V3 (/ 16384) 0 0)) as [_ G]. rewrite N; unfold eps4; lra. unfold unit4. specialize (G ltac:(lra)). lra.
Qed.

(** ** the hypotheses are met *)
Definition qx : vec4 := V4 (1 / 2) (-1 / 2) (1 / 2) (1 / 2).
Example ex_teuler : euler_range (- vx (lo6 (V6 (V3 1 2 3) (V3 (-1) 1 (-3))))) (- vy (lo6 (V6 (V3 1 2 3) (V3 (-1) 1 (-3))))) (- vz (lo6 (V6 (V3 1 2 3) (V3 (-1) 1 (-3))))).
Proof. cbn [lo6 vx vy vz]. replace (- -1) with 1 by lra. replace (- (1)) with (-1) by lra. replace (- -3) with 3 by lra. exact ex_euler. Qed.
Example ex_rigid : is_rigid (rt (m3 0 0 1 (-1) 0 0 0 (-1) 0) (V3 1 2 3)) /\ -1 < e0 (r42 (rt (m3 0 0 1 (-1) 0 0 0 (-1) 0) (V3 1 2 3))) < 1.
Proof. split. exists (m3 0 0 1 (-1) 0 0 0 (-1) 0), (V3 1 2 3). split; auto. apply ex_unit. vunfold. lra. Qed.
Example ex_valid : valid (TQ qx (V3 1 2 3)) /\ tf_act3 (TQ qx (V3 1 2 3)) (V3 4 5 6) = V3 7 (-2) (-2) /\ tf_mul (TQ qx (V3 1 2 3)) (TQ qx (V3 1 2 3)) <> tf_identity.
Proof.
  assert (V : valid (TQ qx (V3 1 2 3))) by (unfold valid, unit4, qx; cbn [tq]; vunfold; field). split; [auto|split].
  - unfold tf_act3. rewrite quatRotate_matrix by exact V. unfold qx, quat2r. cbn [tq tt]. vunfold. veq; field.
  - rewrite tf_mul_valid by auto. unfold tf_identity, qx, qplus. cbn [tq tt]. vunfold. intros E. injection E. lra.
Qed.
Example ex_oplus : eps4 <= norm3 (lo6 (V6 (V3 1 2 3) (V3 1 0 0))) /\ norm3 (lo6 (V6 (V3 1 2 3) (V3 (/ 16384) 0 0))) < eps4.
Proof. cbn [lo6]. rewrite !norm3_x by lra. unfold eps4. lra. Qed.
