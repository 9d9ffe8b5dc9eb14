(** C65-C69: quaternions. *)
From Verif Require Import Kin_Quat_Model.
From Coq Require Import Lra Psatz.
Open Scope R_scope.

Ltac qunfold := cbv [quat2r quatPlus quatOPlus qplus qoplus quatInv quatIdentity quatRotate quatJacobian quatS quatInvS mv43 mv34 updateQuat qeps qeta s0 s1 s2 s3 u0 u1 u2 unit4 unit3] in *; vunfold.
Ltac qring := intros; vdestruct; qunfold; veq; ring.

(** ** C65 *)
Theorem qplus_assoc p q r : qplus (qplus p q) r = qplus p (qplus q r). Proof. qring. Qed.
Theorem qplus_identity q : qplus quatIdentity q = q /\ qplus q quatIdentity = q. Proof. split; qring. Qed.
Theorem qplus_norm p q : norm4 (qplus p q) = norm4 p * norm4 q.
Proof. unfold norm4. rewrite <- sqrt_mult by (unfold dot4; nra). f_equal. qring. Qed.
Theorem qoplus_flip p q : qoplus p q = qplus q p. Proof. qring. Qed.
Theorem quatPlus_qplus q p : mv4 (quatPlus q) p = qplus q p /\ mv4 (quatOPlus q) p = qoplus q p. Proof. split; qring. Qed.
Theorem quatInv_inverse q : unit4 q -> qplus q (quatInv q) = quatIdentity /\ qplus (quatInv q) q = quatIdentity.
Proof. intros U. unfold unit4 in U. destruct q as [a b c d]. qunfold. split; veq; lra. Qed.
Theorem quatS_inverse q v : unit4 q -> mv34 (quatS q) (mv43 (quatInvS q) v) = v.
Proof.
  intros U. assert (E : mv34 (quatS q) (mv43 (quatInvS q) v) = scale3 (dot4 q q) v) by (vdestruct; qunfold; veq; field). rewrite E, U. vring.
Qed.
Theorem quatInvS_inverse q x : unit4 q -> dot4 q x = 0 -> mv43 (quatInvS q) (mv34 (quatS q) x) = x.
Proof.
  intros U H. assert (E : mv43 (quatInvS q) (mv34 (quatS q) x) = sub4 (scale4 (dot4 q q) x) (scale4 (dot4 q x) q)) by (vdestruct; qunfold; veq; field).
  rewrite E, U, H. vring.
Qed.
Theorem quatInvS_tangent q v : dot4 q (mv43 (quatInvS q) v) = 0.
Proof. qring. Qed.

(** ** C66 *)
Theorem quat2r_rotation q : unit4 q -> is_rotation (quat2r q).
Proof.
  intros U.
  assert (E1 : mm3 (quat2r q) (tr3 (quat2r q)) = mscale3 (dot4 q q * dot4 q q) I3) by qring.
  assert (E2 : mm3 (tr3 (quat2r q)) (quat2r q) = mscale3 (dot4 q q * dot4 q q) I3) by qring.
  assert (E3 : det3 (quat2r q) = dot4 q q * (dot4 q q * dot4 q q)) by qring.
  rewrite U in *. split; [split|]; rewrite ?E1, ?E2, ?E3; vring.
Qed.
Theorem quat2r_qplus q p : quat2r (qplus q p) = mm3 (quat2r q) (quat2r p). Proof. qring. Qed.
Theorem quat2r_inv q : quat2r (quatInv q) = tr3 (quat2r q). Proof. qring. Qed.
Theorem quat2r_identity : quat2r quatIdentity = I3. Proof. qring. Qed.
Theorem quat2r_opp q : quat2r (opp4 q) = quat2r q. Proof. qring. Qed.
Theorem quatRotate_matrix q v : unit4 q -> quatRotate q v = mv3 (quat2r q) v.
Proof.
  intros U. assert (E : mv3 (quat2r q) v = add3 (scale3 (dot4 q q) v) (sub3 (quatRotate q v) v)) by qring.
  rewrite E, U. generalize (quatRotate q v). vring.
Qed.
(** (x, y, z, 0) rotated as q (x,y,z,0) q^-1 *)
Theorem quatRotate_conjugation q v : unit4 q -> qplus q (qplus (cons4 v 0) (quatInv q)) = cons4 (quatRotate q v) 0.
Proof.
  intros U. rewrite quatRotate_matrix by auto. qring.
Qed.

(** ** C67 *)
(** the entries of a rotation matrix are their own cofactors *)
Lemma rotation_cof M : is_rotation M -> M = M3 (cross (r31 M) (r32 M)) (cross (r32 M) (r30 M)) (cross (r30 M) (r31 M)).
Proof.
  intros [[O1 O2] D]. set (cof := M3 (cross (r31 M) (r32 M)) (cross (r32 M) (r30 M)) (cross (r30 M) (r31 M))).
  assert (E2 : mm3 M (tr3 cof) = mscale3 (det3 M) I3) by (unfold cof; vring). rewrite D in E2.
  assert (E3 : tr3 cof = tr3 M). { rewrite <- (mm3_I_l (tr3 cof)), <- O2, mm3_assoc, E2. vring. }
  rewrite <- (tr3_tr cof), E3. symmetry. apply tr3_tr.
Qed.
(** The rank-one matrix 4 q q^T of a rotation matrix: all 2x2 minors vanish and its trace is 4. *)
Lemma rotation_minors c1 c2 c3 c4 c5 c6 c7 c8 c9 : is_rotation (m3 c1 c4 c7 c2 c5 c8 c3 c6 c9) ->
  let k00 := 1 + c1 - c5 - c9 in let k11 := 1 - c1 + c5 - c9 in let k22 := 1 - c1 - c5 + c9 in let k33 := 1 + c1 + c5 + c9 in
  let k01 := c4 + c2 in let k02 := c7 + c3 in let k03 := c8 - c6 in let k12 := c6 + c8 in let k13 := c3 - c7 in let k23 := c4 - c2 in
  (k00 * k11 = k01 * k01 /\ k00 * k22 = k02 * k02 /\ k00 * k33 = k03 * k03 /\ k11 * k22 = k12 * k12 /\ k11 * k33 = k13 * k13 /\ k22 * k33 = k23 * k23) /\
  (k00 * k12 = k01 * k02 /\ k00 * k13 = k01 * k03 /\ k00 * k23 = k02 * k03) /\
  (k11 * k02 = k01 * k12 /\ k11 * k03 = k01 * k13 /\ k11 * k23 = k12 * k13) /\
  (k22 * k01 = k02 * k12 /\ k22 * k03 = k02 * k23 /\ k22 * k13 = k12 * k23) /\
  (k33 * k01 = k03 * k13 /\ k33 * k02 = k03 * k23 /\ k33 * k12 = k13 * k23).
Proof.
  intros H. pose proof (rotation_cof _ H) as C. destruct H as [[O1 O2] _]. vunfold.
  injection C as C1 C2 C3 C4 C5 C6 C7 C8 C9. injection O1 as A1 A2 A3 A4 A5 A6 A7 A8 A9. injection O2 as B1 B2 B3 B4 B5 B6 B7 B8 B9.
  cbn zeta. repeat split; lra.
Qed.

Lemma rank1_branch k a b kab : 0 < k -> k * kab = a * b ->
  let x := 1 / 2 * sqrt k in let c := 1 / 4 / x in 4 * (x * x) = k /\ 4 * (x * (c * a)) = a /\ 4 * (c * a * (c * b)) = kab.
Proof.
  intros K E x c. assert (S : sqrt k * sqrt k = k) by (apply sqrt_sqrt; lra). assert (P : 0 < sqrt k) by (apply sqrt_lt_R0; auto).
  repeat split; unfold c, x.
  - lra.
  - field. lra.
  - apply Rmult_eq_reg_l with k; [|lra]. rewrite E. rewrite <- S at 1. field. lra.
Qed.
(** products of the components determine the matrix *)
Lemma quat2r_products q c1 c2 c3 c4 c5 c6 c7 c8 c9 :
  4 * (e0 q * e0 q) = 1 + c1 - c5 - c9 -> 4 * (e1 q * e1 q) = 1 - c1 + c5 - c9 -> 4 * (e2 q * e2 q) = 1 - c1 - c5 + c9 -> 4 * (e3 q * e3 q) = 1 + c1 + c5 + c9 ->
  4 * (e0 q * e1 q) = c4 + c2 -> 4 * (e0 q * e2 q) = c7 + c3 -> 4 * (e0 q * e3 q) = c8 - c6 -> 4 * (e1 q * e2 q) = c6 + c8 -> 4 * (e1 q * e3 q) = c3 - c7 -> 4 * (e2 q * e3 q) = c4 - c2 ->
  unit4 q /\ quat2r q = m3 c1 c4 c7 c2 c5 c8 c3 c6 c9.
Proof. intros. destruct q as [a b c d]. qunfold. split; [lra|]. veq; lra. Qed.
Lemma r2quat_correct M : is_rotation M -> unit4 (r2quat M) /\ quat2r (r2quat M) = M /\ 0 <= e3 (r2quat M).
Proof.
  intros H. destruct M as [[c1 c4 c7] [c2 c5 c8] [c3 c6 c9]].
  destruct (rotation_minors _ _ _ _ _ _ _ _ _ H) as ((M01 & M02 & M03 & M12 & M13 & M23) & (A1 & A2 & A3) & (B1 & B2 & B3) & (C1 & C2 & C3) & (D1 & D2 & D3)).
  assert (N : forall a b c d, a + b + c + d = 4 -> 0 <= a * b -> 0 <= a * c -> 0 <= a * d -> 0 <= a) by (intros; nra).
  assert (N0 : 0 <= 1 + c1 - c5 - c9). { apply (N _ (1 - c1 + c5 - c9) (1 - c1 - c5 + c9) (1 + c1 + c5 + c9)); [lra|rewrite ?M01, ?M02, ?M03; apply Rle_0_sqr..]. }
  assert (N1 : 0 <= 1 - c1 + c5 - c9). { apply (N _ (1 + c1 - c5 - c9) (1 - c1 - c5 + c9) (1 + c1 + c5 + c9)); [lra|rewrite 1?(Rmult_comm _ (1 + c1 - c5 - c9)), ?M01, ?M12, ?M13; apply Rle_0_sqr..]. }
  assert (N2 : 0 <= 1 - c1 - c5 + c9). { apply (N _ (1 + c1 - c5 - c9) (1 - c1 + c5 - c9) (1 + c1 + c5 + c9)); [lra| | |]. rewrite Rmult_comm, M02; apply Rle_0_sqr. rewrite Rmult_comm, M12; apply Rle_0_sqr. rewrite M23; apply Rle_0_sqr. }
  assert (N3 : 0 <= 1 + c1 + c5 + c9). { apply (N _ (1 + c1 - c5 - c9) (1 - c1 + c5 - c9) (1 - c1 - c5 + c9)); [lra| | |]; rewrite Rmult_comm, ?M03, ?M13, ?M23; apply Rle_0_sqr. }
  clear N H.
  assert (Last : forall q, unit4 q /\ quat2r q = m3 c1 c4 c7 c2 c5 c8 c3 c6 c9 -> let q' := if Rlt_dec (e3 q) 0 then opp4 q else q in
                 unit4 q' /\ quat2r q' = m3 c1 c4 c7 c2 c5 c8 c3 c6 c9 /\ 0 <= e3 q').
  { intros q (U & E) q'. unfold q'. destruct (Rlt_dec (e3 q) 0).
    - rewrite quat2r_opp. repeat split; auto. unfold unit4 in *. rewrite <- U. vring. unfold opp4; cbn [e3]. lra.
    - repeat split; auto; lra. }
  assert (R0 : 0 < 1 + c1 - c5 - c9 -> let x := 1 / 2 * sqrt (1 + c1 - c5 - c9) in let c := 1 / 4 / x in let q := V4 x (c * (c4 + c2)) (c * (c7 + c3)) (c * (c8 - c6)) in
               unit4 q /\ quat2r q = m3 c1 c4 c7 c2 c5 c8 c3 c6 c9).
  { intros K x c q.
    destruct (rank1_branch _ _ _ _ K M01) as (P00 & P01 & P11). destruct (rank1_branch _ _ _ _ K M02) as (_ & P02 & P22). destruct (rank1_branch _ _ _ _ K M03) as (_ & P03 & P33).
    destruct (rank1_branch _ _ _ _ K A1) as (_ & _ & P12). destruct (rank1_branch _ _ _ _ K A2) as (_ & _ & P13). destruct (rank1_branch _ _ _ _ K A3) as (_ & _ & P23).
    apply quat2r_products; cbn [e0 e1 e2 e3 q]; auto. }
  assert (R1 : 0 < 1 - c1 + c5 - c9 -> let x := 1 / 2 * sqrt (1 - c1 + c5 - c9) in let c := 1 / 4 / x in let q := V4 (c * (c4 + c2)) x (c * (c6 + c8)) (c * (c3 - c7)) in
               unit4 q /\ quat2r q = m3 c1 c4 c7 c2 c5 c8 c3 c6 c9).
  { intros K x c q. rewrite (Rmult_comm (1 + c1 - c5 - c9)) in M01.
    destruct (rank1_branch _ _ _ _ K M01) as (P00 & P01 & P11). destruct (rank1_branch _ _ _ _ K M12) as (_ & P02 & P22). destruct (rank1_branch _ _ _ _ K M13) as (_ & P03 & P33).
    destruct (rank1_branch _ _ _ _ K B1) as (_ & _ & P12). destruct (rank1_branch _ _ _ _ K B2) as (_ & _ & P13). destruct (rank1_branch _ _ _ _ K B3) as (_ & _ & P23).
    apply quat2r_products; cbn [e0 e1 e2 e3 q]; auto; try (rewrite Rmult_comm with (r2 := x); auto). }
  assert (R2 : 0 < 1 - c1 - c5 + c9 -> let x := 1 / 2 * sqrt (1 - c1 - c5 + c9) in let c := 1 / 4 / x in let q := V4 (c * (c3 + c7)) (c * (c6 + c8)) x (c * (c4 - c2)) in
               unit4 q /\ quat2r q = m3 c1 c4 c7 c2 c5 c8 c3 c6 c9).
  { intros K x c q. rewrite (Rmult_comm (1 + c1 - c5 - c9)) in M02. rewrite (Rmult_comm (1 - c1 + c5 - c9)) in M12. rewrite (Rplus_comm c7) in *.
    destruct (rank1_branch _ _ _ _ K M02) as (P00 & P01 & P11). destruct (rank1_branch _ _ _ _ K M12) as (_ & P02 & P22). destruct (rank1_branch _ _ _ _ K M23) as (_ & P03 & P33).
    destruct (rank1_branch _ _ _ _ K C1) as (_ & _ & P12). destruct (rank1_branch _ _ _ _ K C2) as (_ & _ & P13). destruct (rank1_branch _ _ _ _ K C3) as (_ & _ & P23).
    apply quat2r_products; cbn [e0 e1 e2 e3 q]; auto; try (rewrite Rmult_comm with (r2 := x); auto). rewrite (Rplus_comm c7). auto. }
  assert (R3 : 0 < 1 + c1 + c5 + c9 -> let x := 1 / 2 * sqrt (1 + c1 + c5 + c9) in let c := 1 / 4 / x in let q := V4 (c * (c8 - c6)) (c * (c3 - c7)) (c * (c4 - c2)) x in
               unit4 q /\ quat2r q = m3 c1 c4 c7 c2 c5 c8 c3 c6 c9).
  { intros K x c q. rewrite (Rmult_comm (1 + c1 - c5 - c9)) in M03. rewrite (Rmult_comm (1 - c1 + c5 - c9)) in M13. rewrite (Rmult_comm (1 - c1 - c5 + c9)) in M23.
    destruct (rank1_branch _ _ _ _ K M03) as (P00 & P01 & P11). destruct (rank1_branch _ _ _ _ K M13) as (_ & P02 & P22). destruct (rank1_branch _ _ _ _ K M23) as (_ & P03 & P33).
    destruct (rank1_branch _ _ _ _ K D1) as (_ & _ & P12). destruct (rank1_branch _ _ _ _ K D2) as (_ & _ & P13). destruct (rank1_branch _ _ _ _ K D3) as (_ & _ & P23).
    apply quat2r_products; cbn [e0 e1 e2 e3 q]; auto; try (rewrite Rmult_comm with (r2 := x); auto). }
  unfold r2quat. cbn [vx vy vz r30 r31 r32]. cbn zeta.
  rewrite (Rabs_pos_eq _ N0), (Rabs_pos_eq _ N1), (Rabs_pos_eq _ N2), (Rabs_pos_eq _ N3).
  destruct (Rlt_dec (1 + c1 - c5 - c9) (1 - c1 + c5 - c9)); cbv beta iota;
  match goal with |- context [Rlt_dec ?a (1 - c1 - c5 + c9)] => destruct (Rlt_dec a (1 - c1 - c5 + c9)) end; cbv beta iota;
  match goal with |- context [Rlt_dec ?a (1 + c1 + c5 + c9)] => destruct (Rlt_dec a (1 + c1 + c5 + c9)) end; cbv beta iota; apply Last; first [apply R0; lra | apply R1; lra | apply R2; lra | apply R3; lra].
Qed.
Theorem r2quat_inverts_quat2r R : is_rotation R -> quat2r (r2quat R) = R.
Proof. intros H. apply r2quat_correct, H. Qed.
Theorem r2quat_unit R : is_rotation R -> unit4 (r2quat R) /\ 0 <= e3 (r2quat R).
Proof. intros H. apply r2quat_correct in H. tauto. Qed.
(** the two unit quaternions of a rotation matrix *)
Theorem quat2r_injective p q : unit4 p -> unit4 q -> quat2r p = quat2r q -> p = q \/ p = opp4 q.
Proof.
  intros U V E. destruct p as [a b c d], q as [x y z w]. unfold unit4 in *. qunfold. injection E as E1 E2 E3 E4 E5 E6 E7 E8 E9.
  assert (P : (a * x + b * y + c * z + d * w) * (a * x + b * y + c * z + d * w) = 1).
  { replace 1 with ((x*x+y*y+z*z+w*w) * (x*x+y*y+z*z+w*w)) by (rewrite V; ring).
    assert (a * a = x * x) by lra. assert (b * b = y * y) by lra. assert (c * c = z * z) by lra. assert (d * d = w * w) by lra.
    assert (a * b = x * y) by lra. assert (a * c = x * z) by lra. assert (a * d = x * w) by lra. assert (b * c = y * z) by lra. assert (b * d = y * w) by lra. assert (c * d = z * w) by lra.
    transitivity ((a * a) * (x * x) + (b * b) * (y * y) + (c * c) * (z * z) + (d * d) * (w * w) + 2 * (a * b) * (x * y) + 2 * (a * c) * (x * z) + 2 * (a * d) * (x * w) + 2 * (b * c) * (y * z) + 2 * (b * d) * (y * w) + 2 * (c * d) * (z * w)); [ring|].
    repeat match goal with H : _ * _ = _ * _ |- _ => rewrite H; clear H end. ring. }
  set (t := a * x + b * y + c * z + d * w) in *.
  assert (S : forall r s u v, r * r + s * s + u * u + v * v = 0 -> r = 0 /\ s = 0 /\ u = 0 /\ v = 0) by (intros; repeat split; nra).
  assert (T : t = 1 \/ t = -1) by (assert (Z : (t - 1) * (t + 1) = 0) by lra; apply Rmult_integral in Z; destruct Z; [left|right]; lra).
  destruct T as [T|T]; [left|right].
  - assert (Q : (a - x) * (a - x) + (b - y) * (b - y) + (c - z) * (c - z) + (d - w) * (d - w) = 0) by (unfold t in T; lra).
    destruct (S _ _ _ _ Q) as (? & ? & ? & ?). f_equal; lra.
  - assert (Q : (a + x) * (a + x) + (b + y) * (b + y) + (c + z) * (c + z) + (d + w) * (d + w) = 0) by (unfold t in T; lra).
    destruct (S _ _ _ _ Q) as (? & ? & ? & ?). f_equal; lra.
Qed.
Theorem r2quat_quat2r q : unit4 q -> (r2quat (quat2r q) = q \/ r2quat (quat2r q) = opp4 q) /\ (0 < e3 q -> r2quat (quat2r q) = q).
Proof.
  intros U. destruct (r2quat_correct _ (quat2r_rotation _ U)) as (V & E & N).
  destruct (quat2r_injective _ _ V U E) as [F|F]; rewrite F; split; auto.
  intros P. rewrite F in N. destruct q as [a b c d]. unfold opp4 in N. cbn [e3] in *. lra.
Qed.

(** ** C68 *)
(** Specification: the unit quaternion of the rotation about a/|a| by |a| *)
Definition rotation_quaternion (a : vec3) (q : vec4) : Prop :=
  a = zero3 /\ q = quatIdentity \/
  0 < norm3 a /\ q = V4 (sin (norm3 a / 2) / norm3 a * vx a) (sin (norm3 a / 2) / norm3 a * vy a) (sin (norm3 a / 2) / norm3 a * vz a) (cos (norm3 a / 2)).

Lemma norm3_0 : norm3 zero3 = 0.
Proof. unfold norm3. replace (dot3 zero3 zero3) with 0 by vring. apply sqrt_0. Qed.
Lemma eps4_pos : 0 < eps4. Proof. unfold eps4. lra. Qed.
Lemma small_true x : x < eps4 -> small x = true. Proof. unfold small. destruct (Rlt_dec x eps4); tauto. Qed.
Lemma small_false x : eps4 <= x -> small x = false. Proof. unfold small. destruct (Rlt_dec x eps4); auto; lra. Qed.
Theorem axisAngle2quat_exact a : eps4 <= norm3 a \/ a = zero3 -> rotation_quaternion a (axisAngle2quat a).
Proof.
  intros H. unfold axisAngle2quat, rotation_quaternion. destruct H as [H| ->].
  - right. rewrite small_false by auto. split; [pose proof eps4_pos; lra|]. destruct a as [x y z]. unfold cons4, scale3. cbn [vx vy vz]. replace (norm3 (V3 x y z) * (1 / 2)) with (norm3 (V3 x y z) / 2) by lra. auto.
  - left. split; auto. rewrite norm3_0, small_true by apply eps4_pos. replace (0 * (1 / 2)) with 0 by lra. rewrite cos_0. qring.
Qed.
Theorem rotation_quaternion_unit a q : rotation_quaternion a q -> unit4 q.
Proof.
  intros [(-> & ->)|(P & ->)]. qring. unfold unit4, dot4. cbn [e0 e1 e2 e3]. set (n := norm3 a) in *.
  replace (_ + _ + _) with (sin (n / 2) / n * (sin (n / 2) / n) * dot3 a a + cos (n / 2) * cos (n / 2)) by (unfold dot3; ring).
  rewrite <- norm3_sq. fold n. replace (_ * (n * n)) with (sin (n / 2) * sin (n / 2)) by (field; lra). apply sin2_cos2.
Qed.
Theorem axisAngle2quat_unit a : eps4 <= norm3 a \/ a = zero3 -> unit4 (axisAngle2quat a).
Proof. intros H. eapply rotation_quaternion_unit, axisAngle2quat_exact, H. Qed.
Lemma sin_cubic x : 0 <= x <= 1 -> x - x * x * x / 6 <= sin x <= x.
Proof.
  intros [H1 H2]. assert (PI4 : x <= PI) by (pose proof PI2_1; pose proof PI_RGT_0; lra). split.
  - destruct (SIN x H1 PI4) as (L & _). unfold sin_lb, sin_approx, sin_term in L. cbn in L. eapply Rle_trans; [|exact L]. clear L.
    assert (A : 0 <= x * (x * (x * (x * (x * 1))))) by (repeat apply Rmult_le_pos; lra). assert (B : 0 <= (1 - x * x / 42) * (x * (x * (x * (x * (x * 1)))))) by (apply Rmult_le_pos; auto; nra).
    nra.
  - destruct (Req_dec x 0) as [-> |]. rewrite sin_0; lra. left. apply sin_lt_x. lra.
Qed.
Lemma cos_quartic x : 0 <= x <= 1 -> 1 - x * x / 2 <= cos x <= 1 - x * x / 2 + x * x * (x * x) / 24.
Proof.
  intros H. destruct (sin_cubic (x / 2)) as (L & U); [lra|]. replace (cos x) with (1 - 2 * sin (x / 2) * sin (x / 2)) by (rewrite <- cos_2a_sin; f_equal; lra).
  set (s := sin (x / 2)) in *. assert (P : 0 <= x / 2 - x / 2 * (x / 2) * (x / 2) / 6) by nra. split; [nra|].
  assert (K : (x / 2 - x / 2 * (x / 2) * (x / 2) / 6) * (x / 2 - x / 2 * (x / 2) * (x / 2) / 6) <= s * s) by (apply Rmult_le_compat; auto).
  assert (0 <= x * x * (x * x * (x * x))) by (repeat apply Rmult_le_pos; lra). lra.
Qed.
(** The small-angle branch: its distance from the rotation quaternion is at most |a|^3/24 and its squared norm exceeds 1 by at most |a|^4/12. *)
Theorem axisAngle2quat_small_partial a q : 0 < norm3 a < eps4 -> rotation_quaternion a q ->
  e3 (axisAngle2quat a) = e3 q /\ norm4 (sub4 (axisAngle2quat a) q) <= norm3 a * norm3 a * norm3 a / 24 /\
  1 <= dot4 (axisAngle2quat a) (axisAngle2quat a) <= 1 + norm3 a * norm3 a * norm3 a * norm3 a / 12.
Proof.
  intros [H1 H2] [(-> & _)|(_ & ->)]. rewrite norm3_0 in H1; lra.
  unfold axisAngle2quat. rewrite small_true by auto. set (n := norm3 a) in *. cbn [e3 cons4]. assert (n < /8192) by exact H2.
  destruct (sin_cubic (n / 2)) as (L & U); [lra|]. replace (n * (1 / 2)) with (n / 2) by lra. set (s := sin (n / 2)) in *.
  assert (D : dot3 a a = n * n) by (symmetry; apply norm3_sq).
  assert (S1 : 0 <= n * n * n) by (repeat apply Rmult_le_pos; lra). assert (S2 : 0 < n * n) by nra.
  split; [reflexivity|]. split.
  - unfold norm4. rewrite <- (sqrt_square (n * n * n / 24)) by lra. apply sqrt_le_1_alt.
    replace (dot4 _ _) with ((1 / 2 + n * n * (1 / 48) - s / n) * (1 / 2 + n * n * (1 / 48) - s / n) * dot3 a a) by vring.
    rewrite D. replace (_ * (n * n)) with ((n / 2 + n * n * n / 48 - s) * (n / 2 + n * n * n / 48 - s)) by (field; lra).
    apply Rmult_le_compat; nra.
  - replace (dot4 _ _) with ((1 / 2 + n * n * (1 / 48)) * (1 / 2 + n * n * (1 / 48)) * dot3 a a + cos (n / 2) * cos (n / 2)) by vring.
    rewrite D. assert (C : s * s + cos (n / 2) * cos (n / 2) = 1) by apply sin2_cos2. replace (cos (n / 2) * cos (n / 2)) with (1 - s * s) by lra.
    replace (_ + _) with (1 + (n / 2 + n * n * n / 48 - s) * (n / 2 + n * n * n / 48 + s)) by field.
    assert (A : 0 <= n / 2 + n * n * n / 48 - s <= n * n * n / 24) by nra. assert (s0 : 0 <= s) by nra. assert (B : 0 <= n / 2 + n * n * n / 48 + s <= 2 * n) by nra.
    split. assert (0 <= (n / 2 + n * n * n / 48 - s) * (n / 2 + n * n * n / 48 + s)) by (apply Rmult_le_pos; lra). lra.
    assert ((n / 2 + n * n * n / 48 - s) * (n / 2 + n * n * n / 48 + s) <= (n * n * n / 24) * (2 * n)) by (apply Rmult_le_compat; lra). lra.
Qed.
(** It does not agree to double precision: the coefficient of |a|^2 has the wrong sign (1/2 + |a|^2/48 for 1/2 - |a|^2/48), and for the vector
    below the error is more than 16 units of the last place of 1 (2^-52). *)
Lemma norm3_x x : 0 <= x -> norm3 (V3 x 0 0) = x.
Proof. intros. unfold norm3. replace (dot3 (V3 x 0 0) (V3 x 0 0)) with (x * x) by vring. apply sqrt_square; auto. Qed.
Theorem axisAngle2quat_precision_refuted : exists a q, 0 < norm3 a < eps4 /\ rotation_quaternion a q /\ 16 * / 2 ^ 52 < e0 (axisAngle2quat a) - e0 q.
Proof.
  set (x := / 16384). assert (N : norm3 (V3 x 0 0) = x) by (apply norm3_x; unfold x; lra).
  exists (V3 x 0 0), (V4 (sin (x / 2) / x * x) (sin (x / 2) / x * 0) (sin (x / 2) / x * 0) (cos (x / 2))). rewrite N. split; [unfold x, eps4; lra|]. split.
  - right. rewrite N. split; [unfold x; lra|]. auto.
  - unfold axisAngle2quat. rewrite N, small_true by (unfold x, eps4; lra). cbn [e0 cons4 scale3 vx]. destruct (sin_cubic (x / 2)) as (_ & U); [unfold x; lra|].
    replace (sin (x / 2) / x * x) with (sin (x / 2)) by (field; unfold x; lra). unfold x in *. lra.
Qed.

(** ** C69 *)
Lemma cons4_eq a w b z : a = b -> w = z -> cons4 a w = cons4 b z. Proof. congruence. Qed.
Lemma scale3_1 a s : s = 1 -> scale3 s a = a. Proof. intros ->. vring. Qed.
Lemma scale3_scale s t a : scale3 s (scale3 t a) = scale3 (s * t) a. Proof. vring. Qed.
Lemma head3_cons4 a w : head3 (cons4 a w) = a. Proof. destruct a; auto. Qed.
Lemma axisAngle2quat_big a : eps4 <= norm3 a -> axisAngle2quat a = cons4 (scale3 (sin (norm3 a / 2) / norm3 a) a) (cos (norm3 a / 2)).
Proof. intros. unfold axisAngle2quat. rewrite small_false by auto. replace (norm3 a * (1 / 2)) with (norm3 a / 2) by lra. auto. Qed.
(** log(exp a) for 2^-13 <= |a| < 2 pi *)
Lemma log_exp_big a : eps4 <= norm3 a < 2 * PI ->
  qlog (qexp a) = Some (if Rle_dec (cos (norm3 a / 2)) (sin (norm3 a / 2)) then a
                        else if Rlt_dec (sin (norm3 a / 2)) eps4 then scale3 (2 * sin (norm3 a / 2) / norm3 a) a else a).
Proof.
  intros [H1 H2]. unfold qlog, qexp. rewrite axisAngle2quat_big by auto. pose proof eps4_pos as E. set (n := norm3 a) in *.
  assert (S : 0 < sin (n / 2)) by (apply sin_gt_0; lra).
  unfold quat2AxisAngle, qeps, qeta. rewrite head3_cons4. cbn [e3 cons4].
  assert (N : norm3 (scale3 (sin (n / 2) / n) a) = sin (n / 2)).
  { rewrite norm3_scale. fold n. field; lra. apply Rlt_le, Rdiv_lt_0_compat; lra. }
  rewrite N. set (s := sin (n / 2)) in *. set (c := cos (n / 2)) in *. assert (Q : s * s + c * c = 1) by apply sin2_cos2.
  destruct (Rlt_dec (Rabs c) s) as [C1|C1].
  - unfold c at 1. rewrite acos_cos by lra. rewrite scale3_scale, scale3_1 by (field; lra). destruct (Rle_dec c s) as [|N1]; auto. exfalso. apply N1. apply Rabs_def2 in C1. lra.
  - destruct (Rlt_dec 0 c) as [C2|C2].
    + rewrite (Rabs_pos_eq c) in C1 by lra.
      assert (HP : n / 2 < PI / 2). { destruct (Rlt_dec (n / 2) (PI / 2)); auto. exfalso. assert (c <= 0) by (apply cos_le_0; lra). lra. }
      unfold arcSinXOverX. rewrite (Rabs_pos_eq s) by lra.
      unfold small. destruct (Rlt_dec s eps4) as [C3|C3].
      * destruct (Rle_dec c s) as [C4|C4]. exfalso. assert (c = s) by lra. assert (s * s <= eps4 * eps4) by nra. unfold eps4 in *. nra.
        f_equal. rewrite scale3_scale. f_equal. field; lra.
      * unfold s at 1. rewrite asin_sin by lra. rewrite scale3_scale, scale3_1 by (fold s; field; lra). destruct (Rle_dec c s); auto.
    + destruct (Req_EM_T s 0) as [C3|C3]; [lra|].
      assert (HP : PI / 2 <= n / 2). { destruct (Rle_dec (PI / 2) (n / 2)); auto. exfalso. assert (0 < c) by (apply cos_gt_0; lra). lra. }
      assert (A : asin s = PI - n / 2). { unfold s. rewrite <- sin_PI_x. rewrite asin_sin by lra. auto. }
      rewrite A, scale3_scale, scale3_1 by (field; lra). destruct (Rle_dec c s) as [|N1]; auto. exfalso. lra.
Qed.
(** The logarithm inverts the exponential exactly when the quaternion's vector part is not small, or the angle is beyond pi. *)
Theorem quat_log_exp_partial a : eps4 <= norm3 a < 2 * PI -> eps4 <= sin (norm3 a / 2) \/ PI <= norm3 a -> quat2AxisAngle (axisAngle2quat a) = Some a.
Proof.
  intros H C. change (qlog (qexp a) = Some a). rewrite log_exp_big by auto. f_equal. destruct (Rle_dec _ _) as [|N]; auto. destruct (Rlt_dec _ _) as [L|]; auto.
  exfalso. destruct C as [C|C]; [lra|]. pose proof PI_RGT_0. assert (cos (norm3 a / 2) <= 0) by (apply cos_le_0; lra).
  assert (0 <= sin (norm3 a / 2)) by (apply sin_ge_0; lra). lra.
Qed.
(** In the small-angle regime it returns a vector of the same direction, too long by |a|^2/24 (or too short by the sine of the half angle). *)
Theorem quat_log_exp_small_partial a : norm3 a < eps4 -> quat2AxisAngle (axisAngle2quat a) = Some (scale3 (1 + norm3 a * norm3 a / 24) a).
Proof.
  intros H. unfold axisAngle2quat. rewrite small_true by auto. set (n := norm3 a) in *. assert (P : 0 <= n) by apply norm3_pos.
  unfold quat2AxisAngle, qeps, qeta. rewrite head3_cons4. cbn [e3 cons4]. replace (n * (1 / 2)) with (n / 2) by lra. rewrite norm3_scale by nra. fold n.
  assert (n < / 8192) by exact H.
  assert (C : 1 / 2 < cos (n / 2)). { rewrite <- cos_PI3. apply cos_decreasing_1; try (pose proof PI2_1; pose proof PI_RGT_0; lra). }
  assert (B : (1 / 2 + n * n * (1 / 48)) * n < eps4) by (unfold eps4; nra).
  rewrite (Rabs_pos_eq (cos (n / 2))) by lra. unfold eps4 in B. destruct (Rlt_dec (cos (n / 2)) _); [lra|]. destruct (Rlt_dec 0 (cos (n / 2))); [|lra].
  unfold arcSinXOverX. rewrite Rabs_pos_eq by (apply Rmult_le_pos; nra). rewrite small_true by exact B. f_equal. rewrite scale3_scale. f_equal. field.
Qed.
(** Between the two thresholds it is too short by the sine quotient, at most a relative |a|^2/24. *)
Theorem quat_log_exp_between_partial a : eps4 <= norm3 a < PI -> sin (norm3 a / 2) < eps4 ->
  exists k, quat2AxisAngle (axisAngle2quat a) = Some (scale3 k a) /\ 1 - norm3 a * norm3 a / 24 <= k < 1.
Proof.
  intros [H1 H2] S. exists (2 * sin (norm3 a / 2) / norm3 a). pose proof PI_RGT_0 as PP. split.
  - change (qlog (qexp a) = Some (scale3 (2 * sin (norm3 a / 2) / norm3 a) a)). rewrite log_exp_big by lra. f_equal. destruct (Rle_dec _ _) as [L|L].
    + exfalso. assert (0 < cos (norm3 a / 2)) by (apply cos_gt_0; pose proof eps4_pos; lra). assert (0 < sin (norm3 a / 2)) by (apply sin_gt_0; pose proof eps4_pos; lra).
      pose proof (sin2_cos2 (norm3 a / 2)) as Q. unfold Rsqr in Q. unfold eps4 in *. nra.
    + destruct (Rlt_dec _ _); auto. lra.
  - set (n := norm3 a) in *. pose proof eps4_pos as E. assert (N1 : 0 < n) by lra.
    (* sin increasing on [0, pi/2]: n/2 <= 1 *)
    assert (N2 : n / 2 <= 1). { destruct (Rle_dec (n / 2) 1) as [|G]; auto. exfalso. assert (sin 1 <= sin (n / 2)) by (pose proof PI2_1; apply sin_incr_1; lra). destruct (sin_cubic 1) as (L & _); [lra|]. unfold eps4 in *. lra. }
    destruct (sin_cubic (n / 2)) as (L & U); [lra|]. assert (U' : sin (n / 2) < n / 2) by (apply sin_lt_x; lra). set (s := sin (n / 2)) in *. split.
    + apply Rmult_le_reg_r with n; auto. replace (2 * s / n * n) with (2 * s) by (field; lra). nra.
    + apply Rmult_lt_reg_r with n; auto. replace (2 * s / n * n) with (2 * s) by (field; lra). lra.
Qed.
Theorem quat_log_exp_refuted : exists a, 0 < norm3 a < 2 * PI /\ quat2AxisAngle (axisAngle2quat a) <> Some a.
Proof.
  set (x := / 16384). assert (N : norm3 (V3 x 0 0) = x) by (apply norm3_x; unfold x; lra). exists (V3 x 0 0). split.
  - rewrite N. pose proof PI2_1. unfold x. lra.
  - rewrite quat_log_exp_small_partial by (rewrite N; unfold x, eps4; lra). rewrite N. unfold scale3. cbn [vx vy vz]. intros E. injection E as E _ _. unfold x in E. lra.
Qed.

(** exp(log q) *)
Lemma asin_pos x : 0 < x <= 1 -> 0 < asin x.
Proof.
  intros H. destruct (Rlt_dec 0 (asin x)) as [|G]; auto. exfalso. pose proof (asin_bound x). pose proof PI_RGT_0.
  assert (0 <= sin (- asin x)) by (apply sin_ge_0; lra). rewrite sin_neg, sin_asin in H2 by lra. lra.
Qed.
Lemma unit4_parts q : unit4 q -> norm3 (head3 q) * norm3 (head3 q) + e3 q * e3 q = 1.
Proof. intros U. rewrite norm3_sq. rewrite <- U. vring. Qed.
Lemma exp_scaled q w k : unit4 q -> eps4 <= w -> norm3 (scale3 k (head3 q)) = w -> sin (w / 2) = w / k -> k <> 0 -> cos (w / 2) = e3 q -> 0 < w ->
  axisAngle2quat (scale3 k (head3 q)) = q.
Proof.
  intros U W N S K C P. rewrite axisAngle2quat_big by (rewrite N; auto). rewrite N, S, C, scale3_scale, scale3_1 by (field; lra). destruct q; auto.
Qed.
Theorem quat_exp_log_partial q : unit4 q -> eps4 <= norm3 (head3 q) \/ e3 q <= 0 /\ head3 q <> zero3 \/ q = quatIdentity ->
  exists a, quat2AxisAngle q = Some a /\ axisAngle2quat a = q /\ norm3 a < 2 * PI.
Proof.
  intros U H. pose proof (unit4_parts q U) as Q. pose proof eps4_pos as E. pose proof PI_RGT_0 as PP. pose proof PI2_1 as PO.
  destruct (Req_dec (norm3 (head3 q)) 0) as [Z|Z].
  { assert (q = quatIdentity) as ->. { destruct H as [H|[[_ H]|H]]; auto. lra. exfalso. apply H, norm3_zero, Z. }
    exists zero3. unfold quat2AxisAngle, qeps, qeta. rewrite Z. change (e3 quatIdentity) with 1. rewrite Rabs_pos_eq by lra. destruct (Rlt_dec 1 0); [lra|]. destruct (Rlt_dec 0 1); [|lra].
    split. f_equal. unfold quatIdentity. vring. rewrite norm3_0. split; [|lra]. destruct (axisAngle2quat_exact zero3 (or_intror eq_refl)) as [(_ & X)|(X & _)]; auto. rewrite norm3_0 in X; lra. }
  unfold quat2AxisAngle, qeps, qeta. set (n := norm3 (head3 q)) in *. set (c := e3 q) in *.
  assert (P : 0 < n) by (assert (0 <= n) by apply norm3_pos; lra).
  assert (NC : n <= 1) by nra. assert (CC : -1 < c < 1) by nra.
  destruct (Rlt_dec (Rabs c) n) as [B1|B1].
  - assert (AB : 0 < acos c < PI) by (apply acos_bound_lt; lra).
    assert (A1 : 1 / 2 <= acos c). { destruct (Rle_dec (1 / 2) (acos c)) as [|G]; auto. exfalso.
      assert (cos (PI / 4) <= cos (acos c)) by (apply cos_decr_1; lra). rewrite cos_acos in H0 by lra. apply Rabs_def2 in B1.
      assert (0 < cos (PI / 4)) by (apply cos_gt_0; lra). assert (cos (PI / 4) * cos (PI / 4) = 1 / 2). { pose proof (sin2_cos2 (PI / 4)) as K. rewrite sin_cos_PI4 in K. unfold Rsqr in K. lra. } nra. }
    eexists. split; [reflexivity|].
    assert (N : norm3 (scale3 (2 * (acos c / n)) (head3 q)) = 2 * acos c). { rewrite norm3_scale. fold n. field; lra. apply Rmult_le_pos; [lra|]. apply Rlt_le, Rdiv_lt_0_compat; lra. }
    split; [|rewrite N; lra]. apply exp_scaled with (2 * acos c); auto.
    + unfold eps4; lra.
    + replace (2 * acos c / 2) with (acos c) by lra. rewrite sin_acos by lra. replace (1 - Rsqr c) with (n * n) by (unfold Rsqr; lra). rewrite sqrt_square by lra. field. split; lra.
    + assert (0 < acos c / n) by (apply Rdiv_lt_0_compat; lra). lra.
    + replace (2 * acos c / 2) with (acos c) by lra. rewrite cos_acos by lra. reflexivity.
    + lra.
  - destruct (Rlt_dec 0 c) as [B2|B2].
    + assert (S : eps4 <= n). { destruct H as [H|[[H _]|H]]; try lra. exfalso. apply Z. subst n. rewrite H. apply norm3_0. }
      unfold arcSinXOverX. rewrite (Rabs_pos_eq n) by lra. rewrite small_false by auto.
      assert (AS : n <= asin n <= PI / 2). { split; [|apply asin_bound]. destruct (Rle_dec n (asin n)) as [|G]; auto. exfalso. pose proof (asin_bound n).
        assert (0 < asin n). { apply asin_pos; lra. } pose proof (sin_lt_x (asin n) ltac:(lra)) as K. rewrite sin_asin in K by lra. lra. }
      eexists. split; [reflexivity|].
      assert (N : norm3 (scale3 (2 * (asin n / n)) (head3 q)) = 2 * asin n). { rewrite norm3_scale. fold n. field; lra. apply Rmult_le_pos; [lra|]. apply Rlt_le, Rdiv_lt_0_compat; lra. }
      split; [|rewrite N; lra]. apply exp_scaled with (2 * asin n); auto.
      * lra.
      * replace (2 * asin n / 2) with (asin n) by lra. rewrite sin_asin by lra. field. split; lra.
      * assert (0 < asin n / n) by (apply Rdiv_lt_0_compat; lra). lra.
      * replace (2 * asin n / 2) with (asin n) by lra. rewrite cos_asin by lra. replace (1 - Rsqr n) with (c * c) by (unfold Rsqr; lra). rewrite sqrt_square by lra. reflexivity.
      * lra.
    + destruct (Req_EM_T n 0) as [|_]; [lra|]. pose proof (asin_bound n) as AB.
      assert (A0 : 0 < asin n). { apply asin_pos; lra. }
      eexists. split; [reflexivity|].
      assert (N : norm3 (scale3 (2 * ((PI - asin n) / n)) (head3 q)) = 2 * (PI - asin n)). { rewrite norm3_scale. fold n. field; lra. apply Rmult_le_pos; [lra|]. apply Rlt_le, Rdiv_lt_0_compat; lra. }
      split; [|rewrite N; lra]. apply exp_scaled with (2 * (PI - asin n)); auto.
      * unfold eps4. lra.
      * replace (2 * (PI - asin n) / 2) with (PI - asin n) by lra. rewrite sin_PI_x, sin_asin by lra. field. split; lra.
      * assert (0 < (PI - asin n) / n) by (apply Rdiv_lt_0_compat; lra). lra.
      * replace (2 * (PI - asin n) / 2) with (- (asin n - PI)) by lra. rewrite cos_neg. replace (asin n - PI) with (asin n + - PI) by lra.
        rewrite cos_plus, cos_neg, sin_neg, cos_PI, sin_PI, cos_asin by lra. replace (1 - Rsqr n) with ((- c) * (- c)) by (unfold Rsqr; lra). rewrite sqrt_square by lra. unfold c; lra.
      * lra.
Qed.
(** The only unit quaternion without a logarithm *)
Theorem quat_log_cut_locus q : unit4 q -> quat2AxisAngle q = None <-> q = V4 0 0 0 (-1).
Proof.
  intros U. pose proof (unit4_parts q U) as Q. unfold quat2AxisAngle, qeps, qeta. split.
  - destruct (Rlt_dec _ _) as [|B1]; [discriminate|]. destruct (Rlt_dec _ _) as [|B2]; [discriminate|]. destruct (Req_EM_T _ _) as [Z|]; [|discriminate]. intros _.
    rewrite Z in Q. apply norm3_zero in Z. destruct q as [a b c d]. unfold head3, zero3 in Z. cbn [e0 e1 e2 e3] in *. injection Z as -> -> ->. f_equal. nra.
  - intros ->. change (head3 (V4 0 0 0 (-1))) with zero3. rewrite norm3_0. cbn [e3]. destruct (Rlt_dec _ _) as [L|]. exfalso. rewrite Rabs_left in L; lra.
    destruct (Rlt_dec _ _); [lra|]. destruct (Req_EM_T 0 0); auto; lra.
Qed.
(** Near the identity: a relative error of at most |vector part|^2/6, and an absolute one of |vector part|^4 in the scalar part. *)
Theorem quat_exp_log_small_partial q : unit4 q -> 0 < e3 q -> norm3 (head3 q) < eps4 ->
  exists a k, quat2AxisAngle q = Some a /\ head3 (axisAngle2quat a) = scale3 k (head3 q) /\ Rabs (k - 1) <= norm3 (head3 q) * norm3 (head3 q) / 6 /\ 0 <= e3 (axisAngle2quat a) - e3 q <= norm3 (head3 q) * norm3 (head3 q) * (norm3 (head3 q) * norm3 (head3 q)).
Proof.
  intros U P S. pose proof (unit4_parts q U) as Q. set (n := norm3 (head3 q)) in *. assert (N0 : 0 <= n) by apply norm3_pos. assert (NS : n < / 8192) by exact S.
  exists (scale3 2 (head3 q)).
  assert (L : quat2AxisAngle q = Some (scale3 2 (head3 q))).
  { unfold quat2AxisAngle, qeps, qeta. fold n. rewrite (Rabs_pos_eq (e3 q)) by lra. destruct (Rlt_dec (e3 q) n) as [B|B]. exfalso. nra.
    destruct (Rlt_dec 0 (e3 q)); [|lra]. unfold arcSinXOverX. rewrite (Rabs_pos_eq n), small_true by lra. f_equal. f_equal. ring. }
  assert (CB : 0 <= cos n - e3 q <= n * n * (n * n)).
  { destruct (cos_quartic n ltac:(lra)) as (A & B). set (m := n * n) in *. assert (M0 : 0 <= m <= / 1000) by (unfold m; nra).
    assert (C1 : 1 - m / 2 <= cos n) by lra. assert (C2 : cos n <= 1 - m / 2 + m * m / 24) by lra.
    assert (E1 : e3 q * e3 q = 1 - m) by lra. assert (E2 : e3 q <= 1 - m / 2) by nra.
    assert (E3 : 1 - m / 2 - m * m / 2 <= e3 q). { destruct (Rle_dec (1 - m / 2 - m * m / 2) (e3 q)) as [|G]; auto. exfalso. assert (e3 q * e3 q < (1 - m / 2 - m * m / 2) * (1 - m / 2 - m * m / 2)) by nra. nra. }
    assert (0 <= m * m) by nra. lra. }
  assert (W : norm3 (scale3 2 (head3 q)) = 2 * n) by (rewrite norm3_scale by lra; auto).
  unfold axisAngle2quat. rewrite W. replace (2 * n * (1 / 2)) with n by lra. cbn [e3 cons4]. rewrite head3_cons4. setoid_rewrite scale3_scale. unfold small. destruct (Rlt_dec (2 * n) eps4).
  - exists ((1 / 2 + 2 * n * (2 * n) * (1 / 48)) * 2). split; [auto|]. split; [auto|]. split; [rewrite Rabs_pos_eq; nra|exact CB].
  - exists (sin n / (2 * n) * 2). split; [auto|]. split; [auto|]. split; [|exact CB]. assert (0 < n) by (unfold eps4 in *; lra). destruct (sin_cubic n) as (A & B); [lra|].
    replace (sin n / (2 * n) * 2 - 1) with ((sin n - n) / n) by (field; lra). rewrite Rabs_left1.
    + apply Rmult_le_reg_r with n; auto. replace (- ((sin n - n) / n) * n) with (n - sin n) by (field; lra). lra.
    + apply Rmult_le_reg_r with n; auto. replace ((sin n - n) / n * n) with (sin n - n) by (field; lra). lra.
Qed.

Theorem quat_exp_log_refuted : exists q, unit4 q /\ 0 < e3 q /\ forall a, quat2AxisAngle q = Some a -> axisAngle2quat a <> q.
Proof.
  set (t := / 1048576). set (d := 1 + t * t). assert (D : 0 < d) by (unfold d, t; lra).
  assert (X : 0 < 2 * t / d) by (apply Rdiv_lt_0_compat; unfold t in *; lra). assert (XS : 2 * t / d <= 2 * t). { apply Rmult_le_reg_r with d; auto. replace (2 * t / d * d) with (2 * t) by (field; lra). unfold d, t. lra. }
  exists (V4 (2 * t / d) 0 0 ((1 - t * t) / d)). set (x := 2 * t / d) in *.
  assert (U : unit4 (V4 x 0 0 ((1 - t * t) / d))) by (unfold unit4, dot4, x; cbn [e0 e1 e2 e3]; unfold d in *; field; lra).
  assert (C : 0 < (1 - t * t) / d) by (apply Rdiv_lt_0_compat; unfold t in *; lra).
  split; [exact U|]. split; [exact C|].
  intros a L E. unfold quat2AxisAngle, qeps, qeta in L. change (head3 (V4 x 0 0 ((1 - t * t) / d))) with (V3 x 0 0) in L. cbn [e3] in L. rewrite norm3_x in L by lra.
  assert (T : t = / 1048576) by reflexivity. rewrite Rabs_pos_eq in L by lra. destruct (Rlt_dec _ _) as [B|B] in L.
  { apply Rmult_lt_compat_r with (r := d) in B; auto. unfold x in B. replace ((1 - t * t) / d * d) with (1 - t * t) in B by (field; lra). replace (2 * t / d * d) with (2 * t) in B by (field; lra). rewrite T in B. lra. }
  destruct (Rlt_dec _ _) in L; [|lra]. unfold arcSinXOverX in L. rewrite Rabs_pos_eq in L by lra. rewrite small_true in L by (unfold eps4; lra). injection L as <-.
  unfold axisAngle2quat in E. rewrite norm3_scale in E by lra. rewrite norm3_x in E by lra. rewrite small_true in E by (unfold eps4; lra).
  unfold scale3, cons4 in E. cbn [vx vy vz] in E. injection E as E _ _ _. pose proof (Rmult_lt_0_compat _ _ (Rmult_lt_0_compat _ _ X X) X) as H. clear - E H. lra.
Qed.

(** ** Non-vacuity *)
Example ex_unit : unit4 (V4 (1/2) (-1/2) (1/2) (1/2)) /\ quat2r (V4 (1/2) (-1/2) (1/2) (1/2)) = m3 0 0 1 (-1) 0 0 0 (-1) 0 /\ is_rotation (m3 0 0 1 (-1) 0 0 0 (-1) 0).
Proof. split; [|split]. unfold unit4; vunfold; lra. qunfold; veq; lra. split; [split|]; vunfold; veq; lra. Qed.
Example ex_log_exp : eps4 <= norm3 (V3 1 0 0) < 2 * PI /\ eps4 <= sin (norm3 (V3 1 0 0) / 2).
Proof. rewrite norm3_x by lra. destruct (sin_cubic (1 / 2)); [lra|]. pose proof PI2_1. unfold eps4. lra. Qed.
Example ex_exp_log : unit4 (V4 (3/5) 0 0 (-4/5)) /\ eps4 <= norm3 (head3 (V4 (3/5) 0 0 (-4/5))) /\ e3 (V4 (3/5) 0 0 (-4/5)) < 0.
Proof. cbv [head3 e0 e1 e2 e3]. rewrite norm3_x by lra. unfold unit4, eps4, dot4. cbn [e0 e1 e2 e3]. lra. Qed.

Print Assumptions r2quat_inverts_quat2r.
Print Assumptions quat_exp_log_partial.
Print Assumptions axisAngle2quat_precision_refuted.
