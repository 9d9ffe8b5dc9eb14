(** C135, geometry in the reals: norms, and how a rotation and a product of quaternions depend on the quaternions. *)
From Coq Require Import Psatz.
From Verif Require Import Kin_Trans_Model Kin_Quat_Props Kin_Trans_Props.
Open Scope R_scope.

Lemma Rsq_le x y : 0 <= y -> x * x <= y * y -> Rabs x <= y.
Proof. intros Hy H. rewrite <- (Rabs_pos_eq y Hy). apply Rsqr_le_abs_0. exact H. Qed.
Lemma Rsq_le' x y : 0 <= y -> x * x <= y * y -> x <= y.
Proof. intros Hy H. apply Rle_trans with (Rabs x); [apply RRle_abs|now apply Rsq_le]. Qed.
(** Cauchy-Schwarz *)
Lemma cauchy4 a b : Rabs (dot4 a b) <= norm4 a * norm4 b.
Proof.
  apply Rsq_le; [apply Rmult_le_pos; apply norm4_pos|].
  replace (norm4 a * norm4 b * (norm4 a * norm4 b)) with ((norm4 a * norm4 a) * (norm4 b * norm4 b)) by ring. rewrite !norm4_sq.
  destruct a as [a0 a1 a2 a3], b as [b0 b1 b2 b3]. unfold dot4. cbn [e0 e1 e2 e3].
  pose proof (Rle_0_sqr (a0 * b1 - a1 * b0)). pose proof (Rle_0_sqr (a0 * b2 - a2 * b0)). pose proof (Rle_0_sqr (a0 * b3 - a3 * b0)).
  pose proof (Rle_0_sqr (a1 * b2 - a2 * b1)). pose proof (Rle_0_sqr (a1 * b3 - a3 * b1)). pose proof (Rle_0_sqr (a2 * b3 - a3 * b2)). unfold Rsqr in *. lra.
Qed.
Lemma cauchy3 a b : Rabs (dot3 a b) <= norm3 a * norm3 b.
Proof.
  apply Rsq_le; [apply Rmult_le_pos; apply norm3_pos|].
  replace (norm3 a * norm3 b * (norm3 a * norm3 b)) with ((norm3 a * norm3 a) * (norm3 b * norm3 b)) by ring. rewrite !norm3_sq.
  destruct a as [a0 a1 a2], b as [b0 b1 b2]. unfold dot3. cbn [vx vy vz].
  pose proof (Rle_0_sqr (a0 * b1 - a1 * b0)). pose proof (Rle_0_sqr (a0 * b2 - a2 * b0)). pose proof (Rle_0_sqr (a1 * b2 - a2 * b1)). unfold Rsqr in *. lra.
Qed.
Lemma norm4_triangle a b : norm4 (add4 a b) <= norm4 a + norm4 b.
Proof.
  apply Rsq_le'; [pose proof (norm4_pos a); pose proof (norm4_pos b); lra|].
  rewrite norm4_sq. replace (dot4 (add4 a b) (add4 a b)) with (dot4 a a + 2 * dot4 a b + dot4 b b) by (clear; vring).
  pose proof (cauchy4 a b) as C. pose proof (RRle_abs (dot4 a b)). pose proof (norm4_sq a). pose proof (norm4_sq b). lra.
Qed.
Lemma norm3_triangle a b : norm3 (add3 a b) <= norm3 a + norm3 b.
Proof.
  apply Rsq_le'; [pose proof (norm3_pos a); pose proof (norm3_pos b); lra|].
  rewrite norm3_sq. replace (dot3 (add3 a b) (add3 a b)) with (dot3 a a + 2 * dot3 a b + dot3 b b) by (clear; vring).
  pose proof (cauchy3 a b) as C. pose proof (RRle_abs (dot3 a b)). pose proof (norm3_sq a). pose proof (norm3_sq b). lra.
Qed.
Lemma norm4_scale s a : norm4 (scale4 s a) = Rabs s * norm4 a.
Proof.
  unfold norm4. replace (dot4 (scale4 s a) (scale4 s a)) with (Rsqr s * dot4 a a) by (unfold Rsqr; vring).
  rewrite sqrt_mult by (try apply Rle_0_sqr; unfold dot4; nra). now rewrite sqrt_Rsqr_abs.
Qed.
Lemma norm3_scale_abs s a : norm3 (scale3 s a) = Rabs s * norm3 a.
Proof.
  unfold norm3. replace (dot3 (scale3 s a) (scale3 s a)) with (Rsqr s * dot3 a a) by (unfold Rsqr; vring).
  rewrite sqrt_mult by (try apply Rle_0_sqr; unfold dot3; nra). now rewrite sqrt_Rsqr_abs.
Qed.
Lemma norm3_opp a : norm3 (opp3 a) = norm3 a. Proof. unfold norm3. f_equal. vring. Qed.
Lemma norm4_quatInv a : norm4 (quatInv a) = norm4 a. Proof. unfold norm4, quatInv. f_equal. vring. Qed.
(** ** distances *)
Definition dist4 (a b : vec4) : R := norm4 (sub4 a b).
Definition dist3 (a b : vec3) : R := norm3 (sub3 a b).
Lemma dist4_pos a b : 0 <= dist4 a b. Proof. apply norm4_pos. Qed.
Lemma dist3_pos a b : 0 <= dist3 a b. Proof. apply norm3_pos. Qed.
Lemma dist4_sym a b : dist4 a b = dist4 b a. Proof. unfold dist4, norm4. f_equal. vring. Qed.
Lemma dist3_sym a b : dist3 a b = dist3 b a. Proof. unfold dist3, norm3. f_equal. vring. Qed.
Lemma dist4_refl a : dist4 a a = 0. Proof. unfold dist4, norm4. replace (dot4 (sub4 a a) (sub4 a a)) with 0 by vring. apply sqrt_0. Qed.
Lemma dist3_refl a : dist3 a a = 0. Proof. unfold dist3, norm3. replace (dot3 (sub3 a a) (sub3 a a)) with 0 by vring. apply sqrt_0. Qed.
Lemma dist4_tri a b c : dist4 a c <= dist4 a b + dist4 b c.
Proof. unfold dist4. replace (sub4 a c) with (add4 (sub4 a b) (sub4 b c)) by vring. apply norm4_triangle. Qed.
Lemma dist3_tri a b c : dist3 a c <= dist3 a b + dist3 b c.
Proof. unfold dist3. replace (sub3 a c) with (add3 (sub3 a b) (sub3 b c)) by vring. apply norm3_triangle. Qed.
Lemma dist4_norm a b : Rabs (norm4 a - norm4 b) <= dist4 a b.
Proof.
  unfold dist4. pose proof (norm4_triangle b (sub4 a b)) as H1. replace (add4 b (sub4 a b)) with a in H1 by vring.
  pose proof (norm4_triangle a (sub4 b a)) as H2. replace (add4 a (sub4 b a)) with b in H2 by vring.
  change (norm4 (sub4 b a)) with (dist4 b a) in H2. rewrite dist4_sym in H2. unfold dist4 in H2. apply Rabs_le. lra.
Qed.
Lemma dist3_norm a b : norm3 a <= norm3 b + dist3 a b.
Proof. unfold dist3. pose proof (norm3_triangle b (sub3 a b)) as H1. now replace (add3 b (sub3 a b)) with a in H1 by vring. Qed.
Lemma dist3_add a b c d : dist3 (add3 a b) (add3 c d) <= dist3 a c + dist3 b d.
Proof. unfold dist3. replace (sub3 (add3 a b) (add3 c d)) with (add3 (sub3 a c) (sub3 b d)) by vring. apply norm3_triangle. Qed.
Lemma dist4_quatInv a b : dist4 (quatInv a) (quatInv b) = dist4 a b.
Proof. unfold dist4, norm4. f_equal. unfold quatInv. vring. Qed.
(** components *)
Lemma comp4 a : Rabs (e0 a) <= norm4 a /\ Rabs (e1 a) <= norm4 a /\ Rabs (e2 a) <= norm4 a /\ Rabs (e3 a) <= norm4 a.
Proof.
  destruct a as [a b c d]. cbn [e0 e1 e2 e3].
  repeat split; (apply Rsq_le; [apply norm4_pos|rewrite norm4_sq; unfold dot4; cbn [e0 e1 e2 e3]; nra]).
Qed.
Lemma comp3 a : Rabs (vx a) <= norm3 a /\ Rabs (vy a) <= norm3 a /\ Rabs (vz a) <= norm3 a.
Proof.
  destruct a as [a b c]. cbn [vx vy vz].
  repeat split; (apply Rsq_le; [apply norm3_pos|rewrite norm3_sq; unfold dot3; cbn [vx vy vz]; nra]).
Qed.
Lemma sq_abs x m : Rabs x <= m -> x * x <= m * m.
Proof. intros H. pose proof (Rabs_pos x). replace (x * x) with (Rabs x * Rabs x) by (unfold Rabs; destruct (Rcase_abs x); ring). apply Rmult_le_compat; lra. Qed.
Lemma norm4_le a m : 0 <= m -> Rabs (e0 a) <= m -> Rabs (e1 a) <= m -> Rabs (e2 a) <= m -> Rabs (e3 a) <= m -> norm4 a <= 2 * m.
Proof.
  intros Hm H0 H1 H2 H3. apply Rsq_le'; [lra|]. rewrite norm4_sq. unfold dot4.
  apply sq_abs in H0, H1, H2, H3. lra.
Qed.
Lemma norm3_le a m : 0 <= m -> Rabs (vx a) <= m -> Rabs (vy a) <= m -> Rabs (vz a) <= m -> norm3 a <= 2 * m.
Proof.
  intros Hm H0 H1 H2. apply Rsq_le'; [lra|]. rewrite norm3_sq. unfold dot3.
  apply sq_abs in H0, H1, H2. pose proof (Rmult_le_pos m m Hm Hm). lra.
Qed.
Lemma norm3_head q : norm3 (head3 q) <= norm4 q.
Proof. apply Rsq_le'; [apply norm4_pos|]. rewrite norm3_sq, norm4_sq. destruct q. unfold dot3, dot4, head3. cbn. nra. Qed.
(** ** products *)
Lemma qplus_sub_l a b c : sub4 (qplus a c) (qplus b c) = qplus (sub4 a b) c. Proof. unfold qplus. vring. Qed.
Lemma qplus_sub_r a b c : sub4 (qplus c a) (qplus c b) = qplus c (sub4 a b). Proof. unfold qplus. vring. Qed.
Lemma qplus_dist a b c d : dist4 (qplus a b) (qplus c d) <= dist4 a c * norm4 b + norm4 c * dist4 b d.
Proof.
  apply Rle_trans with (1 := dist4_tri _ (qplus c b) _). unfold dist4. rewrite qplus_sub_l, qplus_sub_r, !qplus_norm. lra.
Qed.
(** the sum of the absolute values of the four products of each coefficient of qplus *)
Lemma abs_quat q : norm4 (V4 (Rabs (e0 q)) (Rabs (e1 q)) (Rabs (e2 q)) (Rabs (e3 q))) = norm4 q.
Proof.
  unfold norm4. f_equal. destruct q as [a b c d]. unfold dot4. cbn [e0 e1 e2 e3].
  assert (A : forall x, Rabs x * Rabs x = x * x) by (intros x; unfold Rabs; destruct (Rcase_abs x); ring). rewrite !A. auto.
Qed.
Lemma sum4 a b c d w x y z N M : norm4 (V4 a b c d) <= N -> norm4 (V4 w x y z) <= M -> Rabs a * Rabs w + Rabs b * Rabs x + Rabs c * Rabs y + Rabs d * Rabs z <= N * M.
Proof.
  intros H K. pose proof (cauchy4 (V4 (Rabs a) (Rabs b) (Rabs c) (Rabs d)) (V4 (Rabs w) (Rabs x) (Rabs y) (Rabs z))) as C.
  pose proof (abs_quat (V4 a b c d)) as E1. pose proof (abs_quat (V4 w x y z)) as E2. cbn [e0 e1 e2 e3] in E1, E2. rewrite E1, E2 in C.
  apply Rle_trans with (1 := RRle_abs _) in C. unfold dot4 in C. cbn [e0 e1 e2 e3] in C.
  apply Rle_trans with (1 := C). apply Rmult_le_compat; auto; apply norm4_pos.
Qed.
(** ** cross product, rotation *)
Lemma cross_norm a b : norm3 (cross a b) <= norm3 a * norm3 b.
Proof.
  apply Rsq_le'; [apply Rmult_le_pos; apply norm3_pos|]. rewrite norm3_sq.
  replace (norm3 a * norm3 b * (norm3 a * norm3 b)) with ((norm3 a * norm3 a) * (norm3 b * norm3 b)) by ring. rewrite !norm3_sq.
  assert (E : dot3 (cross a b) (cross a b) = dot3 a a * dot3 b b - dot3 a b * dot3 a b) by vring. rewrite E.
  pose proof (Rle_0_sqr (dot3 a b)) as Q. unfold Rsqr in Q. lra.
Qed.
Lemma rotation_norm q v : unit4 q -> norm3 (quatRotate q v) = norm3 v.
Proof.
  intros U. rewrite quatRotate_matrix by exact U. destruct (quat2r_rotation q U) as [[_ O] _].
  unfold norm3. f_equal. rewrite dot3_tr, <- mv3_mm, O, mv3_I. auto.
Qed.
Lemma quatRotate_sub q v w : sub3 (quatRotate q v) (quatRotate q w) = quatRotate q (sub3 v w).
Proof. unfold quatRotate. vring. Qed.
Lemma rotation_dist q v w : unit4 q -> dist3 (quatRotate q v) (quatRotate q w) = dist3 v w.
Proof. intros U. unfold dist3. rewrite quatRotate_sub. now apply rotation_norm. Qed.
(** quaternions of length at most 1 + 1/1000 *)
Definition short (q : vec4) : Prop := norm4 q <= 1001 / 1000.
Lemma unit_short q : unit4 q -> short q. Proof. intros U. unfold short. rewrite norm4_unit by exact U. lra. Qed.
Lemma quatRotate_lipschitz q p v : short q -> short p -> dist3 (quatRotate q v) (quatRotate p v) <= 9 * dist4 q p * norm3 v.
Proof.
  unfold short. intros Hq Hp. set (D := dist4 q p). set (n := norm3 v).
  set (e := head3 q). set (f := head3 p). set (d := sub3 e f).
  assert (De : norm3 d <= D).
  { unfold d, e, f, D, dist4. replace (sub3 (head3 q) (head3 p)) with (head3 (sub4 q p)) by vring. apply norm3_head. }
  assert (D3 : Rabs (e3 q - e3 p) <= D). { unfold D, dist4. exact (proj2 (proj2 (proj2 (comp4 (sub4 q p))))). }
  assert (E1 : norm3 e <= 1001 / 1000) by (apply Rle_trans with (2 := Hq); apply norm3_head).
  assert (E2 : norm3 f <= 1001 / 1000) by (apply Rle_trans with (2 := Hp); apply norm3_head).
  assert (E3 : Rabs (e3 p) <= 1001 / 1000) by (apply Rle_trans with (2 := Hp); apply comp4).
  assert (EQ : sub3 (quatRotate q v) (quatRotate p v) =
     scale3 2 (add3 (add3 (cross d (cross e v)) (cross f (cross d v))) (add3 (scale3 (- (e3 q - e3 p)) (cross e v)) (scale3 (- e3 p) (cross d v))))).
  { unfold quatRotate, d. fold e. fold f. clearbody e f. generalize (e3 q), (e3 p). clear. intros. vring. }
  unfold dist3. rewrite EQ, norm3_scale_abs. rewrite (Rabs_pos_eq 2) by lra.
  pose proof (norm3_pos d) as P1. pose proof (norm3_pos e) as P2. pose proof (norm3_pos f) as P3. pose proof (norm3_pos v : 0 <= n) as P4. assert (P5 : 0 <= D) by apply norm4_pos.
  pose proof (norm3_triangle (add3 (cross d (cross e v)) (cross f (cross d v))) (add3 (scale3 (- (e3 q - e3 p)) (cross e v)) (scale3 (- e3 p) (cross d v)))) as T1.
  pose proof (norm3_triangle (cross d (cross e v)) (cross f (cross d v))) as T2.
  pose proof (norm3_triangle (scale3 (- (e3 q - e3 p)) (cross e v)) (scale3 (- e3 p) (cross d v))) as T3.
  rewrite !norm3_scale_abs, !Rabs_Ropp in T3.
  pose proof (cross_norm e v) as C1. fold n in C1. pose proof (cross_norm d v) as C2. fold n in C2.
  pose proof (cross_norm d (cross e v)) as C3. pose proof (cross_norm f (cross d v)) as C4.
  assert (K1 : norm3 (cross e v) <= 1001 / 1000 * n) by (apply Rle_trans with (1 := C1); apply Rmult_le_compat_r; lra).
  assert (K2 : norm3 (cross d v) <= D * n) by (apply Rle_trans with (1 := C2); apply Rmult_le_compat_r; lra).
  pose proof (norm3_pos (cross e v)) as P6. pose proof (norm3_pos (cross d v)) as P7. pose proof (Rabs_pos (e3 p)) as P8. pose proof (Rabs_pos (e3 q - e3 p)) as P9.
  assert (K3 : norm3 d * norm3 (cross e v) <= D * (1001 / 1000 * n)) by (apply Rmult_le_compat; lra).
  assert (K4 : norm3 f * norm3 (cross d v) <= 1001 / 1000 * (D * n)) by (apply Rmult_le_compat; lra).
  assert (K5 : Rabs (e3 q - e3 p) * norm3 (cross e v) <= D * (1001 / 1000 * n)) by (apply Rmult_le_compat; lra).
  assert (K6 : Rabs (e3 p) * norm3 (cross d v) <= 1001 / 1000 * (D * n)) by (apply Rmult_le_compat; lra).
  assert (P10 : 0 <= D * n) by (apply Rmult_le_pos; lra). lra.
Qed.
(** ** normalisation *)
Lemma normalize4_dist q : 0 < norm4 q -> dist4 q (normalize4 q) = Rabs (norm4 q - 1).
Proof.
  intros H. unfold normalize4. destruct (Rlt_dec 0 (norm4 q)); [|lra]. unfold dist4.
  replace (sub4 q (scale4 (1 / norm4 q) q)) with (scale4 (1 - 1 / norm4 q) q) by (generalize (1 / norm4 q); vring).
  rewrite norm4_scale. rewrite <- (Rabs_pos_eq (norm4 q)) at 2 by lra. rewrite <- Rabs_mult. f_equal. field. lra.
Qed.
Lemma normalize4_is_unit q : 0 < norm4 q -> unit4 (normalize4 q).
Proof.
  intros H. unfold normalize4. destruct (Rlt_dec 0 (norm4 q)); [|lra]. unfold unit4.
  replace (dot4 (scale4 (1 / norm4 q) q) (scale4 (1 / norm4 q) q)) with (1 / norm4 q * (1 / norm4 q) * dot4 q q) by (generalize (1 / norm4 q); vring).
  rewrite <- norm4_sq. field. lra.
Qed.
