(** Small dense vectors and matrices over the reals: what the Eigen expressions of sm_kinematics mean in exact arithmetic. *)
From Coq Require Export Reals Lra List.
Open Scope R_scope.

Record vec3 := V3 { vx : R; vy : R; vz : R }.
Record vec4 := V4 { e0 : R; e1 : R; e2 : R; e3 : R }.
(** a matrix is its rows *)
Record mat3 := M3 { r30 : vec3; r31 : vec3; r32 : vec3 }.
Record mat4 := M4 { r40 : vec4; r41 : vec4; r42 : vec4; r43 : vec4 }.

(** ** vectors *)
Definition zero3 : vec3 := V3 0 0 0.
Definition add3 (a b : vec3) : vec3 := V3 (vx a + vx b) (vy a + vy b) (vz a + vz b).
Definition sub3 (a b : vec3) : vec3 := V3 (vx a - vx b) (vy a - vy b) (vz a - vz b).
Definition opp3 (a : vec3) : vec3 := V3 (- vx a) (- vy a) (- vz a).
Definition scale3 (s : R) (a : vec3) : vec3 := V3 (s * vx a) (s * vy a) (s * vz a).
Definition dot3 (a b : vec3) : R := vx a * vx b + vy a * vy b + vz a * vz b.
Definition norm3 (a : vec3) : R := sqrt (dot3 a a).
Definition cross (a b : vec3) : vec3 := V3 (vy a * vz b - vz a * vy b) (vz a * vx b - vx a * vz b) (vx a * vy b - vy a * vx b).
Definition zero4 : vec4 := V4 0 0 0 0.
Definition add4 (a b : vec4) : vec4 := V4 (e0 a + e0 b) (e1 a + e1 b) (e2 a + e2 b) (e3 a + e3 b).
Definition sub4 (a b : vec4) : vec4 := V4 (e0 a - e0 b) (e1 a - e1 b) (e2 a - e2 b) (e3 a - e3 b).
Definition opp4 (a : vec4) : vec4 := V4 (- e0 a) (- e1 a) (- e2 a) (- e3 a).
Definition scale4 (s : R) (a : vec4) : vec4 := V4 (s * e0 a) (s * e1 a) (s * e2 a) (s * e3 a).
Definition dot4 (a b : vec4) : R := e0 a * e0 b + e1 a * e1 b + e2 a * e2 b + e3 a * e3 b.
Definition norm4 (a : vec4) : R := sqrt (dot4 a a).
Definition head3 (a : vec4) : vec3 := V3 (e0 a) (e1 a) (e2 a).
Definition cons4 (a : vec3) (w : R) : vec4 := V4 (vx a) (vy a) (vz a) w.

(** ** 3x3 *)
Definition m3 a b c d e f g h i : mat3 := M3 (V3 a b c) (V3 d e f) (V3 g h i).
Definition row3 (M : mat3) (i : nat) : vec3 := match i with O => r30 M | S O => r31 M | _ => r32 M end.
Definition at3 (v : vec3) (i : nat) : R := match i with O => vx v | S O => vy v | _ => vz v end.
Definition col3 (M : mat3) (j : nat) : vec3 := V3 (at3 (r30 M) j) (at3 (r31 M) j) (at3 (r32 M) j).
Definition I3 : mat3 := m3 1 0 0 0 1 0 0 0 1.
Definition Z3 : mat3 := m3 0 0 0 0 0 0 0 0 0.
Definition tr3 (M : mat3) : mat3 := M3 (col3 M 0) (col3 M 1) (col3 M 2).
Definition mv3 (M : mat3) (v : vec3) : vec3 := V3 (dot3 (r30 M) v) (dot3 (r31 M) v) (dot3 (r32 M) v).
Definition rowmul3 (v : vec3) (N : mat3) : vec3 := V3 (dot3 v (col3 N 0)) (dot3 v (col3 N 1)) (dot3 v (col3 N 2)).
Definition mm3 (M N : mat3) : mat3 := M3 (rowmul3 (r30 M) N) (rowmul3 (r31 M) N) (rowmul3 (r32 M) N).
Definition madd3 (M N : mat3) : mat3 := M3 (add3 (r30 M) (r30 N)) (add3 (r31 M) (r31 N)) (add3 (r32 M) (r32 N)).
Definition mopp3 (M : mat3) : mat3 := M3 (opp3 (r30 M)) (opp3 (r31 M)) (opp3 (r32 M)).
Definition msub3 (M N : mat3) : mat3 := M3 (sub3 (r30 M) (r30 N)) (sub3 (r31 M) (r31 N)) (sub3 (r32 M) (r32 N)).
Definition mscale3 (s : R) (M : mat3) : mat3 := M3 (scale3 s (r30 M)) (scale3 s (r31 M)) (scale3 s (r32 M)).
Definition outer3 (a b : vec3) : mat3 := M3 (scale3 (vx a) b) (scale3 (vy a) b) (scale3 (vz a) b).
Definition det3 (M : mat3) : R := dot3 (r30 M) (cross (r31 M) (r32 M)).
Definition trace3 (M : mat3) : R := vx (r30 M) + vy (r31 M) + vz (r32 M).

(** ** 4x4 *)
Definition at4 (v : vec4) (i : nat) : R := match i with O => e0 v | S O => e1 v | S (S O) => e2 v | _ => e3 v end.
Definition col4 (M : mat4) (j : nat) : vec4 := V4 (at4 (r40 M) j) (at4 (r41 M) j) (at4 (r42 M) j) (at4 (r43 M) j).
Definition I4 : mat4 := M4 (V4 1 0 0 0) (V4 0 1 0 0) (V4 0 0 1 0) (V4 0 0 0 1).
Definition Z4 : mat4 := M4 zero4 zero4 zero4 zero4.
Definition tr4 (M : mat4) : mat4 := M4 (col4 M 0) (col4 M 1) (col4 M 2) (col4 M 3).
Definition mv4 (M : mat4) (v : vec4) : vec4 := V4 (dot4 (r40 M) v) (dot4 (r41 M) v) (dot4 (r42 M) v) (dot4 (r43 M) v).
Definition rowmul4 (v : vec4) (N : mat4) : vec4 := V4 (dot4 v (col4 N 0)) (dot4 v (col4 N 1)) (dot4 v (col4 N 2)) (dot4 v (col4 N 3)).
Definition mm4 (M N : mat4) : mat4 := M4 (rowmul4 (r40 M) N) (rowmul4 (r41 M) N) (rowmul4 (r42 M) N) (rowmul4 (r43 M) N).
Definition madd4 (M N : mat4) : mat4 := M4 (add4 (r40 M) (r40 N)) (add4 (r41 M) (r41 N)) (add4 (r42 M) (r42 N)) (add4 (r43 M) (r43 N)).
Definition mopp4 (M : mat4) : mat4 := M4 (opp4 (r40 M)) (opp4 (r41 M)) (opp4 (r42 M)) (opp4 (r43 M)).
Definition mscale4 (s : R) (M : mat4) : mat4 := M4 (scale4 s (r40 M)) (scale4 s (r41 M)) (scale4 s (r42 M)) (scale4 s (r43 M)).
Definition det4 (M : mat4) : R :=
  let mn a b c := det3 (M3 (V3 (at4 (r41 M) a) (at4 (r41 M) b) (at4 (r41 M) c)) (V3 (at4 (r42 M) a) (at4 (r42 M) b) (at4 (r42 M) c)) (V3 (at4 (r43 M) a) (at4 (r43 M) b) (at4 (r43 M) c))) in
  e0 (r40 M) * mn 1%nat 2%nat 3%nat - e1 (r40 M) * mn 0%nat 2%nat 3%nat + e2 (r40 M) * mn 0%nat 1%nat 3%nat - e3 (r40 M) * mn 0%nat 1%nat 2%nat.
(** blocks: topLeftCorner<3,3>, topRightCorner<3,1>, and [C t; 0 1] *)
Definition topLeft (T : mat4) : mat3 := M3 (head3 (r40 T)) (head3 (r41 T)) (head3 (r42 T)).
Definition topRight (T : mat4) : vec3 := V3 (e3 (r40 T)) (e3 (r41 T)) (e3 (r42 T)).
Definition rt (C : mat3) (t : vec3) : mat4 := M4 (cons4 (r30 C) (vx t)) (cons4 (r31 C) (vy t)) (cons4 (r32 C) (vz t)) (V4 0 0 0 1).

(** ** 6-vectors and 6x6 matrices by 3x3 blocks *)
Record vec6 := V6 { hi6 : vec3; lo6 : vec3 }.                       (* head<3>, tail<3> *)
Record mat6 := M6 { b11 : mat3; b12 : mat3; b21 : mat3; b22 : mat3 }.
Definition add6 (a b : vec6) := V6 (add3 (hi6 a) (hi6 b)) (add3 (lo6 a) (lo6 b)).
Definition scale6 (s : R) (a : vec6) := V6 (scale3 s (hi6 a)) (scale3 s (lo6 a)).
Definition dot6 (a b : vec6) : R := dot3 (hi6 a) (hi6 b) + dot3 (lo6 a) (lo6 b).
Definition I6 : mat6 := M6 I3 Z3 Z3 I3.
Definition Z6 : mat6 := M6 Z3 Z3 Z3 Z3.
Definition mv6 (M : mat6) (v : vec6) : vec6 := V6 (add3 (mv3 (b11 M) (hi6 v)) (mv3 (b12 M) (lo6 v))) (add3 (mv3 (b21 M) (hi6 v)) (mv3 (b22 M) (lo6 v))).
Definition tr6 (M : mat6) : mat6 := M6 (tr3 (b11 M)) (tr3 (b21 M)) (tr3 (b12 M)) (tr3 (b22 M)).
Definition mm6 (M N : mat6) : mat6 :=
  M6 (madd3 (mm3 (b11 M) (b11 N)) (mm3 (b12 M) (b21 N))) (madd3 (mm3 (b11 M) (b12 N)) (mm3 (b12 M) (b22 N)))
     (madd3 (mm3 (b21 M) (b11 N)) (mm3 (b22 M) (b21 N))) (madd3 (mm3 (b21 M) (b12 N)) (mm3 (b22 M) (b22 N))).
Definition madd6 (M N : mat6) : mat6 := M6 (madd3 (b11 M) (b11 N)) (madd3 (b12 M) (b12 N)) (madd3 (b21 M) (b21 N)) (madd3 (b22 M) (b22 N)).

(** ** specification words *)
Definition unit3 (a : vec3) : Prop := dot3 a a = 1.
Definition unit4 (q : vec4) : Prop := dot4 q q = 1.
Definition orthonormal (C : mat3) : Prop := mm3 C (tr3 C) = I3 /\ mm3 (tr3 C) C = I3.
Definition is_rotation (C : mat3) : Prop := orthonormal C /\ det3 C = 1.
Definition is_rigid (T : mat4) : Prop := exists C t, is_rotation C /\ T = rt C t.

(** ** tactics: components *)
Ltac vunfold := cbv [zero3 add3 sub3 opp3 scale3 cross zero4 add4 sub4 opp4 scale4 head3 cons4 m3 row3 col3 I3 Z3 tr3 mv3 rowmul3 mm3 madd3 mopp3 msub3 mscale3
  outer3 I4 Z4 tr4 mv4 rowmul4 mm4 madd4 mopp4 mscale4 topLeft topRight rt col4 at3 at4 det4 det3 trace3 dot3 dot4 vx vy vz e0 e1 e2 e3 r30 r31 r32 r40 r41 r42 r43] in *.
Ltac vdestruct := repeat match goal with
  | v : vec3 |- _ => destruct v | v : vec4 |- _ => destruct v | M : mat3 |- _ => destruct M | M : mat4 |- _ => destruct M | M : mat6 |- _ => destruct M | v : vec6 |- _ => destruct v end.
Ltac veq := repeat (match goal with |- V3 _ _ _ = V3 _ _ _ => f_equal | |- V4 _ _ _ _ = V4 _ _ _ _ => f_equal | |- M3 _ _ _ = M3 _ _ _ => f_equal | |- M4 _ _ _ _ = M4 _ _ _ _ => f_equal
   | |- V6 _ _ = V6 _ _ => f_equal | |- M6 _ _ _ _ = M6 _ _ _ _ => f_equal end).
Ltac vring := intros; vdestruct; vunfold; veq; ring.

(** ** laws *)
Lemma V3_eq a b : vx a = vx b -> vy a = vy b -> vz a = vz b -> a = b.
Proof. destruct a, b; cbn; intros -> -> ->; auto. Qed.
Lemma V4_eq a b : e0 a = e0 b -> e1 a = e1 b -> e2 a = e2 b -> e3 a = e3 b -> a = b.
Proof. destruct a, b; cbn; intros -> -> -> ->; auto. Qed.
Lemma mm3_assoc A B C : mm3 (mm3 A B) C = mm3 A (mm3 B C). Proof. vring. Qed.
Lemma mv3_mm A B v : mv3 (mm3 A B) v = mv3 A (mv3 B v). Proof. vring. Qed.
Lemma mm3_I_l A : mm3 I3 A = A. Proof. vring. Qed.
Lemma mm3_I_r A : mm3 A I3 = A. Proof. vring. Qed.
Lemma mv3_I v : mv3 I3 v = v. Proof. vring. Qed.
Lemma tr3_mm A B : tr3 (mm3 A B) = mm3 (tr3 B) (tr3 A). Proof. vring. Qed.
Lemma tr3_tr A : tr3 (tr3 A) = A. Proof. vring. Qed.
Lemma tr3_I : tr3 I3 = I3. Proof. vring. Qed.
Lemma tr3_add A B : tr3 (madd3 A B) = madd3 (tr3 A) (tr3 B). Proof. vring. Qed.
Lemma det3_mm A B : det3 (mm3 A B) = det3 A * det3 B. Proof. vring. Qed.
Lemma det3_tr A : det3 (tr3 A) = det3 A. Proof. vring. Qed.
Lemma det3_I : det3 I3 = 1. Proof. vring. Qed.
Lemma mv3_add A v w : mv3 A (add3 v w) = add3 (mv3 A v) (mv3 A w). Proof. vring. Qed.
Lemma mv3_sub A v w : mv3 A (sub3 v w) = sub3 (mv3 A v) (mv3 A w). Proof. vring. Qed.
Lemma mv3_scale A s v : mv3 A (scale3 s v) = scale3 s (mv3 A v). Proof. vring. Qed.
Lemma mv3_opp A v : mv3 A (opp3 v) = opp3 (mv3 A v). Proof. vring. Qed.
Lemma dot3_tr A v w : dot3 (mv3 A v) w = dot3 v (mv3 (tr3 A) w). Proof. vring. Qed.
Lemma madd3_assoc A B C : madd3 (madd3 A B) C = madd3 A (madd3 B C). Proof. vring. Qed.
Lemma madd3_comm A B : madd3 A B = madd3 B A. Proof. vring. Qed.
Lemma mm3_add_l A B C : mm3 (madd3 A B) C = madd3 (mm3 A C) (mm3 B C). Proof. vring. Qed.
Lemma mm3_add_r A B C : mm3 A (madd3 B C) = madd3 (mm3 A B) (mm3 A C). Proof. vring. Qed.
Lemma mm3_Z_l A : mm3 Z3 A = Z3. Proof. vring. Qed.
Lemma mm3_Z_r A : mm3 A Z3 = Z3. Proof. vring. Qed.
Lemma madd3_Z_l A : madd3 Z3 A = A. Proof. vring. Qed.
Lemma madd3_Z_r A : madd3 A Z3 = A. Proof. vring. Qed.
Lemma mm4_assoc A B C : mm4 (mm4 A B) C = mm4 A (mm4 B C). Proof. vring. Qed.
Lemma mv4_mm A B v : mv4 (mm4 A B) v = mv4 A (mv4 B v). Proof. vring. Qed.
Lemma mm4_I_l A : mm4 I4 A = A. Proof. vring. Qed.
Lemma mm4_I_r A : mm4 A I4 = A. Proof. vring. Qed.
Lemma mv4_I v : mv4 I4 v = v. Proof. vring. Qed.
Lemma tr4_mm A B : tr4 (mm4 A B) = mm4 (tr4 B) (tr4 A). Proof. vring. Qed.
Lemma tr4_tr A : tr4 (tr4 A) = A. Proof. vring. Qed.
Lemma tr4_add A B : tr4 (madd4 A B) = madd4 (tr4 A) (tr4 B). Proof. vring. Qed.
Lemma mv4_add A v w : mv4 A (add4 v w) = add4 (mv4 A v) (mv4 A w). Proof. vring. Qed.
Lemma mv4_scale A s v : mv4 A (scale4 s v) = scale4 s (mv4 A v). Proof. vring. Qed.
Lemma dot4_tr A v w : dot4 (mv4 A v) w = dot4 v (mv4 (tr4 A) w). Proof. vring. Qed.
Lemma mm4_add_l A B C : mm4 (madd4 A B) C = madd4 (mm4 A C) (mm4 B C). Proof. vring. Qed.
Lemma mm4_add_r A B C : mm4 A (madd4 B C) = madd4 (mm4 A B) (mm4 A C). Proof. vring. Qed.
Lemma madd4_assoc A B C : madd4 (madd4 A B) C = madd4 A (madd4 B C). Proof. vring. Qed.
Lemma rt_mm A a B b : mm4 (rt A a) (rt B b) = rt (mm3 A B) (add3 (mv3 A b) a). Proof. vring. Qed.
Lemma rt_mv A a p w : mv4 (rt A a) (cons4 p w) = cons4 (add3 (mv3 A p) (scale3 w a)) w. Proof. vring. Qed.
Lemma topLeft_rt C t : topLeft (rt C t) = C. Proof. vring. Qed.
Lemma topRight_rt C t : topRight (rt C t) = t. Proof. vring. Qed.
Lemma cross_mv A a b : det3 A = 1 -> orthonormal A -> cross (mv3 A a) (mv3 A b) = mv3 A (cross a b).
Proof.
  (* A (a x b) = cof(A)^-1 ... : cof(A) (a x b) = Aa x Ab, and A^T cof(A) = det I *)
  intros D [O1 O2]. set (cof := M3 (cross (r31 A) (r32 A)) (cross (r32 A) (r30 A)) (cross (r30 A) (r31 A))).
  assert (E1 : cross (mv3 A a) (mv3 A b) = mv3 cof (cross a b)) by (unfold cof; vring).
  assert (E2 : mm3 A (tr3 cof) = mscale3 (det3 A) I3) by (unfold cof; vring). rewrite D in E2.
  assert (E3 : tr3 cof = tr3 A). { rewrite <- (mm3_I_l (tr3 cof)), <- O2, mm3_assoc, E2. vring. }
  rewrite E1. f_equal. rewrite <- (tr3_tr cof), E3. apply tr3_tr.
Qed.
Lemma norm3_sq a : norm3 a * norm3 a = dot3 a a.
Proof. apply sqrt_sqrt. unfold dot3. nra. Qed.
Lemma norm4_sq a : norm4 a * norm4 a = dot4 a a.
Proof. apply sqrt_sqrt. unfold dot4. nra. Qed.
Lemma norm3_pos a : 0 <= norm3 a. Proof. apply sqrt_pos. Qed.
Lemma norm4_pos a : 0 <= norm4 a. Proof. apply sqrt_pos. Qed.
Lemma norm3_zero a : norm3 a = 0 -> a = zero3.
Proof.
  intros H. pose proof (norm3_sq a) as E. rewrite H in E. destruct a as [x y z]. unfold dot3 in E. cbn in E. unfold zero3.
  assert (x = 0) by nra. assert (y = 0) by nra. assert (z = 0) by nra. subst. auto.
Qed.
Lemma norm3_scale s a : 0 <= s -> norm3 (scale3 s a) = s * norm3 a.
Proof.
  intros H. unfold norm3. replace (dot3 (scale3 s a) (scale3 s a)) with ((s * s) * dot3 a a) by vring.
  rewrite sqrt_mult by (try nra; unfold dot3; nra). rewrite sqrt_square by auto. auto.
Qed.
Lemma orth_rotation_tr C : is_rotation C -> is_rotation (tr3 C).
Proof. intros [[A B] D]. split; [split|]; rewrite ?tr3_tr, ?det3_tr; auto. Qed.
Lemma rotation_mm A B : is_rotation A -> is_rotation B -> is_rotation (mm3 A B).
Proof.
  intros [[A1 A2] A3] [[B1 B2] B3]. split; [split|].
  - rewrite tr3_mm, mm3_assoc, <- (mm3_assoc B), B1, mm3_I_l. auto.
  - rewrite tr3_mm, mm3_assoc, <- (mm3_assoc (tr3 A)), A2, mm3_I_l. auto.
  - rewrite det3_mm, A3, B3. ring.
Qed.
Lemma rotation_I : is_rotation I3. Proof. split; [split|]; vring. Qed.
Lemma mm6_assoc A B C : mm6 (mm6 A B) C = mm6 A (mm6 B C).
Proof. destruct A, B, C. unfold mm6. cbn [b11 b12 b21 b22]. f_equal; rewrite !mm3_add_l, !mm3_add_r, !mm3_assoc, <- !madd3_assoc; f_equal; rewrite !madd3_assoc; f_equal; apply madd3_comm. Qed.
Lemma mm6_I_l A : mm6 I6 A = A. Proof. destruct A. unfold mm6, I6. cbn [b11 b12 b21 b22]. rewrite !mm3_Z_l, !mm3_I_l, !madd3_Z_l, !madd3_Z_r. auto. Qed.
Lemma mm6_I_r A : mm6 A I6 = A. Proof. destruct A. unfold mm6, I6. cbn [b11 b12 b21 b22]. rewrite !mm3_Z_r, !mm3_I_r, !madd3_Z_l, !madd3_Z_r. auto. Qed.
Lemma tr6_mm A B : tr6 (mm6 A B) = mm6 (tr6 B) (tr6 A).
Proof. destruct A, B. unfold mm6, tr6. cbn [b11 b12 b21 b22]. rewrite !tr3_add, !tr3_mm. auto. Qed.
Lemma tr6_tr A : tr6 (tr6 A) = A. Proof. destruct A. unfold tr6. cbn [b11 b12 b21 b22]. rewrite !tr3_tr. auto. Qed.
Lemma tr6_add A B : tr6 (madd6 A B) = madd6 (tr6 A) (tr6 B). Proof. destruct A, B. unfold tr6, madd6. cbn [b11 b12 b21 b22]. rewrite !tr3_add. auto. Qed.
Lemma tr6_I : tr6 I6 = I6. Proof. unfold tr6, I6. cbn [b11 b12 b21 b22]. f_equal; vring. Qed.
Lemma mm6_add_l A B C : mm6 (madd6 A B) C = madd6 (mm6 A C) (mm6 B C).
Proof. destruct A, B, C. unfold mm6, madd6. cbn [b11 b12 b21 b22]. rewrite !mm3_add_l. f_equal; rewrite !madd3_assoc; f_equal; rewrite <- !madd3_assoc; f_equal; apply madd3_comm. Qed.
Lemma mm6_add_r A B C : mm6 A (madd6 B C) = madd6 (mm6 A B) (mm6 A C).
Proof. destruct A, B, C. unfold mm6, madd6. cbn [b11 b12 b21 b22]. rewrite !mm3_add_r. f_equal; rewrite !madd3_assoc; f_equal; rewrite <- !madd3_assoc; f_equal; apply madd3_comm. Qed.
Lemma madd6_assoc A B C : madd6 (madd6 A B) C = madd6 A (madd6 B C). Proof. destruct A, B, C. unfold madd6. cbn [b11 b12 b21 b22]. rewrite !madd3_assoc. auto. Qed.
Lemma add3_assoc a b c : add3 (add3 a b) c = add3 a (add3 b c). Proof. vring. Qed.
Lemma add3_comm a b : add3 a b = add3 b a. Proof. vring. Qed.
Lemma mv3_madd A B v : mv3 (madd3 A B) v = add3 (mv3 A v) (mv3 B v). Proof. vring. Qed.
Lemma mv6_mm A B v : mv6 (mm6 A B) v = mv6 A (mv6 B v).
Proof. destruct A, B, v. unfold mm6, mv6. cbn [b11 b12 b21 b22 hi6 lo6]. rewrite !mv3_madd, !mv3_add, !mv3_mm. f_equal; rewrite !add3_assoc; f_equal; rewrite <- !add3_assoc; f_equal; apply add3_comm. Qed.
Lemma mv6_add A B v : mv6 (madd6 A B) v = add6 (mv6 A v) (mv6 B v).
Proof. destruct A, B, v. unfold madd6, mv6, add6. cbn [b11 b12 b21 b22 hi6 lo6]. rewrite !mv3_madd. f_equal; rewrite !add3_assoc; f_equal; rewrite <- !add3_assoc; f_equal; apply add3_comm. Qed.
Lemma dot6_tr A v w : dot6 (mv6 A v) w = dot6 v (mv6 (tr6 A) w).
Proof.
  destruct A, v, w. unfold dot6, mv6, tr6. cbn [b11 b12 b21 b22 hi6 lo6].
  assert (D1 : forall a b c, dot3 (add3 a b) c = dot3 a c + dot3 b c) by vring. assert (D2 : forall a b c, dot3 a (add3 b c) = dot3 a b + dot3 a c) by vring.
  rewrite !D1, !D2, !dot3_tr. ring.
Qed.
