(** C154: random values of the kinematics types. *)
From Coq Require Import Reals Lra Psatz Arith Lia.
From Verif Require Import LinAlg DenseN Kin_Rot_Model Kin_Quat_Model Kin_Rot_Props Kin_Quat_Props Kin_Trans_Model Kin_Trans_Props Kin_Hom_Props Kin_Unc_Model Kin_Unc_Props Kin_Random_Model.
Import Kin_Quat_Model.
Open Scope R_scope.

(** ** specification *)
(** what the two generators promise *)
Definition good (g : rng) : Prop := (forall k, -1 <= eig g k <= 1) /\ (forall k, 0 <= uni g k < 1).
(** the quaternion turns by [angle] about a unit axis *)
Definition turns (angle : R) (q : vec4) : Prop :=
  exists n, unit3 n /\ q = V4 (sin (angle / 2) * vx n) (sin (angle / 2) * vy n) (sin (angle / 2) * vz n) (cos (angle / 2)).
(** symmetric with x' E x >= |x|^2: positive definite *)
Definition at_least_I4 (U : mat4) : Prop := tr4 U = U /\ forall x, dot4 x x <= dot4 x (mv4 U x).
Definition at_least_In (n : nat) (E : matn) : Prop := meqn n n E (trn E) /\ forall x, sumn n (fun i => x i * x i) <= sumn n (fun i => x i * sumn n (fun j => E i j * x j)).
Definition positive_definite6 (U : mat6) : Prop := tr6 U = U /\ forall x, dot6 x x <> 0 -> 0 < dot6 x (mv6 U x).

(** ** the next state of the generators is good, too *)
Lemma good_e n g : good g -> good (snd (take_e n g)).
Proof. intros [A B]. split; intros k; cbn [take_e snd eig uni]. apply A. apply B. Qed.
Lemma good_u g : good g -> good (snd (take_u g)).
Proof. intros [A B]. split; intros k; cbn [take_u snd eig uni]. apply A. apply B. Qed.

Lemma unit4_scaled q : norm4 q <> 0 -> unit4 (scale4 (1 / norm4 q) q).
Proof.
  intros N. unfold unit4. replace (dot4 (scale4 (1 / norm4 q) q) (scale4 (1 / norm4 q) q)) with ((1 / norm4 q) * (1 / norm4 q) * dot4 q q) by (generalize (1 / norm4 q); intros; vring).
  rewrite <- norm4_sq. field. auto.
Qed.
Lemma norm4_zero q : norm4 q = 0 -> q = zero4.
Proof.
  intros H. pose proof (norm4_sq q) as E. rewrite H in E. destruct q as [a b c d]. unfold dot4 in E. cbn in E. unfold zero4.
  assert (a = 0) by nra. assert (b = 0) by nra. assert (c = 0) by nra. assert (d = 0) by nra. subst. auto.
Qed.
Lemma norm4_0 : norm4 zero4 = 0. Proof. unfold norm4. replace (dot4 zero4 zero4) with 0 by vring. apply sqrt_0. Qed.

(** ** quatRandom and setRandom(): a unit quaternion and a translation with coordinates from -150 to 50; every such transformation can come out.  NaN exactly when the four
    coefficients for the quaternion are all 1/2 *)
Theorem random_transformation : forall g, good g ->
  match fst (tf_setRandom g) with
  | Some x => unit4 (tq x) /\ (-150 <= vx (tt x) <= 50) /\ (-150 <= vy (tt x) <= 50) /\ (-150 <= vz (tt x) <= 50)
  | None => eig g 0%nat = 1 / 2 /\ eig g 1%nat = 1 / 2 /\ eig g 2%nat = 1 / 2 /\ eig g 3%nat = 1 / 2
  end /\ good (snd (tf_setRandom g)).
Proof.
  intros g G. unfold tf_setRandom, quatRandom. cbn [take_e fst snd]. split; [|apply (good_e 3 _ (good_e 4 g G))]. destruct G as [A B].
  destruct (Req_EM_T (norm4 (centred4 (eig g))) 0) as [Z|N].
  - apply norm4_zero in Z. unfold centred4, zero4 in Z. injection Z as Z0 Z1 Z2 Z3. repeat split; lra.
  - cbn [tq tt]. split. apply unit4_scaled; auto. unfold centred3, scale3. cbn [vx vy vz eig]. pose proof (A (4 + 0)%nat). pose proof (A (4 + 1)%nat). pose proof (A (4 + 2)%nat). lra.
Qed.
Print Assumptions random_transformation.
Theorem random_transformation_all : forall q t, unit4 q -> -150 <= vx t <= 50 -> -150 <= vy t <= 50 -> -150 <= vz t <= 50 ->
  exists g, good g /\ fst (tf_setRandom g) = Some (TQ q t).
Proof.
  intros q t U X Y Z.
  assert (Q : forall c, c = e0 q \/ c = e1 q \/ c = e2 q \/ c = e3 q -> -1 <= c <= 1). { unfold unit4, dot4 in U. intros c [-> | [-> | [-> | ->]]]; nra. }
  exists (Rng (fun k => match k with 0%nat => 1 / 2 + e0 q / 2 | 1%nat => 1 / 2 + e1 q / 2 | 2%nat => 1 / 2 + e2 q / 2 | 3%nat => 1 / 2 + e3 q / 2
                       | 4%nat => vx t / 100 + 1 / 2 | 5%nat => vy t / 100 + 1 / 2 | 6%nat => vz t / 100 + 1 / 2 | _ => 0 end) (fun _ => 0)). split.
  - split; cbn [eig uni]; intros k; [|lra]. pose proof (Q (e0 q) ltac:(auto)). pose proof (Q (e1 q) ltac:(auto)). pose proof (Q (e2 q) ltac:(auto)). pose proof (Q (e3 q) ltac:(auto)).
    destruct k as [|[|[|[|[|[|[|k]]]]]]]; lra.
  - unfold tf_setRandom, quatRandom. cbn [take_e fst snd eig uni]. set (p := centred4 _). assert (P : p = scale4 (1 / 2) q). { unfold p, centred4. destruct q as [q0 q1 q2 q3]. cbv [scale4 e0 e1 e2 e3]. f_equal; lra. }
    assert (N : norm4 p = 1 / 2). { rewrite P. unfold norm4. replace (dot4 (scale4 (1 / 2) q) (scale4 (1 / 2) q)) with (dot4 q q * (1 / 2 * (1 / 2))) by vring. rewrite U, Rmult_1_l. apply sqrt_square. lra. }
    destruct (Req_EM_T (norm4 p) 0) as [E|_]; [lra|]. rewrite N, P. do 2 f_equal.
    + destruct q as [q0 q1 q2 q3]. cbv [scale4 e0 e1 e2 e3]. f_equal; lra.
    + destruct t as [t0 t1 t2]. cbn. unfold scale3, centred3. cbn. f_equal; lra.
Qed.
Print Assumptions random_transformation_all.
(** the translation is not centred: (-150, -150, -150) comes out, although no coordinate is meant to leave (Random - 0.5) * 100 with Random from 0 to 1 *)
Theorem random_centred_refuted : exists g x, good g /\ fst (tf_setRandom g) = Some x /\ vx (tt x) = -150 /\ vy (tt x) = -150 /\ vz (tt x) = -150.
Proof.
  destruct (random_transformation_all quatIdentity (V3 (-150) (-150) (-150))) as (g & G & E); cbn [vx vy vz]; try lra. unfold unit4, quatIdentity, dot4. cbn. lra.
  exists g, (TQ quatIdentity (V3 (-150) (-150) (-150))). cbn [tt vx vy vz]. auto.
Qed.

(** ** setRandom(translationMaxMeters, rotationMaxRadians) *)
Lemma norm3_to d v : norm3 v <> 0 -> dot3 (scale3 (d / norm3 v) v) (scale3 (d / norm3 v) v) = d * d.
Proof. intros N. replace (dot3 (scale3 (d / norm3 v) v) (scale3 (d / norm3 v) v)) with (d / norm3 v * (d / norm3 v) * dot3 v v) by (generalize (d / norm3 v); intros; vring). rewrite <- norm3_sq. field. auto. Qed.
Lemma norm3_sized d v : norm3 v <> 0 -> norm3 (scale3 (d / norm3 v) v) = Rabs d.
Proof. intros N. unfold norm3 at 1. rewrite norm3_to by auto. change (d * d) with (Rsqr d). apply sqrt_Rsqr_abs. Qed.

Lemma norm3_half v : norm3 v = 0 -> vx v = 0 /\ vy v = 0 /\ vz v = 0.
Proof. intros H. rewrite (norm3_zero v H). unfold zero3. cbn. auto. Qed.
Lemma turns_of a q : rotation_quaternion a q -> turns (norm3 a) q.
Proof.
  intros [[-> ->] | [P ->]].
  - exists (V3 1 0 0). split. unfold unit3, dot3. cbn. lra. rewrite norm3_0. cbn [vx vy vz]. replace (0 / 2) with 0 by lra. rewrite sin_0, cos_0. unfold quatIdentity. f_equal; lra.
  - exists (scale3 (1 / norm3 a) a). split. unfold unit3. rewrite norm3_to by lra. lra. destruct a as [x y z]. unfold scale3. cbn [vx vy vz]. f_equal; field; lra.
Qed.
Lemma rotation_quaternion_of a : exists q, rotation_quaternion a q.
Proof.
  destruct (Req_EM_T (norm3 a) 0) as [E|N].
  - exists quatIdentity. left. split; auto. apply norm3_zero; auto.
  - eexists. right. split; [|reflexivity]. pose proof (norm3_pos a). lra.
Qed.
(** the length of the translation is the second number of sm::random times |translationMaxMeters|; the quaternion turns by the first one times |rotationMaxRadians|, exactly
    for angles of at least 1/8192 and for 0, up to angle^3/24 between.  NaN exactly if the three coefficients for the axis or those for the translation are all 1/2 *)
Theorem random_transformation_max : forall tmax rmax g, good g ->
  match fst (tf_setRandom_max tmax rmax g) with
  | Some x => let angle := uni g 0%nat * Rabs rmax in
      norm3 (tt x) = uni g 1%nat * Rabs tmax /\ norm3 (tt x) <= Rabs tmax /\ angle <= Rabs rmax /\
      exists q, turns angle q /\ e3 (tq x) = e3 q /\ norm4 (sub4 (tq x) q) <= angle * angle * angle / 24 /\ (eps4 <= angle \/ angle = 0 -> tq x = q /\ unit4 (tq x))
  | None => (eig g 0%nat = 1 / 2 /\ eig g 1%nat = 1 / 2 /\ eig g 2%nat = 1 / 2) \/ (eig g 3%nat = 1 / 2 /\ eig g 4%nat = 1 / 2 /\ eig g 5%nat = 1 / 2)
  end.
Proof.
  intros tm rm g [A B]. unfold tf_setRandom_max. cbn [take_e fst snd rand_lu take_u eig uni]. set (axis := centred3 (eig g)). set (t := centred3 _).
  destruct (Req_EM_T (norm3 axis) 0) as [Z|N1].
  { left. destruct (norm3_half _ Z) as (Z0 & Z1 & Z2). unfold axis, centred3 in *. cbn in Z0, Z1, Z2. repeat split; lra. }
  destruct (Req_EM_T (norm3 t) 0) as [Z|N2].
  { right. destruct (norm3_half _ Z) as (Z0 & Z1 & Z2). unfold t, centred3 in *. cbn in Z0, Z1, Z2. repeat split; lra. }
  cbn [tq tt]. cbv zeta. rewrite !norm3_sized by auto. set (a := scale3 _ axis).
  assert (Na : norm3 a = uni g 0%nat * Rabs rm). { unfold a. rewrite norm3_sized by auto. rewrite Rminus_0_r, Rplus_0_r, Rabs_mult, (Rabs_pos_eq (uni g 0%nat)); auto. apply B. }
  assert (Nt : Rabs (uni g 1%nat * (tm - 0) + 0) = uni g 1%nat * Rabs tm). { rewrite Rminus_0_r, Rplus_0_r, Rabs_mult, (Rabs_pos_eq (uni g 1%nat)); auto. apply B. }
  rewrite Nt, <- Na. pose proof (B 0%nat). pose proof (B 1%nat). pose proof (Rabs_pos rm). pose proof (Rabs_pos tm).
  split; [reflexivity|]. split; [nra|]. split; [rewrite Na; nra|].
  pose proof (norm3_pos a) as P. destruct (Rlt_dec (norm3 a) eps4) as [L|L].
  - destruct (Req_EM_T (norm3 a) 0) as [E|N].
    + pose proof (norm3_zero a E) as Az. exists (axisAngle2quat a). pose proof (axisAngle2quat_exact a (or_intror Az)) as X. split; [apply turns_of; exact X|]. split; [reflexivity|]. split.
      * replace (sub4 _ _) with zero4 by (generalize (axisAngle2quat a); intros; vring). rewrite norm4_0, E. lra.
      * intros _. split; [reflexivity|]. apply axisAngle2quat_unit. auto.
    + destruct (rotation_quaternion_of a) as [q Q]. exists q. destruct (axisAngle2quat_small_partial a q ltac:(lra) Q) as (X & Y & _).
      split; [apply turns_of; auto|]. split; [exact X|]. split; [exact Y|]. intros [?|?]; lra.
  - assert (L' : eps4 <= norm3 a) by lra. exists (axisAngle2quat a). pose proof (axisAngle2quat_exact a (or_introl L')) as X. split; [apply turns_of; exact X|]. split; [reflexivity|]. split.
    + replace (sub4 _ _) with zero4 by (generalize (axisAngle2quat a); intros; vring). rewrite norm4_0. nra.
    + intros _. split; [reflexivity|]. apply axisAngle2quat_unit. auto.
Qed.
Print Assumptions random_transformation_max.
Lemma centred_unit n : unit3 n -> centred3 (fun k => match k with 0%nat => 1 / 2 + vx n / 2 | 1%nat => 1 / 2 + vy n / 2 | _ => 1 / 2 + vz n / 2 end) = scale3 (1 / 2) n.
Proof. intros _. destruct n as [n0 n1 n2]. unfold centred3, scale3. cbn [vx vy vz]. f_equal; lra. Qed.
Lemma norm3_unit_half n : unit3 n -> norm3 (scale3 (1 / 2) n) = 1 / 2.
Proof. intros U. rewrite norm3_scale by lra. unfold norm3. rewrite U, sqrt_1. lra. Qed.
(** every rotation by less than rotationMaxRadians (not a tiny one) and every translation shorter than translationMaxMeters can come out *)
Theorem random_transformation_max_all : forall tmax rmax angle q m d, turns angle q -> angle = 0 \/ eps4 <= angle -> 0 <= angle < rmax -> unit3 m -> 0 <= d < tmax ->
  exists g, good g /\ fst (tf_setRandom_max tmax rmax g) = Some (TQ q (scale3 d m)).
Proof.
  intros tm rm an q m d (n & U & ->) E A Um D.
  assert (In1 : forall v, unit3 v -> forall c, c = vx v \/ c = vy v \/ c = vz v -> -1 <= c <= 1). { intros v Uv. unfold unit3, dot3 in Uv. intros c [-> | [-> | ->]]; nra. }
  exists (Rng (fun k => match k with 0%nat => 1 / 2 + vx n / 2 | 1%nat => 1 / 2 + vy n / 2 | 2%nat => 1 / 2 + vz n / 2
                       | 3%nat => 1 / 2 + vx m / 2 | 4%nat => 1 / 2 + vy m / 2 | _ => 1 / 2 + vz m / 2 end) (fun k => match k with 0%nat => an / rm | 1%nat => d / tm | _ => 0 end)). split.
  - split; cbn [eig uni]; intros k.
    + pose proof (In1 n U (vx n) ltac:(auto)). pose proof (In1 n U (vy n) ltac:(auto)). pose proof (In1 n U (vz n) ltac:(auto)).
      pose proof (In1 m Um (vx m) ltac:(auto)). pose proof (In1 m Um (vy m) ltac:(auto)). pose proof (In1 m Um (vz m) ltac:(auto)). destruct k as [|[|[|[|[|k]]]]]; lra.
    + assert (F : forall x y, 0 <= x < y -> 0 <= x / y < 1). { intros x y XY. split. apply Rmult_le_pos; [lra|]. left. apply Rinv_0_lt_compat. lra. apply Rmult_lt_reg_r with y; [lra|]. unfold Rdiv. rewrite Rmult_assoc, Rinv_l; lra. }
      destruct k as [|[|k]]; [apply F; auto|apply F; auto|lra].
  - unfold tf_setRandom_max. cbn [take_e fst snd rand_lu take_u eig uni].
    match goal with |- context [centred3 (fun k => match k with 0%nat => 1 / 2 + vx n / 2 | _ => _ end)] => idtac end.
    set (axis := centred3 _). assert (Ax : axis = scale3 (1 / 2) n). { unfold axis, centred3. destruct n as [n0 n1 n2]. unfold scale3. cbn [vx vy vz]. f_equal; lra. }
    set (t := centred3 _). assert (Tx : t = scale3 (1 / 2) m). { unfold t, centred3. destruct m as [m0 m1 m2]. unfold scale3. cbn [vx vy vz Nat.add]. f_equal; lra. }
    rewrite Ax, Tx, !norm3_unit_half by auto. destruct (Req_EM_T (1 / 2) 0); [lra|]. do 2 f_equal.
    + assert (Sc : scale3 ((an / rm * (rm - 0) + 0) / (1 / 2)) (scale3 (1 / 2) n) = scale3 an n). { rewrite scale3_scale. f_equal. field. lra. } rewrite Sc.
      assert (Nn : norm3 (scale3 an n) = an). { rewrite norm3_scale by lra. unfold norm3. rewrite U, sqrt_1. lra. }
      destruct E as [Z|Big].
      * replace (scale3 an n) with zero3 by (rewrite Z; vring). destruct (axisAngle2quat_exact zero3 (or_intror eq_refl)) as [(_ & X)|(X & _)]; [|rewrite norm3_0 in X; lra]. rewrite X, Z. replace (0 / 2) with 0 by lra. rewrite sin_0, cos_0. unfold quatIdentity. f_equal; lra.
      * rewrite axisAngle2quat_big by lra. rewrite Nn, scale3_scale. pose proof eps4_pos. destruct n as [x y z]. unfold cons4, scale3. cbn [vx vy vz]. f_equal; field; lra.
    + rewrite scale3_scale. f_equal. field. lra.
Qed.
Print Assumptions random_transformation_max_all.
(** sm::random::seed fixes the length of the translation and the angle, and the uncertain scalars *)
Theorem random_seeded : forall g g', good g -> good g' -> (forall k, uni g k = uni g' k) ->
  (forall tmax rmax x x', fst (tf_setRandom_max tmax rmax g) = Some x -> fst (tf_setRandom_max tmax rmax g') = Some x' -> norm3 (tt x) = norm3 (tt x') /\ e3 (tq x) = e3 (tq x')) /\
  fst (us_setRandom g) = fst (us_setRandom g').
Proof.
  intros g g' G G' Q. split.
  - intros tm rm x x' E E'. pose proof (random_transformation_max tm rm g G) as X. pose proof (random_transformation_max tm rm g' G') as X'. rewrite E in X. rewrite E' in X'. cbv zeta in X, X'.
    destruct X as (T & _ & _ & q & (n & _ & ->) & C & _). destruct X' as (T' & _ & _ & q' & (n' & _ & ->) & C' & _). cbn [e3] in C, C'. rewrite T, T', C, C', !Q. auto.
  - unfold us_setRandom. cbn. rewrite !Q. auto.
Qed.
Print Assumptions random_seeded.
(** but not the directions, and nothing of setRandom(): Eigen draws from another generator *)
Definition all_at (x y z : R) : rng := Rng (fun k => match k with 0%nat | 3%nat => x | 1%nat | 4%nat => y | 2%nat | 5%nat => z | _ => 0 end) (fun _ => 1 / 2).
Theorem random_seed_refuted : exists g g', good g /\ good g' /\ (forall k, uni g k = uni g' k) /\
  (exists x x', fst (tf_setRandom_max 1 1 g) = Some x /\ fst (tf_setRandom_max 1 1 g') = Some x' /\ tt x <> tt x' /\ tq x <> tq x').
Proof.
  exists (all_at 1 (1 / 2) (1 / 2)), (all_at (1 / 2) 1 (1 / 2)). split; [|split; [|split]].
  1, 2: split; cbn [eig uni all_at]; intros k; [destruct k as [|[|[|[|[|[|k]]]]]]; lra|lra]. { reflexivity. }
  assert (Nx : norm3 (V3 (1 - 1 / 2) (1 / 2 - 1 / 2) (1 / 2 - 1 / 2)) = 1 / 2). { replace (V3 _ _ _) with (scale3 (1 / 2) (V3 1 0 0)) by (unfold scale3; cbn; f_equal; lra). apply norm3_unit_half. unfold unit3, dot3. cbn. lra. }
  assert (Ny : norm3 (V3 (1 / 2 - 1 / 2) (1 - 1 / 2) (1 / 2 - 1 / 2)) = 1 / 2). { replace (V3 _ _ _) with (scale3 (1 / 2) (V3 0 1 0)) by (unfold scale3; cbn; f_equal; lra). apply norm3_unit_half. unfold unit3, dot3. cbn. lra. }
  eexists _, _. unfold tf_setRandom_max, all_at. cbn [take_e fst snd rand_lu take_u eig uni Nat.add centred3]. unfold centred3. cbn [Nat.add]. rewrite Nx, Ny. destruct (Req_EM_T (1 / 2) 0); [lra|].
  split; [reflexivity|]. split; [reflexivity|]. cbn [tt tq]. split.
  - intros H. apply (f_equal vx) in H. unfold scale3 in H. cbn [vx] in H. lra.
  - intros H. apply (f_equal e0) in H.
    assert (B : forall w, norm3 w = 1 -> axisAngle2quat (scale3 (1 / 2) w) = cons4 (scale3 (sin (1 / 4) / (1 / 2)) (scale3 (1 / 2) w)) (cos (1 / 4))).
    { intros w Hw. assert (E : norm3 (scale3 (1 / 2) w) = 1 / 2) by (rewrite norm3_scale by lra; lra). rewrite axisAngle2quat_big by (rewrite E; unfold eps4; lra). rewrite E. replace (1 / 2 / 2) with (1 / 4) by lra. auto. }
    replace (scale3 _ (V3 (1 - 1 / 2) _ _)) with (scale3 (1 / 2) (V3 1 0 0)) in H by (unfold scale3; cbn [vx vy vz]; f_equal; field).
    replace (scale3 _ (V3 (1 / 2 - 1 / 2) (1 - 1 / 2) _)) with (scale3 (1 / 2) (V3 0 1 0)) in H by (unfold scale3; cbn [vx vy vz]; f_equal; field).
    rewrite !B in H by (unfold norm3, dot3; cbn [vx vy vz]; match goal with |- sqrt ?e = 1 => replace e with 1 by ring; apply sqrt_1 end). unfold cons4, scale3 in H. cbn [vx vy vz e0] in H.
    assert (0 < sin (1 / 4)) by (apply sin_gt_0; [lra|pose proof PI2_1; lra]). lra.
Qed.
Print Assumptions random_seed_refuted.

(** ** covariances *)
Lemma dot6_sq x : 0 <= dot6 x x.
Proof. destruct x as [[a b c] [d e f]]. unfold dot6, dot3. cbn [hi6 lo6 vx vy vz]. nra. Qed.
(** UncertainTransformation: the covariance is U U' - symmetric and positive semidefinite *)
Theorem random_covariance6 : forall g x,
  (fst (ut_setRandom g) = Some x -> fst (tf_setRandom g) = Some (ut_T x) /\ cov6 (ut_U x)) /\
  (forall tmax rmax, fst (ut_setRandom_max tmax rmax g) = Some x -> fst (tf_setRandom_max tmax rmax g) = Some (ut_T x) /\ cov6 (ut_U x)).
Proof.
  assert (X : forall r x, fst (ut_random r) = Some x -> fst r = Some (ut_T x) /\ cov6 (ut_U x)).
  { intros [o g] x. unfold ut_random. cbn [take_e fst snd]. destruct o as [y|]; [|discriminate]. cbn [fst]. intros [= <-]. cbn [ut_T ut_U]. split; [reflexivity|].
    rewrite mm6_I_r. set (U := fill6 _). split. rewrite tr6_mm, tr6_tr. reflexivity. intros v. rewrite mv6_mm. rewrite <- (tr6_tr U) at 1. rewrite <- dot6_tr. apply dot6_sq. }
  intros g x. split; [apply X|]. intros tm rm. apply (X (tf_setRandom_max tm rm g)).
Qed.
Print Assumptions random_covariance6.
(** it need not be positive definite: U = 0 for coefficients 0 *)
Theorem random_positive_definite_refuted : exists g x, good g /\ fst (ut_setRandom g) = Some x /\ ~ positive_definite6 (ut_U x).
Proof.
  destruct (fst (ut_setRandom (Rng (fun _ => 0) (fun _ => 0)))) as [x|] eqn:E.
  - exists (Rng (fun _ => 0) (fun _ => 0)), x. split; [split; cbn; intros; lra|]. split; [exact E|]. intros [_ P].
    unfold ut_setRandom, ut_random in E. destruct (tf_setRandom (Rng (fun _ => 0) (fun _ => 0))) as [o g] eqn:T. cbn [take_e] in E. destruct o as [y|]; [|discriminate]. cbn [fst] in E. injection E as <-.
    assert (Gz : eig g = fun _ => 0). { unfold tf_setRandom, quatRandom in T. cbn [take_e fst snd eig uni] in T. injection T as _ <-. reflexivity. } rewrite Gz in P. cbn [ut_U] in P.
    specialize (P (V6 (V3 1 0 0) zero3)). rewrite mm6_I_r, mv6_mm in P.
    replace (mv6 (fill6 (fun _ => 0)) (mv6 (tr6 (fill6 (fun _ => 0))) (V6 (V3 1 0 0) zero3))) with (V6 zero3 zero3) in P.
    + unfold dot6, dot3, zero3 in P. cbn in P. lra.
    + unfold mv6, fill6, block, entry6. cbn [b11 b12 b21 b22 hi6 lo6]. f_equal; vring.
  - exfalso. unfold ut_setRandom, ut_random in E. destruct (tf_setRandom (Rng (fun _ => 0) (fun _ => 0))) as [o g] eqn:T. cbn [take_e] in E. destruct o as [y|]; [discriminate|].
    pose proof (random_transformation (Rng (fun _ => 0) (fun _ => 0))) as X. rewrite T in X. cbn [fst snd eig] in X. destruct X as [(Z & _) _]. split; cbn; intros; lra. lra.
Qed.
Print Assumptions random_positive_definite_refuted.
(** UncertainHomogeneousPoint: a unit 4-vector with a covariance of at least the identity; NaN only for four coefficients 0 *)
Theorem random_point : forall g,
  match fst (hp_setRandom g) with Some p => unit4 p | None => eig g 0%nat = 0 /\ eig g 1%nat = 0 /\ eig g 2%nat = 0 /\ eig g 3%nat = 0 end /\
  match fst (uh_setRandom g) with Some x => fst (hp_setRandom g) = Some (uh_p x) /\ at_least_I4 (uh_U x) | None => fst (hp_setRandom g) = None end.
Proof.
  intros g. unfold uh_setRandom, hp_setRandom, hp_normalize. cbn [take_e fst snd eig uni]. set (p := V4 (eig g 0%nat) _ _ _).
  destruct (Req_EM_T (norm4 p) 0) as [Z|N].
  - split; [|reflexivity]. apply norm4_zero in Z. unfold p, zero4 in Z. injection Z as Z0 Z1 Z2 Z3. auto.
  - split; [apply unit4_scaled; auto|]. cbn [uh_p uh_U]. split; [reflexivity|]. set (U := fill4 _). split.
    + rewrite tr4_add, tr4_mm, tr4_tr. f_equal.
    + intros x. replace (dot4 x (mv4 (madd4 (mm4 (tr4 U) U) I4) x)) with (dot4 (mv4 U x) (mv4 U x) + dot4 x x).
      * rewrite <- (norm4_sq (mv4 U x)). pose proof (Rle_0_sqr (norm4 (mv4 U x))) as Q. unfold Rsqr in Q. lra.
      * rewrite dot4_tr, <- mv4_mm. generalize (mm4 (tr4 U) U). clear. intros M. vring.
Qed.
Print Assumptions random_point.
(** UncertainVector: the coefficients drawn and a covariance of at least the identity; UncertainScalar: mean and variance from 0 to 1 *)
Theorem random_vector : forall n g, good g ->
  (forall i, (i < n)%nat -> -1 <= uv_v (fst (uv_setRandom n g)) i <= 1) /\ at_least_In n (uv_E (fst (uv_setRandom n g))) /\
  (0 <= us_v (fst (us_setRandom g)) < 1 /\ 0 <= us_E (fst (us_setRandom g)) < 1).
Proof.
  intros n g [A B]. unfold uv_setRandom. cbn [take_e fst snd eig uni uv_v uv_E]. set (E := fun i j : nat => eig g (n + (n * j + i))%nat). split; [intros; apply A|]. split; [split|].
  - intros i j I J. unfold maddn, mmn, trn. f_equal. apply sum_ext. intros; ring. unfold In_. destruct (Nat.eq_dec i j), (Nat.eq_dec j i); try congruence; auto.
  - intros x. assert (X : sumn n (fun i => x i * sumn n (fun j => maddn (mmn n E (trn E)) In_ i j * x j)) = sumn n (fun k => sumn n (fun i => E i k * x i) * sumn n (fun i => E i k * x i)) + sumn n (fun i => x i * x i)).
    { rewrite <- (sum_ext n (fun i => x i * sumn n (fun j => mmn n E (trn E) i j * x j) + x i * x i)).
      - rewrite DenseN.sum_plus. f_equal. transitivity (sumn n (fun i => sumn n (fun k => sumn n (fun j => x i * E i k * (E j k * x j))))).
        + apply sum_ext. intros i I. unfold mmn, trn. rewrite sum_swap, <- sum_scal. apply sum_ext. intros j J. rewrite <- sum_scal_r, <- sum_scal. apply sum_ext. intros; ring.
        + rewrite sum_swap. apply sum_ext. intros k _. rewrite <- sum_scal_r. apply sum_ext. intros i _. rewrite <- sum_scal. apply sum_ext. intros; ring.
      - intros i I. rewrite (sum_ext n (fun j => maddn (mmn n E (trn E)) In_ i j * x j) (fun j => mmn n E (trn E) i j * x j + In_ i j * x j)) by (intros; unfold maddn; ring). rewrite DenseN.sum_plus, sum_delta_l by auto. ring. }
    rewrite X. assert (0 <= sumn n (fun k => sumn n (fun i => E i k * x i) * sumn n (fun i => E i k * x i))); [|lra]. apply sum_nonneg. intros k K. pose proof (Rle_0_sqr (sumn n (fun i => E i k * x i))) as Q. exact Q.
  - unfold us_setRandom. cbn [take_u fst snd eig uni us_v us_E]. pose proof (B 0%nat). pose proof (B 1%nat). split; nra.
Qed.
Print Assumptions random_vector.
