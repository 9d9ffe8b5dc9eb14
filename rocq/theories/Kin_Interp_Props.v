(** C76: interpolation of rotations and transformations. *)
From Verif Require Import Kin_Trans_Model Kin_Quat_Props Kin_Rot_Props Kin_Trans_Props.
From Coq Require Import Lra Psatz Lia.
Open Scope R_scope.

(** ** specification: the quaternion of a turn by the angle theta about the unit axis e *)
Definition turn_quat (e : vec3) (theta : R) : vec4 := cons4 (scale3 (sin (theta / 2)) e) (cos (theta / 2)).

(** The end of the shorter arc: b or -b, which are the same rotation *)
Definition nearer (a b : vec4) : vec4 := if Rlt_dec (dot4 a b) 0 then opp4 b else b.
Lemma target_nearer a b : (if Rlt_dec (dot4 (add4 a b) (add4 a b)) (dot4 (sub4 a b) (sub4 a b)) then opp4 b else b) = nearer a b.
Proof.
  unfold nearer. assert (E : dot4 (add4 a b) (add4 a b) - dot4 (sub4 a b) (sub4 a b) = 4 * dot4 a b) by vring.
  destruct (Rlt_dec (dot4 a b) 0), (Rlt_dec _ _); auto; lra.
Qed.
Lemma nearer_unit a b : unit4 b -> unit4 (nearer a b).
Proof. intros H. unfold nearer. destruct (Rlt_dec _ _); auto. unfold unit4 in *. rewrite <- H. vring. Qed.
Lemma nearer_dot a b : 0 <= dot4 a (nearer a b).
Proof. unfold nearer. destruct (Rlt_dec _ _) as [L|L]; [|lra]. replace (dot4 a (opp4 b)) with (- dot4 a b) by vring. lra. Qed.
Lemma nearer_same a b : quat2r (nearer a b) = quat2r b.
Proof. unfold nearer. destruct (Rlt_dec _ _); auto. apply quat2r_opp. Qed.
Lemma nearer_e3 a b : e3 (qplus (quatInv a) (nearer a b)) = dot4 a (nearer a b).
Proof. generalize (nearer a b). unfold qplus, quatInv. vring. Qed.

(** the interpolation is always defined *)
Theorem qslerp_defined a b t : unit4 a -> unit4 b -> exists q, qslerp a b t = Some q.
Proof.
  intros A B. unfold qslerp. destruct (Rle_dec t 0); eauto. destruct (Rle_dec 1 t); eauto. rewrite target_nearer. unfold qlog. destruct (quat2AxisAngle _) eqn:E; eauto. exfalso.
  apply quat_log_cut_locus in E; [|apply unit_qplus; auto using unit_quatInv, nearer_unit]. pose proof (nearer_e3 a b) as N. rewrite E in N. cbn [e3] in N. pose proof (nearer_dot a b). lra.
Qed.
Theorem qslerp_ends a b t : (t <= 0 -> qslerp a b t = Some a) /\ (1 <= t -> qslerp a b t = Some b).
Proof. unfold qslerp. split; intros H; destruct (Rle_dec t 0), (Rle_dec 1 t); auto; lra. Qed.
Theorem lerp_ends a b t : (t <= 0 -> lerp a b t = a) /\ (1 <= t -> lerp a b t = b) /\ (0 <= t <= 1 -> lerp a b t = add3 a (scale3 t (sub3 b a))).
Proof.
  unfold lerp. split; [|split]; intros H; destruct (Rle_dec t 0), (Rle_dec 1 t); auto; try lra; try (replace t with 0 by lra; vring); try (replace t with 1 by lra; vring). vring.
Qed.

Lemma log_shorter q : unit4 q -> 0 <= e3 q -> eps4 <= norm3 (head3 q) ->
  exists th, 0 < th <= PI /\ eps4 <= th /\ norm3 (head3 q) <= th / 2 /\ sin (th / 2) = norm3 (head3 q) /\ cos (th / 2) = e3 q /\ quat2AxisAngle q = Some (scale3 (th / norm3 (head3 q)) (head3 q)).
Proof.
  intros U Z H. pose proof (unit4_parts q U) as Q. pose proof eps4_pos as E. pose proof PI_RGT_0 as PP. unfold quat2AxisAngle, qeps, qeta. set (n := norm3 (head3 q)) in *. set (c := e3 q) in *. assert (P : 0 < n) by lra.
  assert (NC : n <= 1) by nra. assert (CC : 0 <= c < 1) by nra.
  exists (2 * acos c). assert (AB : 0 <= acos c <= PI) by apply acos_bound. assert (CA : cos (acos c) = c) by (apply cos_acos; lra).
  assert (A2 : acos c <= PI / 2). { destruct (Rle_dec (acos c) (PI / 2)) as [|G]; auto. exfalso. assert (cos (acos c) < 0) by (apply cos_lt_0; lra). lra. }
  assert (SA : sin (acos c) = n). { rewrite sin_acos by lra. replace (1 - Rsqr c) with (n * n) by (unfold Rsqr; lra). apply sqrt_square; lra. }
  assert (P0 : 0 < acos c). { destruct (Req_dec (acos c) 0) as [G|G]; [|lra]. rewrite G, sin_0 in SA. lra. }
  assert (NA : n <= acos c). { rewrite <- SA. apply Rlt_le, sin_lt_x. auto. }
  replace (2 * acos c / 2) with (acos c) by lra. repeat split; auto; try lra.
  rewrite (Rabs_pos_eq c) by lra. destruct (Rlt_dec c n) as [B|B].
  - do 2 f_equal. field; lra.
  - destruct (Rlt_dec 0 c) as [B2|B2]; [|lra]. unfold arcSinXOverX. rewrite (Rabs_pos_eq n), small_false by lra. do 2 f_equal.
    replace (asin n) with (acos c). field; lra. rewrite <- SA. symmetry. apply asin_sin. lra.
Qed.
(** between the ends: a turn by the fraction t of the angle of the shorter arc, about its axis.  Valid where no small-angle branch is taken. *)
Theorem qslerp_turns a b t : unit4 a -> unit4 b -> 0 < t < 1 -> eps4 <= t * norm3 (head3 (qplus (quatInv a) b)) ->
  exists e th, unit3 e /\ 0 < th <= PI /\ nearer a b = qplus a (turn_quat e th) /\ qslerp a b t = Some (qplus a (turn_quat e (t * th))).
Proof.
  intros A B T H. assert (NU := nearer_unit a b B). set (r := qplus (quatInv a) (nearer a b)).
  assert (RU : unit4 r) by (apply unit_qplus; auto using unit_quatInv). assert (R0 : 0 <= e3 r) by (unfold r; rewrite nearer_e3; apply nearer_dot).
  assert (N : norm3 (head3 r) = norm3 (head3 (qplus (quatInv a) b))).
  { unfold r, nearer. destruct (Rlt_dec _ _); auto. unfold norm3. f_equal. unfold qplus, quatInv. vring. }
  pose proof eps4_pos as E. pose proof (norm3_pos (head3 (qplus (quatInv a) b))) as NP. rewrite <- N in *. set (n := norm3 (head3 r)) in *. assert (HN : eps4 <= n) by nra.
  destruct (log_shorter r RU R0 HN) as (th & T1 & T2 & T3 & T4 & T5 & T6). fold n in T3, T4, T6. exists (scale3 (1 / n) (head3 r)), th.
  assert (EU : dot3 (scale3 (1 / n) (head3 r)) (scale3 (1 / n) (head3 r)) = 1).
  { replace (dot3 (scale3 (1 / n) (head3 r)) (scale3 (1 / n) (head3 r))) with (1 / n * (1 / n) * dot3 (head3 r) (head3 r)) by (generalize (1 / n); vring). rewrite <- norm3_sq. fold n. field. lra. }
  split; [exact EU|]. split; [lra|]. split.
  - assert (TQ' : turn_quat (scale3 (1 / n) (head3 r)) th = r). { unfold turn_quat. rewrite T4, T5, scale3_scale, scale3_1 by (field; lra). destruct r; auto. }
    rewrite TQ'. unfold r. rewrite <- qplus_assoc, (proj1 (quatInv_inverse a A)). symmetry. apply qplus_identity.
  - unfold qslerp. destruct (Rle_dec t 0); [lra|]. destruct (Rle_dec 1 t); [lra|]. rewrite target_nearer. fold r. unfold qlog. rewrite T6. do 2 f_equal. unfold qexp.
    assert (W : scale3 t (scale3 (th / n) (head3 r)) = scale3 (t * th) (scale3 (1 / n) (head3 r))) by (rewrite !scale3_scale; f_equal; field; lra).
    assert (NW : norm3 (scale3 (t * th) (scale3 (1 / n) (head3 r))) = t * th). { rewrite norm3_scale by nra. unfold norm3. rewrite EU, sqrt_1. ring. }
    rewrite W, axisAngle2quat_big; rewrite NW; [|nra]. unfold turn_quat. f_equal. rewrite (scale3_scale _ (t * th)). f_equal. field. nra.
Qed.
Lemma turn_unit e th : unit3 e -> unit4 (turn_quat e th).
Proof. unfold unit3, unit4, turn_quat. intros H. pose proof (sc1 (th / 2)) as S. generalize dependent (sin (th / 2)). generalize (cos (th / 2)). intros c s S. rewrite <- S. replace (s * s) with (s * s * dot3 e e) by (rewrite H; ring). vring. Qed.
Theorem qslerp_unit_partial a b t q : unit4 a -> unit4 b -> t <= 0 \/ 1 <= t \/ eps4 <= t * norm3 (head3 (qplus (quatInv a) b)) -> qslerp a b t = Some q -> unit4 q.
Proof.
  intros A B H Q. destruct (qslerp_ends a b t) as [E0 E1]. destruct (Rle_dec t 0) as [L|L]. { rewrite E0 in Q by auto. congruence. } destruct (Rle_dec 1 t) as [L1|L1]. { rewrite E1 in Q by auto. congruence. }
  destruct H as [H|[H|H]]; try lra. destruct (qslerp_turns a b t A B ltac:(lra) H) as (e & th & U & _ & _ & E). rewrite E in Q. injection Q as <-. apply unit_qplus; auto using turn_unit.
Qed.
(** always: the norm differs from one by less than the precision of a double *)
Theorem qslerp_norm a b t q : unit4 a -> unit4 b -> qslerp a b t = Some q -> 1 <= dot4 q q <= 1 + / 2 ^ 54.
Proof.
  intros A B Q. assert (PZ : 0 < / 2 ^ 54) by (apply Rinv_0_lt_compat, pow_lt; lra). unfold qslerp in Q. destruct (Rle_dec t 0). { injection Q as <-. rewrite A. lra. } destruct (Rle_dec 1 t). { injection Q as <-. rewrite B. lra. }
  destruct (qlog _) as [w|]; [|discriminate]. injection Q as <-. unfold qexp. set (u := axisAngle2quat (scale3 t w)).
  assert (D : dot4 (qplus a u) (qplus a u) = dot4 u u). { replace (dot4 (qplus a u) (qplus a u)) with (dot4 a a * dot4 u u) by (unfold qplus; generalize u; vring). rewrite A. ring. }
  rewrite D. destruct (Rlt_dec (norm3 (scale3 t w)) eps4) as [S|S]. apply small_quaternion_norm; auto. unfold u. assert (V : unit4 (axisAngle2quat (scale3 t w))) by (apply axisAngle2quat_unit; left; lra). rewrite V. lra.
Qed.
Theorem qslerp_unit_refuted : exists a b t q, unit4 a /\ unit4 b /\ 0 < t < 1 /\ qslerp a b t = Some q /\ ~ unit4 q.
Proof.
  set (b := V4 (3 / 5) 0 0 (4 / 5)). exists quatIdentity, b, (/ 16384). assert (A := unit_identity). assert (B : unit4 b) by (unfold unit4, b; vunfold; field).
  assert (R : qplus (quatInv quatIdentity) b = b) by (unfold quatInv, quatIdentity, qplus, b; vunfold; veq; field). assert (NB : nearer quatIdentity b = b). { unfold nearer. destruct (Rlt_dec _ _) as [L|L]; auto. exfalso. unfold quatIdentity, b in L. vunfold. lra. }
  assert (HN : norm3 (head3 b) = 3 / 5) by (unfold b, head3; cbn [e0 e1 e2]; apply norm3_x; lra).
  destruct (log_shorter b B) as (th & T1 & T2 & T3 & T4 & T5 & T6). unfold b; cbn; lra. rewrite HN; unfold eps4; lra. rewrite HN in *.
  assert (TH : th < 2). { destruct (Rlt_dec th 2) as [|G]; auto. exfalso. assert (S : sin 1 <= sin (th / 2)). { apply sin_incr_1; pose proof PI2_1; try lra. } destruct (sin_cubic 1) as [L _]; lra. }
  unfold qslerp. destruct (Rle_dec (/ 16384) 0); [lra|]. destruct (Rle_dec 1 (/ 16384)); [lra|]. rewrite target_nearer, NB, R. unfold qlog. rewrite T6. eexists. split; [auto|split; [auto|split; [lra|split; [reflexivity|]]]].
  rewrite (proj1 (qplus_identity _)). set (w := scale3 (/ 16384) _). assert (W : norm3 w = / 16384 * th). { unfold w. rewrite norm3_scale, norm3_scale, HN by lra. field. }
  destruct (small_quaternion_norm w) as [_ G]. rewrite W. unfold eps4. lra. unfold unit4, qexp. specialize (G ltac:(rewrite W; lra)). lra.
Qed.
(** exchanging the ends: the same rotation *)
Lemma turn_add e s t : unit3 e -> qplus (turn_quat e s) (turn_quat e t) = turn_quat e (s + t).
Proof.
  unfold unit3, turn_quat. intros H. replace ((s + t) / 2) with (s / 2 + t / 2) by field. rewrite sin_plus, cos_plus. generalize (sin (s / 2)) (cos (s / 2)) (sin (t / 2)) (cos (t / 2)). intros ss cs st ct. destruct e as [x y z]. unfold qplus. vunfold. veq; try ring.
  replace (ss * st) with (ss * st * (x * x + y * y + z * z)) by (rewrite H; ring). ring.
Qed.
Lemma turn_inv e s : quatInv (turn_quat e s) = turn_quat e (- s).
Proof. unfold turn_quat. replace (- s / 2) with (- (s / 2)) by field. rewrite sin_neg, cos_neg. unfold quatInv. vring. Qed.
Theorem qslerp_exchange a b t p q : unit4 a -> unit4 b -> t <= 0 \/ 1 <= t \/ eps4 <= Rmin t (1 - t) * norm3 (head3 (qplus (quatInv a) b)) ->
  qslerp a b t = Some p -> qslerp b a (1 - t) = Some q -> quat2r p = quat2r q.
Proof.
  intros A B H P Q. destruct (qslerp_ends a b t) as [E0 E1], (qslerp_ends b a (1 - t)) as [F0 F1]. destruct (Rle_dec t 0) as [L|L]. { rewrite E0 in P by auto. rewrite F1 in Q by lra. congruence. }
  destruct (Rle_dec 1 t) as [L1|L1]. { rewrite E1 in P by auto. rewrite F0 in Q by lra. congruence. } destruct H as [H|[H|H]]; try lra.
  pose proof (norm3_pos (head3 (qplus (quatInv a) b))) as NP. set (n := norm3 (head3 (qplus (quatInv a) b))) in *. pose proof eps4_pos as E4.
  assert (SY : norm3 (head3 (qplus (quatInv b) a)) = n). { unfold n, norm3. f_equal. unfold qplus, quatInv. vring. }
  pose proof (Rmin_l t (1 - t)) as ML. pose proof (Rmin_r t (1 - t)) as MR.
  assert (H1 : eps4 <= t * n) by nra. assert (H2 : eps4 <= (1 - t) * n) by nra.
  destruct (qslerp_turns a b t A B ltac:(lra) H1) as (e & th & U & TH & N & S).
  assert (S2 : exists s, (s = 1 \/ s = -1) /\ qslerp b a (1 - t) = Some (scale4 s (qplus a (turn_quat e (t * th))))).
  { assert (NN : quatInv (qplus (quatInv a) (nearer a b)) = qplus (quatInv b) (nearer b a)).
    { unfold nearer. replace (dot4 b a) with (dot4 a b) by vring. destruct (Rlt_dec _ _); unfold quatInv, qplus; vring. }
    assert (Sg : exists s, (s = 1 \/ s = -1) /\ b = scale4 s (nearer a b)). { unfold nearer. destruct (Rlt_dec _ _); [exists (-1)|exists 1]; (split; [auto|]); vring. }
    destruct Sg as (s & Hs & Sb). exists s. split; auto.
    assert (R1 : qplus (quatInv a) (nearer a b) = turn_quat e th). { rewrite N, <- qplus_assoc, (proj2 (quatInv_inverse a A)). apply qplus_identity. }
    unfold qslerp in S |- *. destruct (Rle_dec t 0); [lra|]. destruct (Rle_dec 1 t); [lra|]. destruct (Rle_dec (1 - t) 0); [lra|]. destruct (Rle_dec 1 (1 - t)); [lra|]. rewrite target_nearer in *. rewrite <- NN, R1 in *. rewrite turn_inv. clear S.
    assert (HT : norm3 (head3 (turn_quat e th)) = n). { rewrite <- R1. unfold n, nearer. destruct (Rlt_dec _ _); auto. unfold norm3. f_equal. unfold qplus, quatInv. vring. }
    assert (HTm : norm3 (head3 (turn_quat e (- th))) = n). { rewrite <- turn_inv, <- HT. unfold norm3. f_equal. unfold quatInv. vring. }
    assert (CP : 0 <= cos (th / 2)) by (apply cos_ge_0; lra).
    destruct (log_shorter (turn_quat e (- th))) as (th' & T1 & T2 & T3 & T4 & T5 & T6). apply turn_unit; auto. unfold turn_quat, cons4. cbn [e3]. replace (- th / 2) with (- (th / 2)) by field. rewrite cos_neg. auto. rewrite HTm. nra. rewrite HTm in *.
    assert (TE : th' = th). { unfold turn_quat, cons4 in T5. cbn [e3] in T5. replace (- th / 2) with (- (th / 2)) in T5 by field. rewrite cos_neg in T5. apply (f_equal acos) in T5. rewrite !acos_cos in T5 by lra. lra. }
    subst th'. unfold qlog. rewrite T6. f_equal. unfold qexp.
    assert (SN : sin (th / 2) = n) by auto.
    assert (HH : head3 (turn_quat e (- th)) = scale3 (- n) e). { unfold turn_quat. rewrite head3_cons4. replace (- th / 2) with (- (th / 2)) by field. rewrite sin_neg, SN. auto. }
    rewrite HH, !scale3_scale. replace ((1 - t) * (th / n) * - n) with ((1 - t) * th * -1) by (field; nra).
    assert (NW : norm3 (scale3 ((1 - t) * th * -1) e) = (1 - t) * th). { replace (scale3 ((1 - t) * th * -1) e) with (scale3 ((1 - t) * th) (opp3 e)) by vring. rewrite norm3_scale by nra. unfold norm3. replace (dot3 (opp3 e) (opp3 e)) with (dot3 e e) by vring. rewrite U, sqrt_1. ring. }
    rewrite axisAngle2quat_big; rewrite NW; [|nra]. rewrite scale3_scale. replace (sin ((1 - t) * th / 2) / ((1 - t) * th) * ((1 - t) * th * -1)) with (- sin ((1 - t) * th / 2)) by (field; nra).
    assert (TT : cons4 (scale3 (- sin ((1 - t) * th / 2)) e) (cos ((1 - t) * th / 2)) = turn_quat e (- ((1 - t) * th))). { unfold turn_quat. replace (- ((1 - t) * th) / 2) with (- ((1 - t) * th / 2)) by field. rewrite sin_neg, cos_neg. auto. }
    rewrite TT, Sb, N. replace (t * th) with (th + - ((1 - t) * th)) by ring. rewrite <- turn_add by auto. generalize (turn_quat e th) (turn_quat e (- ((1 - t) * th))). unfold qplus. vring. }
  rewrite S in P. destruct S2 as (s & Hs & S2). rewrite S2 in Q. injection P as <-. injection Q as <-. generalize (qplus a (turn_quat e (t * th))). intros z. destruct Hs as [-> | ->]; [|rewrite <- (quat2r_opp z)]; f_equal; clear; destruct z; vunfold; veq; ring.
Qed.
Theorem lerp_exchange a b t : lerp a b t = lerp b a (1 - t).
Proof. unfold lerp. destruct (Rle_dec t 0), (Rle_dec 1 t), (Rle_dec (1 - t) 0), (Rle_dec 1 (1 - t)); try lra; auto. vring. Qed.

(** ** transformations *)
Theorem slerpTransformations_defined x y s : valid x -> valid y -> exists z, slerpTransformations x y s = Some z /\ valid z.
Proof.
  intros A B. unfold slerpTransformations. destruct (qslerp_defined (tq x) (tq y) s A B) as (q & Q). rewrite Q. eexists. split; [reflexivity|]. apply tf_make_valid. destruct (qslerp_norm _ _ _ _ A B Q). lra.
Qed.
Lemma tf_make_eta x : valid x -> tf_make (tq x) (tt x) = x. Proof. intros A. unfold tf_make. rewrite normalize4_unit by auto. destruct x; auto. Qed.
Theorem slerpTransformations_ends x y s : valid x -> valid y -> (s <= 0 -> slerpTransformations x y s = Some x) /\ (1 <= s -> slerpTransformations x y s = Some y).
Proof.
  intros A B. unfold slerpTransformations. destruct (qslerp_ends (tq x) (tq y) s) as [E0 E1]. destruct (lerp_ends (tt x) (tt y) s) as (L0 & L1 & _).
  split; intros H; [rewrite E0, L0 by auto|rewrite E1, L1 by auto]; rewrite tf_make_eta; auto.
Qed.
Lemma ds_pos u : 0 < Rmax (/ 10 ^ 14) u. Proof. pose proof p14. pose proof (Rmax_l (/ 10 ^ 14) u). lra. Qed.
Theorem interpolate_ends_partial x s0 y s1 si : valid x -> valid y -> s0 <= s1 ->
  (si <= s0 -> interpolateTransformations x s0 y s1 si = Some x) /\ (s0 + / 10 ^ 14 <= s1 -> s1 <= si -> interpolateTransformations x s0 y s1 si = Some y).
Proof.
  intros A B O. unfold interpolateTransformations. destruct (Rlt_dec s1 s0); [lra|]. unfold interpolate_ordered. pose proof (ds_pos (s1 - s0)) as D. set (ds := Rmax _ _) in *.
  destruct (slerpTransformations_ends x y ((si - s0) / ds) A B) as [E0 E1]. split.
  - intros H. apply E0. apply Rmult_le_reg_r with ds; auto. unfold Rdiv. rewrite Rmult_assoc, Rinv_l by lra. lra.
  - intros H1 H2. apply E1. assert (E : ds = s1 - s0) by (unfold ds; apply Rmax_right; lra). apply Rmult_le_reg_r with ds; auto. unfold Rdiv. rewrite Rmult_assoc, Rinv_l by lra. lra.
Qed.
(** Two samples closer than 1e-14: the second one is not reached at its time. *)
Theorem interpolate_ends_refuted : exists x s0 y s1, valid x /\ valid y /\ s0 < s1 /\ interpolateTransformations x s0 y s1 s1 <> Some y.
Proof.
  set (y := TQ quatIdentity (V3 1 0 0)). exists tf_identity, 0, y, (/ 10 ^ 14 / 2). pose proof p14 as P. assert (VI := proj1 tf_valid). assert (VY : valid y) by apply unit_identity. repeat split; auto. lra.
  intros E. unfold interpolateTransformations in E. destruct (Rlt_dec _ _); [lra|]. unfold interpolate_ordered, slerpTransformations in E. rewrite Rmax_left in E by lra. replace ((/ 10 ^ 14 / 2 - 0) / / 10 ^ 14) with (1 / 2) in E by (field; lra). destruct (qslerp _ _ _); [|discriminate]. injection E as _ E. unfold lerp, y, tf_identity in E. cbn [tt] in E.
  destruct (Rle_dec (1 / 2) 0); [lra|]. destruct (Rle_dec 1 (1 / 2)); [lra|]. vunfold. injection E. lra.
Qed.
Theorem interpolate_exchange_partial x s0 y s1 si : s0 <> s1 -> interpolateTransformations x s0 y s1 si = interpolateTransformations y s1 x s0 si.
Proof. intros H. unfold interpolateTransformations. destruct (Rlt_dec s1 s0), (Rlt_dec s0 s1); auto; lra. Qed.
Theorem interpolate_exchange_refuted : exists x y s si, valid x /\ valid y /\ interpolateTransformations x s y s si <> interpolateTransformations y s x s si.
Proof.
  set (y := TQ quatIdentity (V3 1 0 0)). exists tf_identity, y, 0, 0. assert (VI := proj1 tf_valid). assert (VY : valid y) by apply unit_identity. repeat split; auto.
  rewrite (proj1 (interpolate_ends_partial tf_identity 0 y 0 0 VI VY ltac:(lra))) by lra. rewrite (proj1 (interpolate_ends_partial y 0 tf_identity 0 0 VY VI ltac:(lra))) by lra. unfold y, tf_identity. intros E. injection E. lra.
Qed.
(** strictly between the samples: the translation moves on the straight line, the rotation as in qslerp_turns, both at the fraction of time passed *)
Theorem interpolate_between x s0 y s1 si : valid x -> valid y -> s0 + / 10 ^ 14 <= s1 -> s0 <= si <= s1 ->
  let f := (si - s0) / (s1 - s0) in exists z q, interpolateTransformations x s0 y s1 si = Some z /\ valid z /\ tt z = add3 (tt x) (scale3 f (sub3 (tt y) (tt x))) /\ qslerp (tq x) (tq y) f = Some q /\ exists s, 0 < s /\ tq z = scale4 s q.
Proof.
  intros A B D S f. pose proof p14 as P. unfold interpolateTransformations. destruct (Rlt_dec _ _); [lra|]. unfold interpolate_ordered. rewrite Rmax_right by lra. fold f. unfold slerpTransformations.
  destruct (qslerp_defined (tq x) (tq y) f A B) as (q & Q). rewrite Q. eexists. exists q. split; [reflexivity|]. destruct (qslerp_norm _ _ _ _ A B Q) as [N _]. destruct (tf_make_valid q (lerp (tt x) (tt y) f) ltac:(lra)) as (V & T & SC). split; [exact V|]. split; [|split; auto].
  rewrite T. apply lerp_ends. assert (0 < s1 - s0) by lra. unfold f. split. apply Rmult_le_reg_r with (s1 - s0); auto. unfold Rdiv. rewrite Rmult_assoc, Rinv_l by lra. lra. apply Rmult_le_reg_r with (s1 - s0); auto. unfold Rdiv. rewrite Rmult_assoc, Rinv_l by lra. lra.
Qed.

(** ** the hypotheses are met: a quarter turn, half way *)
Example ex_slerp : unit4 quatIdentity /\ unit4 (V4 (3 / 5) 0 0 (4 / 5)) /\ eps4 <= Rmin (1 / 2) (1 - 1 / 2) * norm3 (head3 (qplus (quatInv quatIdentity) (V4 (3 / 5) 0 0 (4 / 5)))).
Proof.
  split; [apply unit_identity|split; [unfold unit4; vunfold; field|]].
  assert (R : qplus (quatInv quatIdentity) (V4 (3 / 5) 0 0 (4 / 5)) = V4 (3 / 5) 0 0 (4 / 5)) by (unfold quatInv, quatIdentity, qplus; vunfold; veq; field). rewrite R. unfold head3. cbn [e0 e1 e2]. rewrite norm3_x by lra. unfold Rmin. destruct (Rle_dec _ _); unfold eps4; lra.
Qed.
Example ex_interpolate : 0 + / 10 ^ 14 <= 1 /\ 0 <= 1 / 3 <= 1.
Proof. split; [|lra]. assert (/ 10 ^ 14 < 1) by (rewrite <- Rinv_1; apply Rinv_lt_contravar; lra). lra. Qed.
