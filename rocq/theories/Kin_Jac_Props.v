(** C97, C98: the Jacobians that come with the update (oplus) operations, and normalizeAndJacobian. *)
From Verif Require Import Kin_Trans_Model Kin_Quat_Props Kin_Rot_Props Kin_Trans_Props Kin_Rot_Deriv Kin_Hom_Props.
From Coq Require Import Lra Psatz Lia FunctionalExtensionality.
From Coquelicot Require Import Coquelicot.
From Verif Require Import Kin_Trans_Model.
Open Scope R_scope.

(** ** the quaternion of a small update: derivative (d/2, 0) at the identity, along every curve of updates through zero *)
Lemma squeeze_derive (F G : R -> R) t eps : 0 < eps -> is_derive G t 0 -> G t = 0 -> (forall s, Rabs (s - t) < eps -> Rabs (F s - F t) <= G s) -> is_derive F t 0.
Proof.
  intros P D Z B. apply is_derive_Reals in D. apply is_derive_Reals. intros e E. destruct (D e E) as (del & H). assert (M : 0 < Rmin del eps) by (apply Rmin_pos; auto; apply cond_pos). exists (mkposreal _ M). cbn. intros h H0 H1.
  specialize (H h H0 (Rlt_le_trans _ _ _ H1 (Rmin_l _ _))). rewrite Z, !Rminus_0_r in H. rewrite Rminus_0_r. eapply Rle_lt_trans; [|exact H]. unfold Rdiv. rewrite !Rabs_mult. apply Rmult_le_compat_r. apply Rabs_pos.
  eapply Rle_trans; [apply B|]. replace (t + h - t) with h by ring. eapply Rlt_le_trans; [exact H1|apply Rmin_r]. apply RRle_abs.
Qed.
Lemma near_zero (c : R -> vec3) t d : curve_deriv c t d -> c t = zero3 -> exists eps, 0 < eps /\ forall s, Rabs (s - t) < eps -> norm3 (c s) < eps4.
Proof.
  revert c d. apply (curve3_cases (fun c _ => c t = zero3 -> exists eps, 0 < eps /\ forall s, Rabs (s - t) < eps -> norm3 (c s) < eps4)). intros x y z dx dy dz D0 D1 D2 Z. set (c := fun s => V3 (x s) (y s) (z s)). change (c t = zero3) in Z. set (d := V3 dx dy dz).
  assert (DD : is_derive (fun s => dot3 (c s) (c s)) t (2 * (vx (c t) * vx d + vy (c t) * vy d + vz (c t) * vz d))). { unfold dot3, c, d. cbn [vx vy vz]. use_derives. auto_derive; [dside2|dfinish; ring]. }
  assert (C : continuity_pt (fun s => dot3 (c s) (c s)) t). { apply derivable_continuous_pt. eexists. apply is_derive_Reals. apply DD. }
  destruct (C (eps4 * eps4)) as (al & A & B). unfold eps4; lra. exists al. split; auto. intros s Hs. assert (K : dot3 (c s) (c s) < eps4 * eps4).
  { destruct (Req_dec t s) as [<-|N]. rewrite Z. replace (dot3 zero3 zero3) with 0 by vring. unfold eps4. lra. assert (K := B s). cbn in K. unfold R_dist in K. specialize (K (conj (conj I N) Hs)). rewrite Z in K. replace (dot3 zero3 zero3) with 0 in K by vring. apply Rabs_def2 in K. lra. }
  pose proof (norm3_pos (c s)) as NP. rewrite <- norm3_sq in K. pose proof eps4_pos as EP. destruct (Rlt_dec (norm3 (c s)) eps4) as [|G]; auto. exfalso. clear - K NP EP G. apply Rnot_lt_le in G. generalize dependent (norm3 (c s)). intros n. generalize dependent eps4. intros. nra.
Qed.
Theorem axisAngle2quat_derivative c t d : curve_deriv c t d -> c t = zero3 -> curve4_deriv (fun s => axisAngle2quat (c s)) t (cons4 (scale3 (1 / 2) d) 0).
Proof.
  intros D Z. destruct (near_zero c t d D Z) as (eps & P & N). revert D Z N. revert c d. apply (curve3_cases (fun c d => c t = zero3 -> (forall s, Rabs (s - t) < eps -> norm3 (c s) < eps4) -> curve4_deriv (fun s => axisAngle2quat (c s)) t (cons4 (scale3 (1 / 2) d) 0))).
  intros x y z dx dy dz D0 D1 D2. set (c := fun s => V3 (x s) (y s) (z s)). set (d := V3 dx dy dz). intros Z N. change (c t = zero3) in Z. change (forall s, Rabs (s - t) < eps -> norm3 (c s) < eps4) in N. change (curve4_deriv (fun s => axisAngle2quat (c s)) t (cons4 (scale3 (1 / 2) d) 0)). apply curve4_iff.
  assert (X0 : x t = 0) by (apply (f_equal vx) in Z; exact Z). assert (Y0 : y t = 0) by (apply (f_equal vy) in Z; exact Z). assert (Z0 : z t = 0) by (apply (f_equal vz) in Z; exact Z).
  assert (V : forall s, Rabs (s - t) < eps -> axisAngle2quat (c s) = cons4 (scale3 (1 / 2 + dot3 (c s) (c s) * (1 / 48)) (c s)) (cos (norm3 (c s) * (1 / 2)))).
  { intros s Hs. unfold axisAngle2quat. rewrite small_true by (apply N; exact Hs). rewrite norm3_sq. reflexivity. }
  assert (L : forall (f g : R -> R) l, (forall s, Rabs (s - t) < eps -> f s = g s) -> is_derive f t l -> is_derive g t l). { intros f g l E F. eapply is_derive_ext_loc; [|exact F]. exists (mkposreal eps P). intros s Hs. apply E. apply Hs. }
  split; [|split; [|split]].
  - eapply L. { intros s Hs. change (V3 (x s) (y s) (z s)) with (c s). rewrite V by exact Hs. reflexivity. } unfold cons4, scale3, dot3, c, d. cbn [e0 vx vy vz]. use_derives. auto_derive; [dside2|dfinish; rewrite X0, Y0, Z0; field].
  - eapply L. { intros s Hs. change (V3 (x s) (y s) (z s)) with (c s). rewrite V by exact Hs. reflexivity. } unfold cons4, scale3, dot3, c, d. cbn [e1 vx vy vz]. use_derives. auto_derive; [dside2|dfinish; rewrite X0, Y0, Z0; field].
  - eapply L. { intros s Hs. change (V3 (x s) (y s) (z s)) with (c s). rewrite V by exact Hs. reflexivity. } unfold cons4, scale3, dot3, c, d. cbn [e2 vx vy vz]. use_derives. auto_derive; [dside2|dfinish; rewrite X0, Y0, Z0; field].
  - eapply L. { intros s Hs. change (V3 (x s) (y s) (z s)) with (c s). rewrite V by exact Hs. reflexivity. } unfold cons4. cbn [e3]. apply squeeze_derive with (G := fun s => dot3 (c s) (c s)) (eps := eps); auto.
    + unfold dot3, c. cbn [vx vy vz]. use_derives. auto_derive; [dside2|dfinish; rewrite X0, Y0, Z0; ring].
    + rewrite Z. vunfold. ring.
    + intros s Hs. rewrite Z, norm3_0. replace (0 * (1 / 2)) with 0 by ring. rewrite cos_0. set (n := norm3 (c s)). assert (NP : 0 <= n) by apply norm3_pos. specialize (N s Hs). fold n in N. rewrite <- norm3_sq. fold n.
      destruct (cos_quartic (n * (1 / 2))) as [A B]. unfold eps4 in N. lra. pose proof (COS_bound (n * (1 / 2))). rewrite Rabs_left1 by lra. clear - A NP. nra.
Qed.

(** ** HomogeneousPoint: the Jacobians are the derivatives with respect to oplus *)
Lemma curve4_qplus q c t d : curve4_deriv c t d -> curve4_deriv (fun s => qplus (c s) q) t (qplus d q).
Proof.
  revert c d. apply (curve4_cases (fun c d => curve4_deriv (fun s => qplus (c s) q) t (qplus d q))). intros x y z w d0 d1 d2 d3 D0 D1 D2 D3. destruct q as [q0 q1 q2 q3]. apply curve4_iff. unfold qplus. cbn [e0 e1 e2 e3]. use_derives.
  (split; [|split; [|split]]); (auto_derive; [dside2|dfinish; ring]).
Qed.
Lemma curve4_ext f g t d : (forall s, f s = g s) -> curve4_deriv f t d -> curve4_deriv g t d.
Proof. intros E H. assert (f = g) as <- by (apply functional_extensionality; auto). auto. Qed.
Theorem updateQuat_derivative q c t d : curve_deriv c t d -> c t = zero3 -> curve4_deriv (fun s => updateQuat q (c s)) t (mv43 (quatJacobian q) d).
Proof.
  intros D Z. replace (mv43 (quatJacobian q) d) with (qplus (cons4 (scale3 (1 / 2) d) 0) q) by (unfold quatJacobian, mv43, qplus; cbn [s0 s1 s2 s3]; vring). eapply curve4_ext. intros s. symmetry. apply updateQuat_product. cbv beta. apply curve4_qplus, axisAngle2quat_derivative; auto.
Qed.
Theorem hp_toHomogeneous_jacobian p c t d : curve_deriv c t d -> c t = zero3 -> curve4_deriv (fun s => hp_oplus p (c s)) t (mv43 (hp_toHomogeneousJ p) d).
Proof. intros D Z. exact (updateQuat_derivative p c t d D Z). Qed.
Lemma updateQuat_zero q : updateQuat q zero3 = q.
Proof. rewrite updateQuat_product. destruct (axisAngle2quat_exact zero3 (or_intror eq_refl)) as [(_ & X)|(X & _)]. rewrite X. apply qplus_identity. rewrite norm3_0 in X; lra. Qed.
Theorem hp_toEuclidean_jacobian p c t d v J : curve_deriv c t d -> c t = zero3 -> hp_toEuclideanAndJacobian p = Some (v, J) ->
  hp_toEuclidean p = Some v /\ deriv_along hp_toEuclidean (fun s => hp_oplus p (c s)) t (mv3 J d).
Proof.
  intros D Z H. pose proof (hp_toHomogeneous_jacobian p c t d D Z) as D4. unfold hp_toEuclideanAndJacobian in H. unfold hp_toEuclidean at 1. destruct (Req_EM_T (e3 p) 0) as [|NZ] eqn:EE; [discriminate|]. injection H as <- <-. split; auto.
  assert (PT : hp_oplus p (c t) = p) by (unfold hp_oplus; rewrite Z; apply updateQuat_zero).
  destruct (fromHomogeneous_jacobian _ _ _ (M34 (V4 (1 / e3 p) 0 0 (- vx (scale3 (1 / e3 p) (head3 p)) * (1 / e3 p))) (V4 0 (1 / e3 p) 0 (- vy (scale3 (1 / e3 p) (head3 p)) * (1 / e3 p))) (V4 0 0 (1 / e3 p) (- vz (scale3 (1 / e3 p) (head3 p)) * (1 / e3 p)))) D4) as (g & (eps & P & G) & DG).
  { cbv beta. rewrite PT. unfold fromHomogeneousJacobian. rewrite EE. auto. }
  exists g. split. { exists eps. split; auto. intros s Hs. rewrite <- fromHomogeneous_toEuclidean. auto. }
  match goal with |- curve_deriv g t ?x => match type of DG with curve_deriv g t ?y => replace x with y; auto end end.
  clear. generalize (1 / e3 p). intros r. unfold mv34, mv43, mm34_43, hp_toHomogeneousJ, col43. cbn [u0 u1 u2 s0 s1 s2 s3]. vdestruct. vunfold. veq; ring.
Qed.

(** ** normalizeAndJacobian *)
Theorem normalizeAndJacobian4_jacobian c t dc v J : curve4_deriv c t dc -> normalizeAndJacobian4 (c t) = Some (v, J) ->
  unit4 v /\ v = scale4 (1 / norm4 (c t)) (c t) /\ curve4_deriv (fun s => scale4 (1 / norm4 (c s)) (c s)) t (mv4 J dc).
Proof.
  revert c dc. apply (curve4_cases (fun c dc => normalizeAndJacobian4 (c t) = Some (v, J) -> unit4 v /\ v = scale4 (1 / norm4 (c t)) (c t) /\ curve4_deriv (fun s => scale4 (1 / norm4 (c s)) (c s)) t (mv4 J dc))).
  intros x y z w d0 d1 d2 d3 D0 D1 D2 D3 H. unfold normalizeAndJacobian4 in H. destruct (Req_EM_T (norm4 (V4 (x t) (y t) (z t) (w t))) 0) as [|Z]; [discriminate|]. injection H as <- <-.
  pose proof (norm4_sq (V4 (x t) (y t) (z t) (w t))) as SQ. set (n := norm4 (V4 (x t) (y t) (z t) (w t))) in *. split; [|split; auto].
  - unfold unit4. replace (dot4 _ _) with (1 / n * (1 / n) * dot4 (V4 (x t) (y t) (z t) (w t)) (V4 (x t) (y t) (z t) (w t))) by (clearbody n; vunfold; ring). rewrite <- SQ. field. auto.
  - assert (NE : n = sqrt (x t * x t + y t * y t + z t * z t + w t * w t)) by reflexivity. assert (PP : 0 < x t * x t + y t * y t + z t * z t + w t * w t). { unfold dot4 in SQ. cbn [e0 e1 e2 e3] in SQ. rewrite <- SQ. nra. }
    apply curve4_iff. unfold norm4, outer4, msub4. clearbody n. unfold dot4 in SQ. cbn [e0 e1 e2 e3] in SQ. vunfold. use_derives. assert (XX : w t * w t = n * n - x t * x t - y t * y t - z t * z t) by lra.
    (split; [|split; [|split]]); (auto_derive; [dside2; (lra || (rewrite <- NE; auto))|dfinish; rewrite <- NE; field [XX]; auto]).
Qed.
Theorem normalizeAndJacobian3_jacobian c t dc v J : curve_deriv c t dc -> normalizeAndJacobian3 (c t) = Some (v, J) ->
  unit3 v /\ v = scale3 (1 / norm3 (c t)) (c t) /\ curve_deriv (fun s => scale3 (1 / norm3 (c s)) (c s)) t (mv3 J dc).
Proof.
  revert c dc. apply (curve3_cases (fun c dc => normalizeAndJacobian3 (c t) = Some (v, J) -> unit3 v /\ v = scale3 (1 / norm3 (c t)) (c t) /\ curve_deriv (fun s => scale3 (1 / norm3 (c s)) (c s)) t (mv3 J dc))).
  intros x y z d0 d1 d2 D0 D1 D2 H. unfold normalizeAndJacobian3 in H. destruct (Req_EM_T (norm3 (V3 (x t) (y t) (z t))) 0) as [|Z]; [discriminate|]. injection H as <- <-.
  pose proof (norm3_sq (V3 (x t) (y t) (z t))) as SQ. set (n := norm3 (V3 (x t) (y t) (z t))) in *. split; [|split; auto].
  - unfold unit3. replace (dot3 _ _) with (1 / n * (1 / n) * dot3 (V3 (x t) (y t) (z t)) (V3 (x t) (y t) (z t))) by (clearbody n; vunfold; ring). rewrite <- SQ. field. auto.
  - assert (NE : n = sqrt (x t * x t + y t * y t + z t * z t)) by reflexivity. assert (PP : 0 < x t * x t + y t * y t + z t * z t). { unfold dot3 in SQ. cbn [vx vy vz] in SQ. rewrite <- SQ. nra. }
    apply curve_deriv_iff. unfold norm3. clearbody n. unfold dot3 in SQ. cbn [vx vy vz] in SQ. vunfold. use_derives. assert (XX : z t * z t = n * n - x t * x t - y t * y t) by lra.
    (split; [|split]); (auto_derive; [dside2; (lra || (rewrite <- NE; auto))|dfinish; rewrite <- NE; field [XX]; auto]).
Qed.

(** ** transformationAndJacobian, inverseTransformationAndJacobian: with S they are the derivatives with respect to Transformation::oplus *)
Definition curve6_deriv (c : R -> vec6) (t : R) (d : vec6) : Prop := curve_deriv (fun s => hi6 (c s)) t (hi6 d) /\ curve_deriv (fun s => lo6 (c s)) t (lo6 d).
(** Along any curve of unit-quaternion-tangent updates, dC/dt v = omega x C v with the rotation part of the update *)
Lemma quat2r_update_derivative q c t d v : unit4 q -> curve_deriv c t d -> c t = zero3 -> curve_deriv (fun s => mv3 (quat2r (updateQuat q (c s))) v) t (opp3 (cross d (mv3 (quat2r q) v))).
Proof.
  intros U D Z. assert (H := axisAngle2quat_derivative c t d D Z). assert (E : (fun s => mv3 (quat2r (updateQuat q (c s))) v) = (fun s => mv3 (quat2r (axisAngle2quat (c s))) (mv3 (quat2r q) v))).
  { apply functional_extensionality. intros s. rewrite updateQuat_product, quat2r_qplus, mv3_mm. auto. }
  rewrite E. generalize (mv3 (quat2r q) v). intros w. assert (A0 : axisAngle2quat (c t) = quatIdentity). { rewrite Z. destruct (axisAngle2quat_exact zero3 (or_intror eq_refl)) as [(_ & X)|(X & _)]; auto. rewrite norm3_0 in X; lra. }
  clear E Z D U. assert (G : forall f D4, curve4_deriv f t D4 -> f t = quatIdentity -> D4 = cons4 (scale3 (1 / 2) d) 0 -> curve_deriv (fun s => mv3 (quat2r (f s)) w) t (opp3 (cross d w))).
  { apply (curve4_cases (fun f D4 => f t = quatIdentity -> D4 = cons4 (scale3 (1 / 2) d) 0 -> curve_deriv (fun s => mv3 (quat2r (f s)) w) t (opp3 (cross d w)))). intros x y z u d0 d1 d2 d3 D0 D1 D2 D3 I E.
    unfold quatIdentity in I. injection I as X0 Y0 Z0 U0. destruct d as [dx dy dz], w as [w0 w1 w2]. unfold cons4, scale3 in E. cbn [vx vy vz] in E. injection E as -> -> -> ->. apply curve_deriv_iff. unfold quat2r. vunfold. use_derives.
    (split; [|split]); (auto_derive; [dside2|dfinish; rewrite ?X0, ?Y0, ?Z0, ?U0; field]). }
  exact (G _ _ H A0 eq_refl).
Qed.
Lemma mv4_rt_curve C t0 v : mv4 (rt C t0) v = cons4 (add3 (mv3 C (head3 v)) (scale3 (e3 v) t0)) (e3 v). Proof. vring. Qed.
Lemma curve_affine f g k w t df dg : curve_deriv f t df -> curve_deriv g t dg -> curve4_deriv (fun s => cons4 (add3 (f s) (scale3 k (g s))) w) t (cons4 (add3 df (scale3 k dg)) 0).
Proof.
  revert f df. apply (curve3_cases (fun f df => curve_deriv g t dg -> curve4_deriv (fun s => cons4 (add3 (f s) (scale3 k (g s))) w) t (cons4 (add3 df (scale3 k dg)) 0))). intros x y z dx dy dz X Y Z.
  revert g dg. apply (curve3_cases (fun g dg => curve4_deriv (fun s => cons4 (add3 (V3 (x s) (y s) (z s)) (scale3 k (g s))) w) t (cons4 (add3 (V3 dx dy dz) (scale3 k dg)) 0))). intros a b c da db dc A B C.
  apply curve4_iff. unfold cons4, add3, scale3. cbn [e0 e1 e2 e3 vx vy vz]. use_derives. (split; [|split; [|split]]); try (auto_derive; [dside2|dfinish; ring]).
Qed.
Lemma curve_translate t0 c t d : curve_deriv c t d -> curve_deriv (fun s => add3 t0 (c s)) t d.
Proof.
  revert c d. apply (curve3_cases (fun c d => curve_deriv (fun s => add3 t0 (c s)) t d)). intros x y z dx dy dz X Y Z. apply curve_deriv_iff. unfold add3. cbn [vx vy vz]. use_derives. (split; [|split]); (auto_derive; [dside2|dfinish; ring]).
Qed.
Theorem transformation_jacobian x v c t d : valid x -> curve6_deriv c t d -> c t = V6 zero3 zero3 ->
  let '(out, B) := transformationAndJacobian (tf_T x) v in
  out = tf_act4 x v /\ curve4_deriv (fun s => mv4 (tf_T (tf_oplus x (c s))) v) t (mv46 B (mv6 (tf_S x) d)).
Proof.
  intros V [D1 D2] Z. unfold transformationAndJacobian. split. { destruct v as [a b e w]. symmetry. apply (tf_act_T x (V3 a b e) w V). }
  assert (Z2 : lo6 (c t) = zero3) by (rewrite Z; auto). pose proof (quat2r_update_derivative (tq x) _ t _ (head3 v) V D2 Z2) as R. pose proof (curve_translate (tt x) _ t _ D1) as T.
  pose proof (curve_affine _ _ (e3 v) (e3 v) _ _ _ R T) as K. eapply curve4_ext in K. 2: { intros s. symmetry. unfold tf_T. rewrite mv4_rt_curve. unfold tf_oplus. cbn [tq tt]. reflexivity. }
  match goal with |- curve4_deriv _ _ ?z => match type of K with curve4_deriv _ _ ?y => replace z with y; [exact K|] end end.
  unfold tf_T. rewrite mv4_rt_curve. clear. destruct x as [q t0]. cbn [tq tt]. generalize (quat2r q). intros C. destruct d as [dh dl]. cbn [hi6 lo6]. generalize (mv3 C (head3 v)). intros u. unfold mv46, boxMinus, mv6, tf_S, mv43, crossMx. cbn [l46 h46 s0 s1 s2 s3 hi6 lo6 b11 b12 b21 b22 tt]. destruct dh, dl, u, v, t0. vunfold. veq; ring.
Qed.
Lemma curve_linear A c t d : curve_deriv c t d -> curve_deriv (fun s => mv3 A (c s)) t (mv3 A d).
Proof.
  revert c d. apply (curve3_cases (fun c d => curve_deriv (fun s => mv3 A (c s)) t (mv3 A d))). intros x y z dx dy dz X Y Z. apply curve_deriv_iff. destruct A as [[a b c] [d e f] [g h i]]. vunfold. use_derives. (split; [|split]); (auto_derive; [dside2|dfinish; ring]).
Qed.
Lemma quat2r_inverse_derivative f t D4 d u du : curve4_deriv f t D4 -> f t = quatIdentity -> D4 = cons4 (scale3 (1 / 2) d) 0 -> curve_deriv u t du -> curve_deriv (fun s => mv3 (tr3 (quat2r (f s))) (u s)) t (add3 (cross d (u t)) du).
Proof.
  revert f D4. apply (curve4_cases (fun f D4 => f t = quatIdentity -> D4 = cons4 (scale3 (1 / 2) d) 0 -> curve_deriv u t du -> curve_deriv (fun s => mv3 (tr3 (quat2r (f s))) (u s)) t (add3 (cross d (u t)) du))). intros x y z w d0 d1 d2 d3 D0 D1 D2 D3 I E.
  revert u du. apply (curve3_cases (fun u du => curve_deriv (fun s => mv3 (tr3 (quat2r (V4 (x s) (y s) (z s) (w s)))) (u s)) t (add3 (cross d (u t)) du))). intros ux uy uz dux duy duz U0 U1 U2.
  unfold quatIdentity in I. injection I as X0 Y0 Z0 W0. destruct d as [dx dy dz]. unfold cons4, scale3 in E. cbn [vx vy vz] in E. injection E as -> -> -> ->. apply curve_deriv_iff. unfold quat2r. vunfold. use_derives.
  (split; [|split]); (auto_derive; [dside2|dfinish; rewrite ?X0, ?Y0, ?Z0, ?W0; field]).
Qed.
Theorem inverseTransformation_jacobian x v c t d : valid x -> curve6_deriv c t d -> c t = V6 zero3 zero3 ->
  let '(out, B) := inverseTransformationAndJacobian (tf_T x) v in
  out = tf_act4 (tf_inverse x) v /\ curve4_deriv (fun s => mv4 (inverseTransform (tf_T (tf_oplus x (c s)))) v) t (mv46 B (mv6 (tf_S x) d)).
Proof.
  intros V [D1 D2] Z. unfold inverseTransformationAndJacobian. split. { rewrite <- tf_inverse_T by auto. destruct v as [a b e w]. symmetry. apply (tf_act_T (tf_inverse x) (V3 a b e) w). apply tf_valid. auto. }
  assert (Z1 : hi6 (c t) = zero3) by (rewrite Z; auto). assert (Z2 : lo6 (c t) = zero3) by (rewrite Z; auto). pose proof (axisAngle2quat_derivative _ t _ D2 Z2) as Q.
  assert (A0 : axisAngle2quat (lo6 (c t)) = quatIdentity). { rewrite Z2. destruct (axisAngle2quat_exact zero3 (or_intror eq_refl)) as [(_ & X)|(X & _)]; auto. rewrite norm3_0 in X; lra. }
  set (u := fun s => sub3 (head3 v) (scale3 (e3 v) (add3 (tt x) (hi6 (c s))))).
  assert (DU : curve_deriv u t (scale3 (- e3 v) (hi6 d))).
  { unfold u. clear - D1. refine (curve3_cases (fun f df => curve_deriv (fun s => sub3 (head3 v) (scale3 (e3 v) (add3 (tt x) (f s)))) t (scale3 (- e3 v) df)) t _ (fun s => hi6 (c s)) (hi6 d) D1). clear D1. intros a b e da db de A B E. apply curve_deriv_iff. destruct v as [v0 v1 v2 v3], x as [q [t0 t1 t2]]. cbn [tt]. vunfold. use_derives. (split; [|split]); (auto_derive; [dside2|dfinish; ring]). }
  pose proof (curve_linear (tr3 (quat2r (tq x))) _ _ _ (quat2r_inverse_derivative _ _ _ _ _ _ Q A0 eq_refl DU)) as K.
  pose proof (curve_affine _ _ 0 (e3 v) t _ _ K DU) as K4. cbv beta in K4.
  match type of K4 with curve4_deriv ?f _ ?y => match goal with |- curve4_deriv ?g _ ?z => replace g with f; [replace z with y; [exact K4|]|apply functional_extensionality; intros s] end end.
  - unfold u. rewrite Z1. unfold tf_T, inverseTransform. rewrite !topLeft_rt. clear. destruct x as [q t0]. cbn [tq tt]. generalize (quat2r q). intros C. destruct d as [dh dl]. cbn [hi6 lo6]. unfold mv46, mv6, tf_S, mv43, crossMx. cbn [l46 h46 s0 s1 s2 s3 hi6 lo6 b11 b12 b21 b22 tt]. destruct C as [[c0 c1 c2] [c3 c4 c5] [c6 c7 c8]], dh, dl, v, t0. vunfold. veq; ring.
  - symmetry. unfold tf_T, tf_oplus, inverseTransform. cbn [tq tt]. rewrite topLeft_rt, topRight_rt, mv4_rt_curve, updateQuat_product, quat2r_qplus, tr3_mm.
    assert (G : forall A B w0 t0 k, add3 (mv3 (mm3 A B) w0) (scale3 k (mv3 (mopp3 (mm3 A B)) t0)) = add3 (mv3 A (mv3 B (sub3 w0 (scale3 k t0)))) (scale3 0 (u s))) by (intros; generalize (u s); vring). rewrite G. reflexivity.
Qed.

(** ** the hypotheses are met: updates along a bent curve through zero *)
Example ex_update : curve6_deriv (fun s => V6 (V3 s (s * s) 0) (V3 (2 * s) 0 (- s))) 0 (V6 (V3 1 0 0) (V3 2 0 (-1))) /\ (fun s => V6 (V3 s (s * s) 0) (V3 (2 * s) 0 (- s))) 0 = V6 zero3 zero3.
Proof.
  split; [split; apply curve_deriv_iff; cbn [hi6 lo6 vx vy vz]; (split; [|split]); auto_derive; auto; lra|]. unfold zero3. do 2 f_equal; lra.
Qed.
