(** C77, C78: homogeneous points and coordinates, and the Jacobians of homogeneous_coordinates.cpp, HomogeneousPoint.cpp, transformations.cpp. *)
From Verif Require Import Kin_Trans_Model Kin_Quat_Props Kin_Rot_Props Kin_Trans_Props Kin_Rot_Deriv.
From Coq Require Import Lra Psatz Lia FunctionalExtensionality.
From Coquelicot Require Import Coquelicot.
From Verif Require Import Kin_Trans_Model.
Import ListNotations.
Open Scope R_scope.

(** ** C77 *)
Lemma toEuclidean_some p a : hp_toEuclidean p = Some a <-> e3 p <> 0 /\ head3 p = scale3 (e3 p) a.
Proof.
  unfold hp_toEuclidean. destruct (Req_EM_T (e3 p) 0) as [Z|Z]. { split; [discriminate|tauto]. } destruct p as [x y z w], a as [a b c]. unfold head3, scale3. cbn [e0 e1 e2 e3 vx vy vz] in *. split.
  - intros E. injection E as <- <- <-. split; auto. f_equal; field; auto.
  - intros [_ E]. injection E as -> -> ->. do 2 f_equal; field; auto.
Qed.
(** finite points are those with a non-zero homogeneous coordinate *)
Theorem toEuclidean_finite p : (exists a, hp_toEuclidean p = Some a) <-> e3 p <> 0.
Proof. unfold hp_toEuclidean. destruct (Req_EM_T (e3 p) 0); split; try tauto; eauto. intros (a & H); discriminate. Qed.
Theorem toEuclidean_of_euclidean a : hp_toEuclidean (hp_of_euclidean a) = Some a /\ hp_toEuclidean hp_zero = Some zero3.
Proof. destruct a as [x y z]. unfold hp_of_euclidean, hp_zero. split; apply toEuclidean_some; vunfold; (split; [lra|]); veq; ring. Qed.
Theorem hp_add_euclidean p q a b : hp_toEuclidean p = Some a -> hp_toEuclidean q = Some b -> hp_toEuclidean (hp_add p q) = Some (add3 a b).
Proof.
  rewrite !toEuclidean_some. intros [P A] [Q B]. unfold hp_add. rewrite head3_cons4, A, B. cbn [cons4 e3]. split. apply Rmult_integral_contrapositive; auto. vring.
Qed.
Theorem hp_sub_euclidean p q a b : hp_toEuclidean p = Some a -> hp_toEuclidean q = Some b -> hp_toEuclidean (hp_sub p q) = Some (sub3 a b).
Proof.
  rewrite !toEuclidean_some. intros [P A] [Q B]. unfold hp_sub. rewrite head3_cons4, A, B. cbn [cons4 e3]. split. apply Rmult_integral_contrapositive; auto. vring.
Qed.
Theorem hp_scale_euclidean p a s : hp_toEuclidean p = Some a -> hp_toEuclidean (hp_scale p s) = Some (scale3 s a).
Proof.
  rewrite !toEuclidean_some. intros [P A]. split; auto. assert (E : head3 (hp_scale p s) = scale3 s (head3 p)) by (unfold hp_scale; vring). rewrite E, A. unfold hp_scale. vring.
Qed.
Theorem toHomogeneousPlus_adds p q : mv4 (toHomogeneousPlus p) q = hp_add p q. Proof. unfold toHomogeneousPlus, hp_add. vring. Qed.
Theorem toHomogeneousMinus_subtracts p q : mv4 (toHomogeneousMinus p) q = hp_sub q p. Proof. unfold toHomogeneousMinus, hp_sub. vring. Qed.
Theorem tf_actH_euclidean x p a : valid x -> hp_toEuclidean p = Some a -> hp_toEuclidean (tf_actH x p) = Some (tf_act3 x a).
Proof.
  intros V. rewrite !toEuclidean_some. intros [P A]. unfold tf_actH, tf_act3. rewrite head3_cons4, A. rewrite !quatRotate_matrix, mv3_scale by exact V. split; auto. change (e3 (cons4 (add3 (scale3 (e3 p) (mv3 (quat2r (tq x)) a)) (scale3 (e3 p) (tt x))) (e3 p))) with (e3 p). vring.
Qed.
(** points at infinity are only rotated, and stay at infinity *)
Theorem tf_actH_infinite x p : valid x -> e3 p = 0 -> tf_actH x p = cons4 (mv3 (tf_C x) (head3 p)) 0.
Proof. intros V H. unfold tf_actH, tf_C. rewrite H, quatRotate_matrix by exact V. f_equal. generalize (mv3 (quat2r (tq x)) (head3 p)) (tt x). clear. vring. Qed.
Theorem hp_scaling_invisible p k : k <> 0 -> hp_toEuclidean (scale4 k p) = hp_toEuclidean p.
Proof.
  intros K. destruct p as [x y z w]. unfold hp_toEuclidean. cbn [scale4 e0 e1 e2 e3]. destruct (Req_EM_T (k * w) 0) as [A|A], (Req_EM_T w 0) as [B|B]; auto.
  - apply Rmult_integral in A. tauto.
  - subst w. exfalso. apply A. ring.
  - do 2 f_equal; field; auto.
Qed.
Theorem hp_normalize_spec p : dot4 p p <> 0 -> exists n, hp_normalize p = Some n /\ unit4 n /\ hp_toEuclidean n = hp_toEuclidean p.
Proof.
  intros H. unfold hp_normalize. pose proof (norm4_sq p) as S. destruct (Req_EM_T (norm4 p) 0) as [Z|Z]. { rewrite Z in S. lra. } eexists. split; [reflexivity|]. split.
  - unfold unit4. replace (dot4 (scale4 (1 / norm4 p) p) (scale4 (1 / norm4 p) p)) with (1 / norm4 p * (1 / norm4 p) * dot4 p p) by (generalize (1 / norm4 p); vring). rewrite <- S. field. auto.
  - apply hp_scaling_invisible. unfold Rdiv. rewrite Rmult_1_l. apply Rinv_neq_0_compat. auto.
Qed.
Theorem hp_vector_point p : e3 (hp_convertToVector p) = 0 /\ head3 (hp_convertToVector p) = head3 p /\
  (dot3 (head3 p) (head3 p) <> 0 -> e3 p = 0 -> exists q, hp_convertToPoint p = Some q /\ hp_toEuclidean q = Some (scale3 (1 / norm3 (head3 p)) (head3 p))).
Proof.
  split; [auto|split; [apply head3_cons4|]]. intros H Z. unfold hp_convertToPoint, hp_normalize. assert (N : norm4 p = norm3 (head3 p)). { unfold norm4, norm3. f_equal. destruct p as [x y z w]. cbn [e3] in Z. subst w. vunfold. ring. }
  rewrite N. pose proof (norm3_sq (head3 p)) as S. destruct (Req_EM_T (norm3 (head3 p)) 0) as [G|G]. { rewrite G in S. lra. } eexists. split; [reflexivity|]. apply toEuclidean_some. cbn [cons4 e3]. split; [lra|]. rewrite head3_cons4. generalize (1 / norm3 (head3 p)). vring.
Qed.

(** ** C78 *)
Theorem fromHomogeneous_toHomogeneous v : fromHomogeneous (toHomogeneous v) = Some v.
Proof. unfold fromHomogeneous, toHomogeneous. cbn [e3]. destruct (Req_EM_T 1 0); [lra|]. f_equal. destruct v as [x y z]. unfold head3, scale3. cbn [vx vy vz e0 e1 e2]. f_equal; field. Qed.
Theorem fromHomogeneous_scale k v : k <> 0 -> fromHomogeneous (scale4 k v) = fromHomogeneous v.
Proof.
  intros K. assert (E : forall u, fromHomogeneous u = hp_toEuclidean u). { intros [x y z w]. unfold fromHomogeneous, hp_toEuclidean. cbn [e0 e1 e2 e3]. destruct (Req_EM_T w 0); auto. f_equal. unfold head3, scale3. cbn [vx vy vz e0 e1 e2]. f_equal; ring. }
  rewrite !E. apply hp_scaling_invisible; auto.
Qed.
Theorem fromHomogeneous_toEuclidean v : fromHomogeneous v = hp_toEuclidean v.
Proof. destruct v as [x y z w]. unfold fromHomogeneous, hp_toEuclidean. cbn [e0 e1 e2 e3]. destruct (Req_EM_T w 0); auto. f_equal. unfold head3, scale3. cbn [vx vy vz e0 e1 e2]. f_equal; ring. Qed.
Theorem fromHomogeneous_inverse v a : fromHomogeneous v = Some a -> v = scale4 (e3 v) (toHomogeneous a).
Proof. rewrite fromHomogeneous_toEuclidean, toEuclidean_some. intros [N H]. destruct v as [x y z w]. cbn [e3] in *. unfold head3 in H. cbn [e0 e1 e2] in H. destruct a as [a b c]. cbv [scale3 vx vy vz] in H. injection H as -> -> ->. unfold toHomogeneous. vunfold. veq; ring. Qed.
(** columns: matrices of any size *)
Theorem fromHomogeneousColumns_toHomogeneousColumns cols M : (forall r, In r M -> length r = cols) -> fromHomogeneousColumns (toHomogeneousColumns cols M) = Some M.
Proof.
  intros H. unfold fromHomogeneousColumns, toHomogeneousColumns. rewrite removelast_last, last_last. destruct (in_dec Req_EM_T 0 (repeat 1 cols)) as [I|_]. { apply repeat_spec in I. lra. }
  f_equal. rewrite <- (map_id M) at 2. apply map_ext_in. intros r Hr. specialize (H r Hr). clear Hr. subst cols. induction r as [|x r IH]; auto. cbn [length repeat map combine fst snd]. rewrite IH. f_equal. field.
Qed.
(** each column is converted as by fromHomogeneous: divided by its last element *)
Theorem fromHomogeneousColumns_elements hM M cols : hM <> [] -> (forall r, In r hM -> length r = cols) -> fromHomogeneousColumns hM = Some M ->
  length M = (length hM - 1)%nat /\ forall i j, (i < length M)%nat -> (j < cols)%nat -> nth j (last hM []) 0 <> 0 /\ nth j (nth i M []) 0 = nth j (nth i hM []) 0 / nth j (last hM []) 0.
Proof.
  intros NE L E. destruct (exists_last NE) as (top & w & ->). unfold fromHomogeneousColumns in E. rewrite removelast_last, last_last in *. destruct (in_dec Req_EM_T 0 w) as [|NZ]; [discriminate|]. injection E as <-. rewrite map_length, app_length. cbn [length]. split; [lia|].
  intros i j Hi Hj. assert (LW : length w = cols) by (apply L, in_or_app; right; left; auto). split.
  { intros Z. apply NZ. rewrite <- Z. apply nth_In. lia. }
  rewrite app_nth1 by auto. assert (LR : length (nth i top []) = cols) by (apply L, in_or_app; left; apply nth_In; auto).
  set (f := fun row : list R => map (fun xd => fst xd * snd xd) (combine row (map (fun x => 1 / x) w))). assert (Ef : nth i (map f top) [] = f (nth i top [])). { change (@nil R) with (f []) at 1. apply map_nth. } rewrite Ef. unfold f. clear Ef f.
  generalize dependent (nth i top []). intros r LR. clear - LR LW Hj NZ. revert r cols j LR LW Hj NZ. induction w as [|y w IH]; intros r cols j LR LW Hj NZ. cbn in LW. lia. destruct r as [|x r]. cbn in *. lia.
  cbn [map combine fst snd nth]. destruct j as [|j]. unfold Rdiv. ring. cbn [length] in LR, LW. destruct cols as [|cols]; [lia|]. apply (IH r cols j); try lia. intros I. apply NZ. right. auto.
Qed.

(** *** derivatives of curves in 4-space *)
Definition curve4_deriv (p : R -> vec4) (t : R) (d : vec4) : Prop :=
  derivable_pt_lim (fun s => e0 (p s)) t (e0 d) /\ derivable_pt_lim (fun s => e1 (p s)) t (e1 d) /\ derivable_pt_lim (fun s => e2 (p s)) t (e2 d) /\ derivable_pt_lim (fun s => e3 (p s)) t (e3 d).
(** a partial function f has, along every curve through p, the derivative J times the curve's: it is defined near p there *)
Definition deriv_along (f : vec4 -> option vec3) (c : R -> vec4) (t : R) (d : vec3) : Prop :=
  exists g : R -> vec3, (exists eps, 0 < eps /\ forall s, Rabs (s - t) < eps -> f (c s) = Some (g s)) /\ curve_deriv g t d.
Lemma curve4_iff p t d : curve4_deriv p t d <-> is_derive (fun s => e0 (p s)) t (e0 d) /\ is_derive (fun s => e1 (p s)) t (e1 d) /\ is_derive (fun s => e2 (p s)) t (e2 d) /\ is_derive (fun s => e3 (p s)) t (e3 d).
Proof. unfold curve4_deriv. rewrite <- !is_derive_Reals. tauto. Qed.
Lemma nonzero_near (f : R -> R) t l : is_derive f t l -> f t <> 0 -> exists eps, 0 < eps /\ forall s, Rabs (s - t) < eps -> f s <> 0.
Proof.
  intros D Z. assert (C : continuity_pt f t). { apply derivable_continuous_pt. exists l. apply is_derive_Reals. auto. }
  destruct (C (Rabs (f t))) as (al & A & B). apply Rabs_pos_lt; auto. exists al. split; auto. intros s Hs Zs. destruct (Req_dec t s) as [->|N]; [auto|]. assert (K := B s). cbn in K. unfold R_dist in K. specialize (K (conj (conj I N) Hs)). rewrite Zs in K. unfold Rminus in K. rewrite Rplus_0_l, Rabs_Ropp in K. lra.
Qed.
Lemma curve4_cases (P : (R -> vec4) -> vec4 -> Prop) t :
  (forall x y z w a b c d, is_derive x t a -> is_derive y t b -> is_derive z t c -> is_derive w t d -> P (fun s => V4 (x s) (y s) (z s) (w s)) (V4 a b c d)) ->
  forall c d, curve4_deriv c t d -> P c d.
Proof.
  intros H c d D. apply curve4_iff in D. destruct D as (D0 & D1 & D2 & D3). assert (E : c = fun s => V4 (e0 (c s)) (e1 (c s)) (e2 (c s)) (e3 (c s))) by (apply functional_extensionality; intros s; destruct (c s); auto).
  rewrite E. destruct d as [d0 d1 d2 d3]. apply H; auto.
Qed.
Lemma curve3_cases (P : (R -> vec3) -> vec3 -> Prop) t :
  (forall x y z a b c, is_derive x t a -> is_derive y t b -> is_derive z t c -> P (fun s => V3 (x s) (y s) (z s)) (V3 a b c)) ->
  forall c d, curve_deriv c t d -> P c d.
Proof.
  intros H c d D. apply curve_deriv_iff in D. destruct D as (D0 & D1 & D2). assert (E : c = fun s => V3 (vx (c s)) (vy (c s)) (vz (c s))) by (apply functional_extensionality; intros s; destruct (c s); auto).
  rewrite E. destruct d as [d0 d1 d2]. apply H; auto.
Qed.
Ltac dside2 := repeat match goal with |- _ /\ _ => split | |- True => exact I end; try assumption.
Theorem fromHomogeneous_jacobian c t dc J : curve4_deriv c t dc -> fromHomogeneousJacobian (c t) = Some J -> deriv_along fromHomogeneous c t (mv34 J dc).
Proof.
  revert c dc. apply (curve4_cases (fun c dc => fromHomogeneousJacobian (c t) = Some J -> deriv_along fromHomogeneous c t (mv34 J dc))). intros x y z w d0 d1 d2 d3 D0 D1 D2 D3 H.
  unfold fromHomogeneousJacobian in H. cbn [e3] in H. destruct (Req_EM_T (w t) 0) as [|Z]; [discriminate|]. injection H as <-.
  exists (fun s => scale3 (1 / w s) (V3 (x s) (y s) (z s))). split.
  - destruct (nonzero_near _ _ _ D3 Z) as (eps & P & N). exists eps. split; auto. intros s Hs. unfold fromHomogeneous. cbn [e3]. destruct (Req_EM_T (w s) 0) as [G|]; auto. exfalso. exact (N s Hs G).
  - apply curve_deriv_iff. unfold mv34, head3, scale3. cbn [u0 u1 u2]. vunfold. use_derives. (split; [|split]); (auto_derive; [dside2|dfinish; field; auto]).
Qed.
Theorem toHomogeneous_jacobian c t dc : curve_deriv c t dc -> curve4_deriv (fun s => toHomogeneous (c s)) t (mv43 toHomogeneousJacobian dc).
Proof.
  rewrite curve_deriv_iff, curve4_iff. intros (A & B & C). unfold toHomogeneous, toHomogeneousJacobian, mv43. cbn [s0 s1 s2 s3 e0 e1 e2 e3]. destruct dc as [x y z]. unfold dot3. cbn [vx vy vz] in *.
  (split; [|split; [|split]]); [replace (1 * x + 0 * y + 0 * z) with x by ring|replace (0 * x + 1 * y + 0 * z) with y by ring|replace (0 * x + 0 * y + 1 * z) with z by ring|replace (0 * x + 0 * y + 0 * z) with 0 by ring]; auto. apply is_derive_Reals, derivable_pt_lim_const.
Qed.

(** ** the hypotheses are met *)
Example ex_finite : hp_toEuclidean (V4 2 4 6 2) = Some (V3 1 2 3) /\ hp_toEuclidean (hp_add (V4 2 4 6 2) (V4 3 0 0 (-3))) = Some (V3 0 2 3).
Proof. split; apply toEuclidean_some; unfold hp_add; vunfold; (split; [lra|]); veq; lra. Qed.
Example ex_columns : fromHomogeneousColumns [[2; 3]; [4; 9]; [2; 3]] = Some [[2 * (1 / 2); 3 * (1 / 3)]; [4 * (1 / 2); 9 * (1 / 3)]].
Proof. unfold fromHomogeneousColumns. cbn [removelast last]. destruct (in_dec Req_EM_T 0 [2; 3]) as [[H|[H|H]]|_]; try lra. destruct H. reflexivity. Qed.
Example ex_jacobian : exists J, fromHomogeneousJacobian (V4 2 4 6 2) = Some J /\ curve4_deriv (fun s => V4 (2 * s) 4 (6 * s) (1 + s)) 1 (V4 2 0 6 1) /\ (fun s => V4 (2 * s) 4 (6 * s) (1 + s)) 1 = V4 2 4 6 2.
Proof.
  unfold fromHomogeneousJacobian. cbn [e3]. destruct (Req_EM_T 2 0); [lra|]. eexists. split; [reflexivity|]. split; [|f_equal; lra]. apply curve4_iff. cbn [e0 e1 e2 e3]. (split; [|split; [|split]]); auto_derive; auto; lra.
Qed.
