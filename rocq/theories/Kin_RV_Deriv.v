(** C83 (rotation vector): S matrix, its inverse and the Jacobian. *)
From Coquelicot Require Import Coquelicot.
From Verif Require Import Kin_Rot_Model Kin_Quat_Model Kin_Quat_Props Kin_Rot_Props Kin_Rot_Deriv.
From Coq Require Import Reals Lra Psatz.
Open Scope R_scope.

(** ** rotation vector *)
(** the formulas away from zero, in terms of the components and the norm *)
Definition rvC_n (x y z n : R) : mat3 := aa_entries (x * (1 / n)) (y * (1 / n)) (z * (1 / n)) (sin n) (cos n).
Definition rvS_n (x y z n : R) : mat3 :=
  let A := crossMx (V3 (x * (1 / n)) (y * (1 / n)) (z * (1 / n))) in madd3 (madd3 I3 (mscale3 ((cos n - 1) * (1 / n)) A)) (mm3 (mscale3 ((n - sin n) * (1 / n)) A) A).
Lemma rv_C_n p : / 10 ^ 14 <= norm3 p -> rv_C p = rvC_n (vx p) (vy p) (vz p) (norm3 p).
Proof. intros H. unfold rv_C, rvC_n. destruct (Rlt_dec (norm3 p) (/ 10 ^ 14)); auto. lra. Qed.
Lemma rv_S_n p : / 10 ^ 14 <= norm3 p -> rv_S p = rvS_n (vx p) (vy p) (vz p) (norm3 p).
Proof.
  intros H. unfold rv_S, rvS_n. destruct (Rlt_dec (norm3 p) (/ 10 ^ 14)); [lra|]. cbv zeta. replace (-2 * sin (norm3 p * (1 / 2)) * sin (norm3 p * (1 / 2))) with (cos (norm3 p) - 1). auto.
  replace (cos (norm3 p)) with (cos (2 * (norm3 p * (1 / 2)))) by (f_equal; lra). rewrite cos_2a_sin. ring.
Qed.
Lemma norm_derive (x y z : R -> R) t dx dy dz : is_derive x t dx -> is_derive y t dy -> is_derive z t dz -> 0 < norm3 (V3 (x t) (y t) (z t)) ->
  is_derive (fun s => norm3 (V3 (x s) (y s) (z s))) t ((x t * dx + y t * dy + z t * dz) / norm3 (V3 (x t) (y t) (z t))).
Proof.
  intros X Y Z N. unfold norm3, dot3 in *. cbn [vx vy vz] in *. assert (P : 0 < x t * x t + y t * y t + z t * z t). { apply sqrt_lt_0_alt. rewrite sqrt_0. auto. }
  use_derives. auto_derive. dside; auto. dfinish. field. lra.
Qed.
Lemma norm_locally (x y z : R -> R) t dx dy dz c : is_derive x t dx -> is_derive y t dy -> is_derive z t dz -> 0 < c -> c < norm3 (V3 (x t) (y t) (z t)) ->
  locally t (fun s => c < norm3 (V3 (x s) (y s) (z s))).
Proof.
  intros X Y Z C N. assert (D : is_derive (fun s => norm3 (V3 (x s) (y s) (z s))) t ((x t * dx + y t * dy + z t * dz) / norm3 (V3 (x t) (y t) (z t)))) by (apply norm_derive; auto; lra).
  assert (K : continuous (fun s => norm3 (V3 (x s) (y s) (z s))) t) by (apply (@ex_derive_continuous R_AbsRing R_NormedModule); eexists; exact D).
  apply (K (fun y => c < y)). exact (open_gt c _ N).
Qed.
Lemma curve_deriv_ext_loc p p' t d : locally t (fun s => p s = p' s) -> curve_deriv p t d -> curve_deriv p' t d.
Proof.
  intros L. rewrite !curve_deriv_iff. intros (A & B & C). (split; [|split]); (eapply is_derive_ext_loc; [|eassumption]); (eapply filter_imp; [|exact L]); intros u E; cbv beta in *; rewrite E; auto.
Qed.
Theorem rv_angular_velocity p t d : / 10 ^ 14 < norm3 (p t) -> curve_deriv p t d -> angular_velocity (fun s => rv_C (p s)) t (rv_omega (p t) d).
Proof.
  intros BIG H. pose proof p14 as P14. apply omega_by_components; auto. clear H. intros x y z X Y Z E v. rewrite <- E in BIG. clear E.
  pose proof (norm_locally _ _ _ _ _ _ _ _ X Y Z P14 BIG) as L. pose proof (norm_derive _ _ _ _ _ _ _ X Y Z ltac:(lra)) as D.
  apply curve_deriv_ext_loc with (fun s => mv3 (rvC_n (x s) (y s) (z s) (norm3 (V3 (x s) (y s) (z s)))) v). { eapply filter_imp; [|exact L]. intros u U. cbv beta in *. rewrite rv_C_n by lra. auto. }
  unfold rv_omega. rewrite rv_S_n, rv_C_n by lra. cbn [vx vy vz] in *.
  assert (NN : norm3 (V3 (x t) (y t) (z t)) * norm3 (V3 (x t) (y t) (z t)) = x t * x t + y t * y t + z t * z t) by apply norm3_sq.
  set (n := fun s : R => norm3 (V3 (x s) (y s) (z s))). change (is_derive n t ((x t * vx d + y t * vy d + z t * vz d) / n t)) in D.
  change (fun s => mv3 (rvC_n (x s) (y s) (z s) (norm3 (V3 (x s) (y s) (z s)))) v) with (fun s => mv3 (rvC_n (x s) (y s) (z s) (n s)) v).
  change (norm3 (V3 (x t) (y t) (z t))) with (n t) in *. clear L. assert (NP : n t <> 0) by lra. clearbody n. clear BIG. destruct v as [a b c]. destruct d as [dx dy dz]. cbn [vx vy vz] in *.
  apply curve_deriv_iff. unfold rvC_n, rvS_n, aa_entries, crossMx. vunfold.
  pose proof (cc (n t)) as CC. assert (XX : x t * x t = n t * n t - y t * y t - z t * z t) by lra. clear NN.
  use_derives. (split; [|split]); (auto_derive; [dside; auto|dfinish; field [CC XX]; auto]).
Qed.
Theorem rv_jacobian p q : / 10 ^ 14 < norm3 p -> exists J, rv_J p q = Some J /\ is_jacobian rv_omega p q J.
Proof.
  intros BIG. pose proof p14 as P14. exists (rv_J1 p q, rv_S p). split.
  { unfold rv_J. destruct (Req_EM_T (dot3 p p) 0) as [E|E]; auto. exfalso. rewrite <- norm3_sq in E. nra. }
  apply jacobian_by_components. intros x y z a b c t dx dy dz da db dc X Y Z A B C <- <-. cbn [fst snd].
  pose proof (norm_locally _ _ _ _ _ _ _ _ X Y Z P14 BIG) as L. pose proof (norm_derive _ _ _ _ _ _ _ X Y Z ltac:(lra)) as D.
  apply curve_deriv_ext_loc with (fun s => mv3 (rvS_n (x s) (y s) (z s) (norm3 (V3 (x s) (y s) (z s)))) (V3 (a s) (b s) (c s))).
  { eapply filter_imp; [|exact L]. intros u U. cbv beta in *. unfold rv_omega. rewrite rv_S_n by lra. auto. }
  rewrite rv_S_n by lra. cbn [vx vy vz] in *.
  assert (NN : x t * x t + y t * y t + z t * z t = norm3 (V3 (x t) (y t) (z t)) * norm3 (V3 (x t) (y t) (z t))) by (symmetry; apply norm3_sq).
  assert (J : rv_J1 (V3 (x t) (y t) (z t)) (V3 (a t) (b t) (c t)) = rv_J1 (V3 (x t) (y t) (z t)) (V3 (a t) (b t) (c t))) by reflexivity.
  unfold rv_J1 at 2 in J. unfold powR32, powR52 in J. cbn [vx vy vz] in J. change (sqrt (x t * x t + y t * y t + z t * z t)) with (norm3 (V3 (x t) (y t) (z t))) in J. rewrite NN in J. rewrite J. clear J.
  set (n := fun s : R => norm3 (V3 (x s) (y s) (z s))). change (is_derive n t ((x t * dx + y t * dy + z t * dz) / n t)) in D.
  change (fun s => mv3 (rvS_n (x s) (y s) (z s) (norm3 (V3 (x s) (y s) (z s)))) (V3 (a s) (b s) (c s))) with (fun s => mv3 (rvS_n (x s) (y s) (z s) (n s)) (V3 (a s) (b s) (c s))).
  change (norm3 (V3 (x t) (y t) (z t))) with (n t) in *. clear L. assert (NP : n t <> 0) by lra. clearbody n. clear BIG P14.
  apply curve_deriv_iff. unfold rvS_n, crossMx. vunfold.
  assert (XX : x t * x t = n t * n t - y t * y t - z t * z t) by lra. clear NN. pose proof (cc (n t)) as CC.
  use_derives. (split; [|split]); (auto_derive; [dside; auto|dfinish]).
  - field [XX CC]; auto.
  - field [XX CC]; auto.
  - field [XX CC]; auto.
Qed.
(** At p = 0 the Jacobian is not a number. *)
Theorem rv_jacobian_zero_refuted : forall q, rv_J zero3 q = None.
Proof. intros q. unfold rv_J. destruct (Req_EM_T (dot3 zero3 zero3) 0) as [|G]; auto. exfalso. apply G. vring. Qed.
(** Below the threshold the matrix is constant, so S is not its rate of change. *)
Theorem rv_angular_velocity_tiny_refuted : exists p t d, curve_deriv p t d /\ ~ angular_velocity (fun s => rv_C (p s)) t (rv_omega (p t) d).
Proof.
  exists (fun s => V3 s 0 0), 0, ex. assert (Z : norm3 (V3 0 0 0) = 0) by apply norm3_0. pose proof p14 as P14. split.
  - apply curve_deriv_iff. unfold ex. cbn [vx vy vz]. (split; [|split]); auto_derive; auto.
  - intros H. specialize (H ey). apply curve_deriv_iff in H. destruct H as (_ & _ & H).
    assert (L : is_derive (fun s : R => vz (mv3 (rv_C (V3 s 0 0)) ey)) 0 0).
    { apply is_derive_ext_loc with (fun _ : R => 0). 2: { auto_derive; auto. }
      exists (mkposreal _ P14). intros s B. unfold ball in B. cbn in B. unfold AbsRing_ball, minus, plus, opp, abs in B. cbn in B.
      unfold rv_C. assert (NS : norm3 (V3 s 0 0) = Rabs s). { unfold norm3. replace (dot3 (V3 s 0 0) (V3 s 0 0)) with (Rsqr s) by (unfold Rsqr; vring). apply sqrt_Rsqr_abs. }
      rewrite NS. destruct (Rlt_dec (Rabs s) (/ 10 ^ 14)) as [|G]. { assert (K : 0 = vz (mv3 I3 ey)) by (unfold ey; vunfold; ring). exact K. } exfalso. apply G. replace s with (s + - 0) by ring. exact B. }
    apply is_derive_unique in H, L. pose proof (eq_trans (eq_sym H) L) as K. clear H L. rename K into L. unfold rv_omega, rv_S, rv_C, ex, ey in L. rewrite Z in L. destruct (Rlt_dec 0 (/ 10 ^ 14)) as [_|G]; [|lra]. vunfold. lra.
Qed.
(** the inverse S matrix *)
Theorem rv_invS_inverse p : / 10 ^ 14 <= norm3 p -> cos (norm3 p) <> 1 -> mm3 (rv_invS p) (rv_S p) = I3 /\ mm3 (rv_S p) (rv_invS p) = I3.
Proof.
  intros BIG C1. pose proof p14 as P14. rewrite rv_S_n by auto. unfold rv_invS. change (sqrt (dot3 p p)) with (norm3 p). cbv zeta. destruct (Req_EM_T (norm3 p) 0) as [E|NZ]; [lra|].
  pose proof (norm3_sq p) as NN. set (n := norm3 p) in *. clearbody n. destruct p as [x y z]. unfold rvS_n, crossMx. vunfold.
  assert (XX : x * x = n * n - y * y - z * z) by lra. pose proof (cc n) as CC. assert (D : cos n - 1 <> 0) by lra.
  split; veq; field [XX CC]; auto.
Qed.
Theorem rv_invS_zero : rv_invS zero3 = I3 /\ rv_S zero3 = I3.
Proof.
  unfold rv_invS, rv_S. change (sqrt (dot3 zero3 zero3)) with (norm3 zero3). rewrite norm3_0. pose proof p14. destruct (Req_EM_T 0 0); [|lra]. destruct (Rlt_dec 0 (/ 10 ^ 14)); [auto|lra].
Qed.

(** ** Non-vacuity *)
Example ex_rv_deriv : / 10 ^ 14 < norm3 ((fun s => V3 s (2 * s) (-2 * s)) 1) /\ curve_deriv (fun s => V3 s (2 * s) (-2 * s)) 1 (V3 1 2 (-2)).
Proof.
  split.
  - cbv beta. unfold norm3. replace (dot3 _ _) with (3 * 3) by (vunfold; ring). rewrite sqrt_square by lra. lra.
  - apply curve_deriv_iff. cbn [vx vy vz]. (split; [|split]); auto_derive; auto; lra.
Qed.
Example ex_rv_invS : / 10 ^ 14 <= norm3 (V3 PI 0 0) /\ cos (norm3 (V3 PI 0 0)) <> 1.
Proof. pose proof PI_301. rewrite norm3_x by lra. rewrite cos_PI. split; lra. Qed.
Print Assumptions rv_jacobian.
Print Assumptions rv_invS_inverse.
Print Assumptions zyx_angular_velocity.
