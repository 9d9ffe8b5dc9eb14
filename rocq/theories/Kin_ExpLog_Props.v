(** C100: the Jacobians of the quaternion exponential and logarithm. *)
From Coquelicot Require Import Coquelicot.
From Coq Require Import Reals Lra Psatz.
From Verif Require Import Kin_Rot_Model Kin_Quat_Props Kin_Rot_Props Kin_Rot_Deriv Kin_RV_Deriv Kin_Trans_Model Kin_Hom_Props Kin_Jac_Props Kin_Unc_Model Kin_Unc_Props Kin_Unc_Jac Kin_Quat_Model Kin_ExpLog_Model.
From Verif Require Import Kin_Quat_Model.
Open Scope R_scope.

Ltac munfold := cbv [expDiffMat quatExpJacobian quatV colOf43 mm4_43 mm43_33 tr43 mscale34 colOf34 mm3_34 mm34_44 mm34_43 col43 crossMx]; qunfold.

(** ** the exponential *)
(** away from zero: the coefficients in terms of the norm n and the sine and cosine of n/2 *)
Definition expD_n (x y z n s c : R) : mat3 := let X := crossMx (V3 x y z) in
  madd3 (msub3 I3 (mscale3 (2 * s * s / (n * n)) X)) (mm3 (mscale3 ((1 - 2 * s * c / n) / (n * n)) X) X).
Lemma expDiffMat_big v : eps4 <= norm3 v -> expDiffMat v = expD_n (vx v) (vy v) (vz v) (norm3 v) (sin (norm3 v / 2)) (cos (norm3 v / 2)).
Proof.
  intros H. pose proof eps4_pos. unfold expDiffMat. destruct (Req_EM_T _ _); [lra|]. rewrite Rabs_pos_eq by apply norm3_pos. rewrite small_false by auto. cbn [negb]. unfold expD_n. rewrite <- V3_eta.
  replace (sin (norm3 v)) with (2 * sin (norm3 v / 2) * cos (norm3 v / 2)) by (rewrite <- sin_2a; f_equal; lra). auto.
Qed.
Lemma curve4_deriv_ext_loc p p' t d : locally t (fun s => p s = p' s) -> curve4_deriv p t d -> curve4_deriv p' t d.
Proof.
  intros L. rewrite !curve4_iff. intros (A & B & C & D). (split; [|split; [|split]]); (eapply is_derive_ext_loc; [|eassumption]); (eapply filter_imp; [|exact L]); intros u E; cbv beta in *; rewrite E; auto.
Qed.
Theorem quatExpJacobian_derivative v t d : eps4 < norm3 (v t) -> curve_deriv v t d ->
  curve4_deriv (fun s => axisAngle2quat (v s)) t (mv43 (quatExpJacobian (v t)) d).
Proof.
  intros BIG H. revert v d H BIG. apply (curve3_cases (fun v d => eps4 < norm3 (v t) -> curve4_deriv (fun s => axisAngle2quat (v s)) t (mv43 (quatExpJacobian (v t)) d))).
  intros x y z dx dy dz X Y Z BIG. pose proof eps4_pos as EP.
  pose proof (norm_locally _ _ _ _ _ _ _ _ X Y Z EP BIG) as L. pose proof (norm_derive _ _ _ _ _ _ _ X Y Z ltac:(lra)) as D.
  apply curve4_deriv_ext_loc with (fun s => let n := norm3 (V3 (x s) (y s) (z s)) in cons4 (scale3 (sin (n / 2) / n) (V3 (x s) (y s) (z s))) (cos (n / 2))).
  { eapply filter_imp; [|exact L]. intros u U. cbv beta in *. rewrite axisAngle2quat_big by lra. auto. }
  unfold quatExpJacobian. rewrite expDiffMat_big, axisAngle2quat_big by lra. cbn [vx vy vz] in *.
  assert (NN : norm3 (V3 (x t) (y t) (z t)) * norm3 (V3 (x t) (y t) (z t)) = x t * x t + y t * y t + z t * z t) by apply norm3_sq.
  set (n := fun s : R => norm3 (V3 (x s) (y s) (z s))). change (is_derive n t ((x t * dx + y t * dy + z t * dz) / n t)) in D.
  change (curve4_deriv (fun s => cons4 (scale3 (sin (n s / 2) / n s) (V3 (x s) (y s) (z s))) (cos (n s / 2))) t
     (mv43 (mm43_33 (mm4_43 (quatOPlus (cons4 (scale3 (sin (n t / 2) / n t) (V3 (x t) (y t) (z t))) (cos (n t / 2)))) quatV) (expD_n (x t) (y t) (z t) (n t) (sin (n t / 2)) (cos (n t / 2)))) (V3 dx dy dz))).
  change (norm3 (V3 (x t) (y t) (z t))) with (n t) in *. clear L. assert (NP : n t <> 0) by lra. clearbody n. clear BIG EP.
  apply curve4_iff. unfold expD_n. munfold.
  assert (XX : x t * x t = n t * n t - y t * y t - z t * z t) by lra. clear NN. pose proof (cc (n t / 2)) as CC.
  use_derives. (split; [|split; [|split]]); (auto_derive; [dside; auto|dfinish]); unfold Rdiv in *; field [XX CC]; auto.
Qed.
Theorem quatExpJacobian_derivative_zero v t d : v t = zero3 -> curve_deriv v t d -> curve4_deriv (fun s => axisAngle2quat (v s)) t (mv43 (quatExpJacobian (v t)) d).
Proof.
  intros Z H. pose proof (axisAngle2quat_derivative v t d H Z) as D.
  replace (mv43 (quatExpJacobian (v t)) d) with (cons4 (scale3 (1 / 2) d) 0); auto.
  rewrite Z. unfold quatExpJacobian, expDiffMat. rewrite norm3_0. destruct (Req_EM_T 0 0); [|lra].
  destruct (axisAngle2quat_exact zero3 (or_intror eq_refl)) as [(_ & X)|(X & _)]; [|rewrite norm3_0 in X; lra]. rewrite X. clear. destruct d. munfold. f_equal; field.
Qed.

(** ** the differentials of exponential and logarithm are inverse matrices *)
Definition logD_n (x y z n s c : R) : mat3 := let X := crossMx (V3 x y z) in
  madd3 (madd3 I3 (mscale3 (1 / 2) X)) (mm3 (mscale3 ((1 - n / 2 * c / s) / n / n) X) X).
Lemma logDiffMat_big v : eps4 <= norm3 v -> sin (norm3 v / 2) <> 0 -> logDiffMat v = Some (logD_n (vx v) (vy v) (vz v) (norm3 v) (sin (norm3 v / 2)) (cos (norm3 v / 2))).
Proof.
  intros H S. pose proof eps4_pos. unfold logDiffMat. destruct (Req_EM_T _ _); [lra|]. rewrite Rabs_pos_eq by apply norm3_pos. rewrite small_false by auto. cbn [negb].
  replace (1 / 2 * norm3 v) with (norm3 v / 2) by lra. destruct (Req_EM_T _ _); [contradiction|]. unfold logD_n. rewrite <- V3_eta. auto.
Qed.
Theorem logDiffMat_expDiffMat v : eps4 <= norm3 v /\ sin (norm3 v / 2) <> 0 \/ v = zero3 ->
  exists L, logDiffMat v = Some L /\ mm3 L (expDiffMat v) = I3 /\ mm3 (expDiffMat v) L = I3.
Proof.
  intros [[H S]| ->].
  - rewrite logDiffMat_big, expDiffMat_big by auto. eexists. split; [reflexivity|]. pose proof eps4_pos as EP. assert (NZ : norm3 v <> 0) by lra. pose proof (norm3_sq v) as NN. set (n := norm3 v) in *. clearbody n.
    pose proof (cc (n / 2)) as CC. set (s := sin (n / 2)) in *. set (c := cos (n / 2)) in *. clearbody s c. destruct v as [x y z]. unfold logD_n, expD_n, crossMx. vunfold.
    assert (XX : x * x = n * n - y * y - z * z) by lra. clear - XX CC NZ S. split; veq; field [XX CC]; auto.
  - unfold logDiffMat, expDiffMat. rewrite norm3_0. destruct (Req_EM_T 0 0); [|lra]. exists I3. split; auto. rewrite mm3_I_l. auto.
Qed.
(** the differential of the logarithm has no value exactly at the non-zero multiples of a full turn *)
Theorem logDiffMat_undefined v : logDiffMat v = None <-> eps4 <= norm3 v /\ sin (norm3 v / 2) = 0.
Proof.
  unfold logDiffMat. pose proof eps4_pos. destruct (Req_EM_T (norm3 v) 0) as [Z|Z]. { split; [discriminate|]. intros [? _]. lra. }
  rewrite Rabs_pos_eq by apply norm3_pos. unfold small. destruct (Rlt_dec (norm3 v) eps4); cbn [negb]. { split; [discriminate|]. intros [? _]. lra. }
  replace (1 / 2 * norm3 v) with (norm3 v / 2) by lra. destruct (Req_EM_T _ _) as [E|E]. split; auto; intros _; split; auto; lra. split; [discriminate|]. intros [_ ?]. contradiction.
Qed.

(** ** the logarithm *)
(** on unit quaternions with a vector part that is not tiny all three branches are one formula *)
Definition logF (q : vec4) : vec3 := scale3 (2 * (acos (e3 q) / norm3 (head3 q))) (head3 q).
Lemma derivable_pt_lim_acos' x : -1 < x < 1 -> derivable_pt_lim acos x (-1 / sqrt (1 - Rsqr x)).
Proof. intros H. rewrite <- (derive_pt_acos x H). apply derive_pt_eq_1 with (pr := derivable_pt_acos x H). auto. Qed.
Lemma acos_asin_pos n c : 0 < n -> n * n + c * c = 1 -> 0 <= c -> acos c = asin n.
Proof.
  intros P Q C. assert (n <= 1) by nra. assert (c <= 1) by nra. pose proof (asin_bound n). pose proof (asin_pos n ltac:(lra)). pose proof PI_RGT_0.
  rewrite <- (acos_cos (asin n)) by lra. f_equal. rewrite cos_asin by lra. replace (1 - Rsqr n) with (c * c) by (unfold Rsqr; lra). rewrite sqrt_square; auto.
Qed.
Lemma quat2AxisAngle_logF q : unit4 q -> eps4 <= norm3 (head3 q) \/ e3 q <= 0 /\ head3 q <> zero3 -> quat2AxisAngle q = Some (logF q).
Proof.
  intros U H. pose proof (unit4_parts q U) as Q. pose proof eps4_pos as E. unfold quat2AxisAngle, qeps, qeta, logF.
  assert (P : 0 < norm3 (head3 q)). { destruct H as [H|[_ H]]; [lra|]. pose proof (norm3_pos (head3 q)) as N. destruct N as [N|N]; auto. exfalso. apply H, norm3_zero. auto. }
  set (n := norm3 (head3 q)) in *. set (c := e3 q) in *. destruct (Rlt_dec (Rabs c) n); auto. destruct (Rlt_dec 0 c) as [C|C].
  - unfold arcSinXOverX. rewrite Rabs_pos_eq by lra. destruct H as [H|[H _]]; [|lra]. rewrite small_false by auto. rewrite (acos_asin_pos n c) by lra. auto.
  - destruct (Req_EM_T n 0); [lra|]. replace (acos c) with (PI - asin n); auto. rewrite <- (acos_asin_pos n (- c)) by lra. rewrite acos_opp. lra.
Qed.
(** quatLogJacobian is the derivative of (q -> 2 acos(q3) v/|v|) in all four components *)
Lemma logF_derivative q t d J : curve4_deriv q t d -> quatLogJacobian (q t) = Some J -> curve_deriv (fun s => logF (q s)) t (mv34 J d).
Proof.
  intros H. revert q d H. apply (curve4_cases (fun q d => quatLogJacobian (q t) = Some J -> curve_deriv (fun s => logF (q s)) t (mv34 J d))).
  intros x y z w dx dy dz dw X Y Z W. unfold quatLogJacobian, qeps. cbv zeta. unfold head3. cbn [e0 e1 e2 e3]. destruct (Req_EM_T _ _) as [|NZ]; [discriminate|]. destruct (Rlt_dec _ _) as [B|]; [|discriminate].
  assert (NP : 0 < norm3 (V3 (x t) (y t) (z t))) by (destruct (norm3_pos (V3 (x t) (y t) (z t))) as [P|P]; auto; exfalso; apply NZ; auto).
  intros E. apply (f_equal (fun o => match o with Some m => m | None => J end)) in E. rewrite <- E. clear E. pose proof (norm_derive _ _ _ _ _ _ _ X Y Z NP) as D.
  apply Rabs_def2 in B. assert (WW : 0 < 1 - w t * w t) by nra. set (r := sqrt (1 - w t * w t)). assert (RP : 0 < r) by (apply sqrt_lt_R0; auto).
  assert (DA : is_derive (fun s => acos (w s)) t (- dw / r)).
  { replace (- dw / r) with (scal dw (- / r)) by (unfold scal; cbn; unfold mult; cbn; field; lra). apply (is_derive_comp acos w t); auto.
    apply is_derive_Reals. replace (- / r) with (- / sqrt (1 - Rsqr (w t))) by (unfold r, Rsqr; auto). replace (- / sqrt (1 - Rsqr (w t))) with (-1 / sqrt (1 - Rsqr (w t))). apply derivable_pt_lim_acos'; lra. field. unfold Rsqr. fold r. lra. }
  assert (UW : sqrt (- (w t * w t - 1) * norm3 (V3 (x t) (y t) (z t)) * norm3 (V3 (x t) (y t) (z t))) = r * norm3 (V3 (x t) (y t) (z t))).
  { rewrite Rmult_assoc, sqrt_mult by nra. rewrite sqrt_square by lra. f_equal. unfold r. f_equal. ring. }
  rewrite UW. clear UW. assert (NN : norm3 (V3 (x t) (y t) (z t)) * norm3 (V3 (x t) (y t) (z t)) = x t * x t + y t * y t + z t * z t) by apply norm3_sq.
  unfold logF, head3. cbn [e0 e1 e2 e3].
  set (n := fun s : R => norm3 (V3 (x s) (y s) (z s))). change (is_derive n t ((x t * dx + y t * dy + z t * dz) / n t)) in D. set (A := fun s => acos (w s)) in *.
  change (curve_deriv (fun s => scale3 (2 * (A s / n s)) (V3 (x s) (y s) (z s))) t (mv34
     (M34 (V4 (2 * A t * (y t * y t + z t * z t) / (n t * n t * n t)) (-2 * A t * y t * x t / (n t * n t * n t)) (-2 * A t * z t * x t / (n t * n t * n t)) (-2 * x t / (r * n t)))
          (V4 (-2 * A t * x t * y t / (n t * n t * n t)) (2 * A t * (x t * x t + z t * z t) / (n t * n t * n t)) (-2 * A t * y t * z t / (n t * n t * n t)) (-2 * y t / (r * n t)))
          (V4 (-2 * A t * x t * z t / (n t * n t * n t)) (-2 * A t * y t * z t / (n t * n t * n t)) (2 * A t * (x t * x t + y t * y t) / (n t * n t * n t)) (-2 * z t / (r * n t)))) (V4 dx dy dz dw))).
  change (norm3 (V3 (x t) (y t) (z t))) with (n t) in *. clearbody n A r. clear W B WW. assert (R0 : r <> 0) by lra. clear RP NP.
  apply curve_deriv_iff. unfold mv34. cbn [u0 u1 u2]. vunfold. assert (XX : x t * x t = n t * n t - y t * y t - z t * z t) by lra. clear NN.
  use_derives. (split; [|split]); (auto_derive; [dside; auto|dfinish]); field [XX]; auto.
Qed.

Lemma curve_const_norm q t d : (exists eps, 0 < eps /\ forall s, Rabs (s - t) < eps -> unit4 (q s)) -> curve4_deriv q t d -> dot4 (q t) d = 0.
Proof.
  intros (eps & P & U) H. pose proof (curve4_dot q q t d d H H) as D. apply is_derive_Reals in D.
  assert (D0 : is_derive (fun s => dot4 (q s) (q s)) t 0). { apply is_derive_ext_loc with (fun _ => 1). exists (mkposreal eps P). intros s B. symmetry. apply U. exact B. auto_derive; auto. }
  apply is_derive_unique in D. apply is_derive_unique in D0. pose proof (eq_trans (eq_sym D) D0) as D1. clear D0. rename D1 into D0. replace (dot4 d (q t)) with (dot4 (q t) d) in D0 by (unfold dot4; ring). lra.
Qed.
Lemma log_angle q : unit4 q -> head3 q <> zero3 -> let n := norm3 (head3 q) in let a := acos (e3 q) in
  0 < n /\ 0 < a < PI /\ sin a = n /\ cos a = e3 q /\ norm3 (logF q) = 2 * a.
Proof.
  intros U H n a. assert (P : 0 < n) by (destruct (norm3_pos (head3 q)) as [N|N]; auto; exfalso; apply H, norm3_zero; auto).
  pose proof (unit4_parts q U) as Q. fold n in Q. assert (B : -1 < e3 q < 1) by nra. pose proof (acos_bound_lt _ B) as AB. fold a in AB.
  split; auto. split; auto. split; [|split].
  - unfold a. rewrite sin_acos by lra. replace (1 - Rsqr (e3 q)) with (n * n) by (unfold Rsqr; lra). apply sqrt_square. lra.
  - apply cos_acos. lra.
  - unfold logF. fold a n. rewrite norm3_scale. fold n. field. lra. apply Rmult_le_pos; [lra|]. apply Rlt_le, Rdiv_lt_0_compat; lra.
Qed.
(** On unit quaternions: defined, and the derivative of the logarithm along every curve of unit quaternions; so is quatLogJacobian *)
Theorem quatLogJacobian2_derivative q t d : curve4_deriv q t d -> (exists eps, 0 < eps /\ forall s, Rabs (s - t) < eps -> unit4 (q s)) ->
  eps4 < norm3 (head3 (q t)) \/ e3 (q t) < 0 /\ head3 (q t) <> zero3 ->
  exists J J', quatLogJacobian2 (q t) = Some J /\ quatLogJacobian (q t) = Some J' /\ deriv_along quat2AxisAngle q t (mv34 J d) /\ mv34 J' d = mv34 J d.
Proof.
  intros D UL H. pose proof (curve_const_norm q t d UL D) as T. destruct UL as (eps & P & U). assert (U0 : unit4 (q t)) by (apply U; rewrite Rminus_eq_0, Rabs_R0; auto).
  pose proof eps4_pos as EP.
  assert (NZ : head3 (q t) <> zero3) by (destruct H as [H|[_ H]]; auto; intros Z; rewrite Z, norm3_0 in H; lra).
  destruct (log_angle (q t) U0 NZ) as (NP & AB & SA & CA & NL). pose proof (unit4_parts _ U0) as Q.
  assert (Q2 : quat2AxisAngle (q t) = Some (logF (q t))) by (apply quat2AxisAngle_logF; auto; destruct H as [H|[H ?]]; [left; lra|right; split; auto; lra]).
  unfold quatLogJacobian2. rewrite Q2.
  set (n := norm3 (head3 (q t))) in *. set (a := acos (e3 (q t))) in *.
  assert (A2 : eps4 <= 2 * a).
  { destruct H as [H|[H _]].
    - destruct (Rle_dec eps4 (2 * a)); auto. exfalso. pose proof (sin_lt_x a ltac:(lra)). lra.
    - destruct (Rle_dec eps4 (2 * a)); auto. exfalso. assert (0 < cos a) by (apply cos_gt_0; pose proof PI2_1; unfold eps4 in *; lra). lra. }
  rewrite logDiffMat_big by (rewrite NL; replace (2 * a / 2) with a by lra; try rewrite SA; lra). rewrite NL. replace (2 * a / 2) with a by lra. rewrite SA, CA.
  assert (JE : exists J', quatLogJacobian (q t) = Some J').
  { unfold quatLogJacobian, qeps. fold n. destruct (Req_EM_T n 0); [lra|]. destruct (Rlt_dec _ _) as [|G]; [eauto|]. exfalso. apply G. apply Rabs_def1; nra. }
  destruct JE as (J' & EJ). eexists _, J'. split; [reflexivity|]. split; auto.
  assert (EQ : mv34 J' d = mv34 (mm34_44 (mm3_34 (logD_n (vx (logF (q t))) (vy (logF (q t))) (vz (logF (q t))) (2 * a) n (e3 (q t))) (mscale34 4 (tr43 quatV))) (quatOPlus (quatInv (q t)))) d).
  { unfold quatLogJacobian, qeps in EJ. cbv zeta in EJ. fold n a in EJ. destruct (Req_EM_T n 0); [discriminate|]. destruct (Rlt_dec _ _) as [B|]; [|discriminate]. apply (f_equal (fun o => match o with Some m => m | None => J' end)) in EJ. rewrite <- EJ. clear EJ.
    assert (UW : sqrt (- (e3 (q t) * e3 (q t) - 1) * n * n) = n * n). { replace (- (e3 (q t) * e3 (q t) - 1)) with (n * n) by lra. rewrite Rmult_assoc. apply sqrt_square. nra. } rewrite UW. clear UW.
    (* a tangent vector is a product with a pure quaternion *)
    set (om := mv4 (quatOPlus (quatInv (q t))) d). assert (DO : d = mv4 (quatOPlus (q t)) om).
    { unfold om. rewrite <- mv4_mm. transitivity (mv4 (mscale4 (dot4 (q t) (q t)) I4) d); [|destruct (q t), d; qunfold; f_equal; ring]. unfold unit4 in U0. rewrite U0. destruct d; vunfold; f_equal; ring. }
    assert (O3 : e3 om = 0). { rewrite <- T. unfold om. destruct (q t), d. qunfold. ring. }
    unfold logF. fold n a. assert (XX : dot3 (head3 (q t)) (head3 (q t)) = n * n) by (symmetry; apply norm3_sq). assert (N0 : n <> 0) by auto. assert (A0 : a <> 0) by lra.
    rewrite DO. clearbody om. destruct om as [ox oy oz ow]. cbn [e3] in O3. subst ow. clear - XX Q N0 A0. clearbody a n. destruct (q t) as [x y z w]. unfold logD_n, mv34. munfold. cbn [u0 u1 u2] in *.
    assert (X2 : x * x = n * n - y * y - z * z) by lra. assert (W2 : w * w = 1 - n * n) by lra. clear XX Q. f_equal; field [X2 W2]; auto. }
  split; auto. rewrite <- EQ.
  assert (L : locally t (fun s => Some (logF (q s)) = quat2AxisAngle (q s))).
  { assert (LU : locally t (fun s => unit4 (q s))) by (exists (mkposreal eps P); intros s B; apply U; exact B).
    pose proof (proj1 (curve4_iff _ _ _) D) as (DX & DY & DZ & DW).
    assert (LH : locally t (fun s => eps4 < norm3 (head3 (q s))) \/ locally t (fun s => e3 (q s) < 0 /\ 0 < norm3 (head3 (q s)))).
    { destruct H as [H|[H _]].
      - left. eapply (norm_locally _ _ _ _ _ _ _ eps4 DX DY DZ EP); auto.
      - right. apply filter_and.
        + assert (K : continuous (fun s => e3 (q s)) t) by (apply (@ex_derive_continuous R_AbsRing R_NormedModule); eexists; exact DW). apply (K (fun y => y < 0)). exact (open_lt 0 _ H).
        + assert (HN : n / 2 < norm3 (V3 (e0 (q t)) (e1 (q t)) (e2 (q t)))) by (change (norm3 (V3 (e0 (q t)) (e1 (q t)) (e2 (q t)))) with n; lra). eapply filter_imp; [|eapply (norm_locally _ _ _ _ _ _ _ (n / 2) DX DY DZ ltac:(lra) HN)]. intros u G. cbv beta in G. change (norm3 (head3 (q u))) with (norm3 (V3 (e0 (q u)) (e1 (q u)) (e2 (q u)))). lra. }
    destruct LH as [LH|LH]; (eapply filter_imp; [|apply filter_and; [exact LU|exact LH]]); intros s [Us Hs]; cbv beta in *; symmetry; apply quat2AxisAngle_logF; auto.
    - left; lra.
    - right. destruct Hs as [? Hs]. split; [lra|]. intros Z. rewrite Z, norm3_0 in Hs. lra. }
  exists (fun s => logF (q s)). split; [|apply logF_derivative; auto]. destruct L as [e L]. exists e. split; [apply cond_pos|]. intros s B. symmetry. apply L. exact B.
Qed.
(** log Jacobian times exp Jacobian *)
Theorem quatLogJacobian2_quatExpJacobian v : eps4 <= norm3 v < 2 * PI -> eps4 <= sin (norm3 v / 2) \/ PI <= norm3 v ->
  exists J, quatLogJacobian2 (axisAngle2quat v) = Some J /\ mm34_43 J (quatExpJacobian v) = I3.
Proof.
  intros H C. unfold quatLogJacobian2. rewrite (quat_log_exp_partial v H C). pose proof eps4_pos as EP.
  assert (S : sin (norm3 v / 2) <> 0) by (assert (0 < sin (norm3 v / 2)) by (apply sin_gt_0; lra); lra).
  destruct (logDiffMat_expDiffMat v) as (L & -> & M & _). { left. split; lra. }
  eexists. split; [reflexivity|]. pose proof (axisAngle2quat_unit v ltac:(left; lra)) as U. unfold quatExpJacobian. rewrite <- M. generalize dependent (axisAngle2quat v). intros q U.
  generalize (expDiffMat v). intros E. clear - U.
  transitivity (mscale3 (dot4 q q) (mm3 L E)).
  - destruct q as [x y z w], L as [[a0 a1 a2] [a3 a4 a5] [a6 a7 a8]], E as [[b0 b1 b2] [b3 b4 b5] [b6 b7 b8]]. munfold. cbn [u0 u1 u2 s0 s1 s2 s3]. veq; field.
  - unfold unit4 in U. rewrite U. generalize (mm3 L E). clear. vring.
Qed.

(** ** the small-angle branches *)
(** the differentials of exponential and logarithm at v, a vector that is no multiple of a full turn: I - (1-cos n)/n^2 [v] + (n - sin n)/n^3 [v]^2, and
    I + [v]/2 + (1 - n/2 cot(n/2))/n^2 [v]^2, with n = |v| *)
Definition exp_differential (v : vec3) : mat3 := let n := norm3 v in
  madd3 (msub3 I3 (mscale3 ((1 - cos n) / (n * n)) (crossMx v))) (mscale3 ((n - sin n) / (n * n * n)) (mm3 (crossMx v) (crossMx v))).
Definition log_differential (v : vec3) : mat3 := let n := norm3 v in
  madd3 (madd3 I3 (mscale3 (1 / 2) (crossMx v))) (mscale3 ((1 - n / 2 * (cos (n / 2) / sin (n / 2))) / (n * n)) (mm3 (crossMx v) (crossMx v))).
Theorem expDiffMat_exact v : eps4 <= norm3 v -> expDiffMat v = exp_differential v.
Proof.
  intros H. pose proof eps4_pos. assert (N : norm3 v <> 0) by lra. rewrite expDiffMat_big by auto. unfold exp_differential, expD_n. cbv zeta. rewrite <- V3_eta.
  replace (sin (norm3 v)) with (2 * sin (norm3 v / 2) * cos (norm3 v / 2)) by (rewrite <- sin_2a; f_equal; lra).
  replace (cos (norm3 v)) with (1 - 2 * sin (norm3 v / 2) * sin (norm3 v / 2)) by (rewrite <- cos_2a_sin; f_equal; lra).
  replace ((1 - (1 - 2 * sin (norm3 v / 2) * sin (norm3 v / 2))) / (norm3 v * norm3 v)) with (2 * sin (norm3 v / 2) * sin (norm3 v / 2) / (norm3 v * norm3 v)) by (field; auto).
  replace ((norm3 v - 2 * sin (norm3 v / 2) * cos (norm3 v / 2)) / (norm3 v * norm3 v * norm3 v)) with ((1 - 2 * sin (norm3 v / 2) * cos (norm3 v / 2) / norm3 v) / (norm3 v * norm3 v)) by (field; auto).
  f_equal. generalize ((1 - 2 * sin (norm3 v / 2) * cos (norm3 v / 2) / norm3 v) / (norm3 v * norm3 v)), (crossMx v). clear. vring.
Qed.
Theorem logDiffMat_exact v : eps4 <= norm3 v -> sin (norm3 v / 2) <> 0 -> logDiffMat v = Some (log_differential v).
Proof.
  intros H S. pose proof eps4_pos. assert (N : norm3 v <> 0) by lra. rewrite logDiffMat_big by auto. f_equal. unfold log_differential, logD_n. cbv zeta. rewrite <- V3_eta.
  replace ((1 - norm3 v / 2 * (cos (norm3 v / 2) / sin (norm3 v / 2))) / (norm3 v * norm3 v)) with ((1 - norm3 v / 2 * cos (norm3 v / 2) / sin (norm3 v / 2)) / norm3 v / norm3 v) by (field; auto).
  f_equal. generalize ((1 - norm3 v / 2 * cos (norm3 v / 2) / sin (norm3 v / 2)) / norm3 v / norm3 v), (crossMx v). clear. vring.
Qed.
Lemma norm3_triangle a b : norm3 (add3 a b) <= norm3 a + norm3 b.
Proof.
  apply Rsqr_incr_0_var; [|pose proof (norm3_pos a); pose proof (norm3_pos b); lra]. unfold Rsqr. pose proof (norm3_sq (add3 a b)) as E. pose proof (norm3_sq a) as Ea. pose proof (norm3_sq b) as Eb. rewrite E.
  assert (CS : dot3 a b <= norm3 a * norm3 b).
  { apply Rle_trans with (Rabs (dot3 a b)); [apply RRle_abs|]. apply Rsqr_incr_0_var; [|apply Rmult_le_pos; apply norm3_pos]. rewrite <- Rsqr_abs. unfold Rsqr.
    replace (norm3 a * norm3 b * (norm3 a * norm3 b)) with ((norm3 a * norm3 a) * (norm3 b * norm3 b)) by ring. rewrite Ea, Eb. destruct a as [x y z], b as [x' y' z']. unfold dot3. cbn [vx vy vz].
    pose proof (Rle_0_sqr (x * y' - y * x')) as S1. pose proof (Rle_0_sqr (x * z' - z * x')) as S2. pose proof (Rle_0_sqr (y * z' - z * y')) as S3. unfold Rsqr in *. clear - S1 S2 S3. lra. }
  replace (dot3 (add3 a b) (add3 a b)) with (dot3 a a + 2 * dot3 a b + dot3 b b) by (clear; vring). lra.
Qed.
Lemma norm3_scale_abs s a : norm3 (scale3 s a) = Rabs s * norm3 a.
Proof.
  unfold norm3. replace (dot3 (scale3 s a) (scale3 s a)) with (Rsqr s * dot3 a a) by (unfold Rsqr; vring). rewrite sqrt_mult by (try apply Rle_0_sqr; unfold dot3; nra). rewrite sqrt_Rsqr_abs. auto.
Qed.
Lemma crossMx_norm v d : norm3 (mv3 (crossMx v) d) <= norm3 v * norm3 d.
Proof.
  apply Rsqr_incr_0_var; [|apply Rmult_le_pos; apply norm3_pos]. unfold Rsqr. rewrite norm3_sq. replace (norm3 v * norm3 d * (norm3 v * norm3 d)) with ((norm3 v * norm3 v) * (norm3 d * norm3 d)) by ring. rewrite !norm3_sq.
  assert (E : dot3 (mv3 (crossMx v) d) (mv3 (crossMx v) d) = dot3 v v * dot3 d d - dot3 v d * dot3 v d) by (unfold crossMx; vring). rewrite E. pose proof (Rle_0_sqr (dot3 v d)) as Q. unfold Rsqr in Q. lra.
Qed.
Lemma combination_error X Y v d : norm3 (sub3 (mv3 (madd3 (msub3 I3 (mscale3 (fst X) (crossMx v))) (mscale3 (snd X) (mm3 (crossMx v) (crossMx v)))) d)
   (mv3 (madd3 (msub3 I3 (mscale3 (fst Y) (crossMx v))) (mscale3 (snd Y) (mm3 (crossMx v) (crossMx v)))) d))
   <= (Rabs (fst X - fst Y) * norm3 v + Rabs (snd X - snd Y) * (norm3 v * norm3 v)) * norm3 d.
Proof.
  destruct X as [a b], Y as [a' b']. cbn [fst snd].
  replace (sub3 _ _) with (add3 (scale3 (- (a - a')) (mv3 (crossMx v) d)) (scale3 (b - b') (mv3 (crossMx v) (mv3 (crossMx v) d)))) by (generalize (crossMx v); clear; vring).
  eapply Rle_trans; [apply norm3_triangle|]. rewrite !norm3_scale_abs, Rabs_Ropp. pose proof (crossMx_norm v d) as C1. pose proof (crossMx_norm v (mv3 (crossMx v) d)) as C2. pose proof (norm3_pos v) as NV.
  assert (C3 : norm3 (mv3 (crossMx v) (mv3 (crossMx v) d)) <= norm3 v * (norm3 v * norm3 d)) by (eapply Rle_trans; [exact C2|]; apply Rmult_le_compat_l; auto).
  pose proof (Rabs_pos (a - a')) as A1. pose proof (Rabs_pos (b - b')) as A2.
  pose proof (Rmult_le_compat_l _ _ _ A1 C1). pose proof (Rmult_le_compat_l _ _ _ A2 C3). lra.
Qed.
Lemma sin_seventh x : 0 <= x <= 1 -> x - x ^ 3 / 6 + x ^ 5 / 120 - x ^ 7 / 5040 <= sin x <= x - x ^ 3 / 6 + x ^ 5 / 120.
Proof.
  intros [H1 H2]. assert (PI4 : x <= PI) by (pose proof PI2_1; pose proof PI_RGT_0; lra).
  destruct (sin_bound x 0 H1 PI4) as (_ & U). destruct (sin_bound x 1 H1 PI4) as (L & _). unfold sin_approx, sin_term in U, L. cbn [sum_f_R0 fact Nat.mul Nat.add] in U, L. cbn in U, L. split; [eapply Rle_trans; [|exact L]|eapply Rle_trans; [exact U|]]; cbn; lra.
Qed.
Lemma cos_sixth x : 0 <= x <= 1 -> 1 - x ^ 2 / 2 + x ^ 4 / 24 - x ^ 6 / 720 <= cos x <= 1 - x ^ 2 / 2 + x ^ 4 / 24.
Proof.
  intros [H1 H2]. assert (PI4 : x <= PI / 2) by (pose proof PI2_1; lra). assert (PI5 : - PI / 2 <= x) by (pose proof PI_RGT_0; lra).
  destruct (cos_bound x 0 PI5 PI4) as (_ & U). destruct (cos_bound x 1 PI5 PI4) as (L & _). unfold cos_approx, cos_term in U, L. cbn [sum_f_R0 fact Nat.mul Nat.add] in U, L. cbn in U, L. split; [eapply Rle_trans; [|exact L]|eapply Rle_trans; [exact U|]]; cbn; lra.
Qed.
Lemma div_between a b lo hi : 0 < b -> lo * b <= a <= hi * b -> lo <= a / b <= hi.
Proof. intros P [L U]. split; [apply Rle_div_r; auto|apply Rle_div_l; auto]. Qed.
(** below the threshold 2^-13 the matrices of the code differ from the differentials, as maps, by less than |v|^5/700 and |v|^6/20000: less than 2^-74 *)
Theorem expDiffMat_small v d : 0 < norm3 v < eps4 -> norm3 (sub3 (mv3 (expDiffMat v) d) (mv3 (exp_differential v) d)) <= norm3 v ^ 5 / 700 * norm3 d.
Proof.
  intros H. unfold expDiffMat. destruct (Req_EM_T _ _) as [Z0|NZ0]; [lra|]. rewrite Rabs_pos_eq by apply norm3_pos. rewrite small_true by lra. cbn [negb].
  set (n := norm3 v) in *. assert (B : n < 1) by (unfold eps4 in H; lra).
  replace (mm3 (mscale3 (1 / 6 * (1 - 1 / 20 * (n * n))) (crossMx v)) (crossMx v)) with (mscale3 (1 / 6 * (1 - 1 / 20 * (n * n))) (mm3 (crossMx v) (crossMx v))) by (generalize (1 / 6 * (1 - 1 / 20 * (n * n))), (crossMx v); clear; vring).
  eapply Rle_trans; [apply (combination_error (1 / 2 * (1 - 1 / 12 * (n * n)), 1 / 6 * (1 - 1 / 20 * (n * n))) ((1 - cos n) / (n * n), (n - sin n) / (n * n * n)))|]. cbn [fst snd]. fold n.
  destruct (sin_seventh n ltac:(lra)) as [S1 S2]. destruct (cos_sixth n ltac:(lra)) as [C1 C2].
  assert (A1 : 1 / 2 - n ^ 2 / 24 <= (1 - cos n) / (n * n) <= 1 / 2 - n ^ 2 / 24 + n ^ 4 / 720) by (apply div_between; nra).
  assert (A2 : 1 / 6 - n ^ 2 / 120 <= (n - sin n) / (n * n * n) <= 1 / 6 - n ^ 2 / 120 + n ^ 4 / 5040) by (apply div_between; [repeat apply Rmult_lt_0_compat; lra|split; ring_simplify; ring_simplify in S1; ring_simplify in S2; lra]).
  assert (E1 : Rabs (1 / 2 * (1 - 1 / 12 * (n * n)) - (1 - cos n) / (n * n)) <= n ^ 4 / 720) by (apply Rabs_le; lra).
  assert (E2 : Rabs (1 / 6 * (1 - 1 / 20 * (n * n)) - (n - sin n) / (n * n * n)) <= n ^ 4 / 5040) by (apply Rabs_le; lra).
  apply Rmult_le_compat_r; [apply norm3_pos|]. set (x := Rabs _) in E1 |- *. set (y := Rabs _) in E2 |- *. clearbody x y. clear - E1 E2 H B. unfold eps4 in H.
  assert (P4 : 0 < n ^ 4) by (apply pow_lt; lra). assert (x * n <= n ^ 4 / 720 * n) by (apply Rmult_le_compat_r; lra). assert (y * (n * n) <= n ^ 4 / 5040 * (n * n)) by (apply Rmult_le_compat_r; nra).
  assert (n ^ 4 * n * n <= n ^ 4 * n * (/ 8192)). { apply Rmult_le_compat_l; [|lra]. apply Rmult_le_pos; lra. } cbn [pow] in *. assert (0 < n * (n * (n * (n * 1))) * n) by (apply Rmult_lt_0_compat; lra). lra.
Qed.
Theorem logDiffMat_small v : 0 < norm3 v < eps4 -> exists L, logDiffMat v = Some L /\
  forall d, norm3 (sub3 (mv3 L d) (mv3 (log_differential v) d)) <= norm3 v ^ 6 / 20000 * norm3 d.
Proof.
  intros H. unfold logDiffMat. destruct (Req_EM_T _ _) as [Z0|NZ0]; [lra|]. rewrite Rabs_pos_eq by apply norm3_pos. rewrite small_true by lra. cbn [negb]. eexists. split; [reflexivity|]. intros d. unfold log_differential. cbv zeta.
  set (n := norm3 v) in *. assert (B : n < / 8192) by (unfold eps4 in H; lra).
  set (k := 1 / 12 * (1 + 1 / 60 * n * n)). set (k' := (1 - n / 2 * (cos (n / 2) / sin (n / 2))) / (n * n)).
  assert (K : Rabs (k - k') <= n ^ 4 / 20000).
  { unfold k, k'. clear k k'. set (h := n / 2) in *. replace n with (2 * h) by (unfold h; lra). assert (HB : 0 < h < / 16384) by (unfold h; lra). clearbody h. clear - HB.
    destruct (sin_seventh h ltac:(lra)) as [S1 S2]. destruct (cos_sixth h ltac:(lra)) as [C1 C2]. set (s := sin h) in *. set (c := cos h) in *. clearbody s c.
    assert (S0 : h / 2 <= s). { eapply Rle_trans; [|exact S1]. assert (P3 : h ^ 3 <= h / 10) by (cbn [pow]; nra). assert (P5 : 0 <= h ^ 5) by (apply pow_le; lra). assert (P7 : h ^ 7 <= h ^ 5). { replace (h ^ 7) with (h ^ 5 * (h * h)) by ring. rewrite <- (Rmult_1_r (h ^ 5)) at 2. apply Rmult_le_compat_l; auto. nra. } lra. }
    assert (S0' : 5 / 6 * h <= s). { eapply Rle_trans; [|exact S1]. assert (P3 : h ^ 3 <= h / 10) by (cbn [pow]; nra). assert (P5 : 0 <= h ^ 5) by (apply pow_le; lra). assert (P7 : h ^ 7 <= h ^ 5). { replace (h ^ 7) with (h ^ 5 * (h * h)) by ring. rewrite <- (Rmult_1_r (h ^ 5)) at 2. apply Rmult_le_compat_l; auto. nra. } lra. }
    replace (1 / 12 * (1 + 1 / 60 * (2 * h) * (2 * h)) - (1 - h * (c / s)) / (2 * h * (2 * h))) with (((h ^ 2 / 3 + h ^ 4 / 45) * s - s + h * c) / (4 * h ^ 2 * s)) by (field; split; lra).
    set (w := 1 - h ^ 2 / 3 - h ^ 4 / 45). assert (H2 : 0 <= h * h <= 1) by nra. assert (H4 : h ^ 4 <= 1) by (replace (h ^ 4) with ((h * h) * (h * h)) by ring; nra). assert (W : 0 <= w) by (unfold w; replace (h ^ 2) with (h * h) by ring; lra).
    assert (Q1 : w * s <= w * (h - h ^ 3 / 6 + h ^ 5 / 120)) by (apply Rmult_le_compat_l; auto). assert (Q2 : w * (h - h ^ 3 / 6 + h ^ 5 / 120 - h ^ 7 / 5040) <= w * s) by (apply Rmult_le_compat_l; auto).
    assert (Q3 : h * c <= h * (1 - h ^ 2 / 2 + h ^ 4 / 24)) by (apply Rmult_le_compat_l; lra). assert (Q4 : h * (1 - h ^ 2 / 2 + h ^ 4 / 24 - h ^ 6 / 720) <= h * c) by (apply Rmult_le_compat_l; lra).
    assert (P7 : 0 < h ^ 7) by (apply pow_lt; lra).
    assert (N1 : - (h ^ 7 / 432) <= (h ^ 2 / 3 + h ^ 4 / 45) * s - s + h * c).
    { replace ((h ^ 2 / 3 + h ^ 4 / 45) * s - s + h * c) with (h * c - w * s) by (unfold w; ring). assert (T : w * (h - h ^ 3 / 6 + h ^ 5 / 120) = h - h ^ 3 / 2 + h ^ 5 / 24 + h ^ 7 / 1080 - h ^ 7 * h ^ 2 / 5400) by (unfold w; field). assert (0 <= h ^ 7 * h ^ 2) by (apply Rmult_le_pos; [lra|apply pow2_ge_0]).
      replace (h * (1 - h ^ 2 / 2 + h ^ 4 / 24 - h ^ 6 / 720)) with (h - h ^ 3 / 2 + h ^ 5 / 24 - h ^ 7 / 720) in Q4 by field. lra. }
    assert (N2 : (h ^ 2 / 3 + h ^ 4 / 45) * s - s + h * c <= h ^ 7 / 432).
    { replace ((h ^ 2 / 3 + h ^ 4 / 45) * s - s + h * c) with (h * c - w * s) by (unfold w; ring). assert (T : w * (h - h ^ 3 / 6 + h ^ 5 / 120 - h ^ 7 / 5040) = h - h ^ 3 / 2 + h ^ 5 / 24 + h ^ 7 / 1080 - h ^ 7 / 5040 - h ^ 7 * h ^ 2 / 5400 + h ^ 7 * h ^ 2 / 15120 + h ^ 7 * h ^ 4 / 226800) by (unfold w; field).
      replace (h * (1 - h ^ 2 / 2 + h ^ 4 / 24)) with (h - h ^ 3 / 2 + h ^ 5 / 24) in Q3 by field. assert (0 <= h ^ 7 * h ^ 2) by (apply Rmult_le_pos; [lra|apply pow2_ge_0]). assert (0 <= h ^ 7 * h ^ 4) by (apply Rmult_le_pos; [lra|apply pow_le; lra]).
      assert (h ^ 7 * h ^ 2 <= h ^ 7 * 1) by (apply Rmult_le_compat_l; [lra|cbn [pow]; nra]). lra. }
    assert (D0 : 0 < 4 * h ^ 2 * s) by (apply Rmult_lt_0_compat; [apply Rmult_lt_0_compat; [lra|apply pow_lt; lra]|lra]).
    assert (DB : 4 * h ^ 2 * (5 / 6 * h) <= 4 * h ^ 2 * s) by (apply Rmult_le_compat_l; auto; apply Rmult_le_pos; [lra|apply pow2_ge_0]).
    assert (P4 : 0 < h ^ 4) by (apply pow_lt; lra). pose proof (Rmult_le_compat_l (h ^ 4) _ _ (Rlt_le _ _ P4) DB) as DC. replace (h ^ 4 * (4 * h ^ 2 * (5 / 6 * h))) with (10 / 3 * h ^ 7) in DC by field.
    apply Rabs_le. replace ((2 * h) ^ 4 / 20000) with (h ^ 4 * (/ 1250)) by field.
    apply (div_between _ _ (- (h ^ 4 * / 1250)) (h ^ 4 * / 1250) D0). split; lra. }
  pose proof (combination_error (- (1 / 2), k) (- (1 / 2), k') v d) as C. cbn [fst snd] in C. fold n in C. rewrite Rminus_eq_0, Rabs_R0 in C.
  replace (sub3 _ _) with (sub3 (mv3 (madd3 (msub3 I3 (mscale3 (- (1 / 2)) (crossMx v))) (mscale3 k (mm3 (crossMx v) (crossMx v)))) d) (mv3 (madd3 (msub3 I3 (mscale3 (- (1 / 2)) (crossMx v))) (mscale3 k' (mm3 (crossMx v) (crossMx v)))) d)) by (generalize (crossMx v), k, k'; clear; vring).
  eapply Rle_trans; [exact C|]. apply Rmult_le_compat_r; [apply norm3_pos|]. clear - K H. assert (Rabs (k - k') * (n * n) <= n ^ 4 / 20000 * (n * n)) by (apply Rmult_le_compat_r; nra). replace (n ^ 6 / 20000) with (n ^ 4 / 20000 * (n * n)) by field. lra.
Qed.

(** quatLogJacobian divides by zero at the identity rotation, where quatLogJacobian2 has the value 2 [I 0] *)
Theorem quatLogJacobian_identity_refuted : quatLogJacobian (V4 0 0 0 1) = None /\
  exists J, quatLogJacobian2 (V4 0 0 0 1) = Some J /\ forall d, mv34 J d = scale3 2 (head3 d).
Proof.
  split.
  - unfold quatLogJacobian, qeps. unfold head3. cbn [e0 e1 e2 e3]. change (V3 0 0 0) with zero3. rewrite norm3_0. destruct (Req_EM_T 0 0); [auto|lra].
  - unfold quatLogJacobian2. assert (E : quat2AxisAngle (V4 0 0 0 1) = Some zero3).
    { unfold quat2AxisAngle, qeps. unfold head3. cbn [e0 e1 e2 e3]. change (V3 0 0 0) with zero3. rewrite norm3_0.
      unfold qeta. cbn [e3]. rewrite Rabs_R1. destruct (Rlt_dec 1 0); [lra|]. destruct (Rlt_dec 0 1); [|lra]. f_equal. unfold scale3, zero3. cbn [vx vy vz]. f_equal; ring. }
    rewrite E. unfold logDiffMat. rewrite norm3_0. destruct (Req_EM_T 0 0); [|lra]. eexists. split; [reflexivity|]. intros d. clear. destruct d. munfold. cbv [mv34 u0 u1 u2]. qunfold. f_equal; field.
Qed.

(** ** cases: the hypotheses hold for a half turn about the x axis, moving *)
Example half_turn_curve : eps4 < norm3 (V3 PI 0 0) /\ sin (norm3 (V3 PI 0 0) / 2) <> 0 /\ eps4 <= norm3 (V3 PI 0 0) < 2 * PI /\ PI <= norm3 (V3 PI 0 0) /\
  curve_deriv (fun s => V3 PI s (2 * s)) 0 (V3 0 1 2).
Proof.
  assert (N : norm3 (V3 PI 0 0) = PI). { unfold norm3, dot3. cbn [vx vy vz]. replace (PI * PI + 0 * 0 + 0 * 0) with (PI * PI) by ring. apply sqrt_square. pose proof PI_RGT_0. lra. }
  rewrite N. pose proof PI2_1. pose proof PI_RGT_0. unfold eps4. rewrite sin_PI2. split; [lra|]. split; [lra|]. split; [lra|]. split; [lra|].
  unfold curve_deriv. cbn [vx vy vz]. (split; [|split]); auto_derive; auto; ring.
Qed.
Example small_vector : 0 < norm3 (V3 0 (/ 10000) 0) < eps4.
Proof.
  assert (N : norm3 (V3 0 (/ 10000) 0) = / 10000). { unfold norm3, dot3. cbn [vx vy vz]. replace (0 * 0 + / 10000 * / 10000 + 0 * 0) with (/ 10000 * / 10000) by ring. apply sqrt_square. lra. }
  rewrite N. unfold eps4. lra.
Qed.
(** a curve of unit quaternions through a quarter turn, with the velocity the theorem needs *)
Example unit_curve : let q := fun s => V4 (sin s) 0 0 (cos s) in curve4_deriv q (PI / 4) (V4 (cos (PI / 4)) 0 0 (- sin (PI / 4))) /\
  (exists eps, 0 < eps /\ forall s, Rabs (s - PI / 4) < eps -> unit4 (q s)) /\ eps4 < norm3 (head3 (q (PI / 4))).
Proof.
  cbv zeta. split; [|split].
  - unfold curve4_deriv. cbn [e0 e1 e2 e3]. (split; [|split; [|split]]); auto_derive; auto; ring.
  - exists 1. split; [lra|]. intros s _. unfold unit4, dot4. cbn [e0 e1 e2 e3]. pose proof (sin2_cos2 s) as X. unfold Rsqr in X. lra.
  - unfold head3. cbn [e0 e1 e2]. assert (P : 0 < sin (PI / 4)). { pose proof PI_RGT_0. apply sin_gt_0; lra. }
    unfold norm3, dot3. cbn [vx vy vz]. replace (sin (PI / 4) * sin (PI / 4) + 0 * 0 + 0 * 0) with (sin (PI / 4) * sin (PI / 4)) by ring. rewrite sqrt_square by lra.
    pose proof (sin2_cos2 (PI / 4)) as X. unfold Rsqr in X. rewrite cos_PI4, sin_PI4 in X. rewrite sin_PI4. unfold eps4.
    assert (S2 : 1 < sqrt 2). { rewrite <- sqrt_1. apply sqrt_lt_1; lra. } assert (S3 : sqrt 2 < 2). { rewrite <- (sqrt_square 2) at 2 by lra. apply sqrt_lt_1; lra. }
    apply Rlt_div_r; nra.
Qed.
