(** C83: the S matrices map parameter rates to the angular velocity, and the Jacobians are the derivatives. *)
From Coquelicot Require Import Coquelicot.
From Verif Require Import Kin_Rot_Model Kin_Quat_Model Kin_Quat_Props Kin_Rot_Props.
From Coq Require Import Reals Lra Psatz.
Open Scope R_scope.

(** ** specification: derivative of a curve in the standard library's sense, by components *)
Definition curve_deriv (p : R -> vec3) (t : R) (d : vec3) : Prop :=
  derivable_pt_lim (fun s => vx (p s)) t (vx d) /\ derivable_pt_lim (fun s => vy (p s)) t (vy d) /\ derivable_pt_lim (fun s => vz (p s)) t (vz d).
(** omega is the angular velocity of the moving frame C(t), in the library's convention: d/dt (C v) = - omega x (C v) for every fixed v *)
Definition angular_velocity (C : R -> mat3) (t : R) (omega : vec3) : Prop :=
  forall v, curve_deriv (fun s => mv3 (C s) v) t (opp3 (cross omega (mv3 (C t) v))).
(** J = (J1, J2) is the derivative of f at (p, q): along every differentiable curve *)
Definition is_jacobian (f : vec3 -> vec3 -> vec3) (p q : vec3) (J : mat3 * mat3) : Prop :=
  forall c d t dc dd, c t = p -> d t = q -> curve_deriv c t dc -> curve_deriv d t dd ->
    curve_deriv (fun s => f (c s) (d s)) t (add3 (mv3 (fst J) dc) (mv3 (snd J) dd)).

Lemma curve_deriv_iff p t d : curve_deriv p t d <-> is_derive (fun s => vx (p s)) t (vx d) /\ is_derive (fun s => vy (p s)) t (vy d) /\ is_derive (fun s => vz (p s)) t (vz d).
Proof. unfold curve_deriv. rewrite <- !is_derive_Reals. tauto. Qed.
Lemma curve_deriv_ext p p' t d : (forall s, p s = p' s) -> curve_deriv p t d -> curve_deriv p' t d.
Proof. intros E. rewrite !curve_deriv_iff. intros (A & B & C). (split; [|split]); (eapply is_derive_ext; [|eassumption]); intros u; cbv beta; f_equal; apply E. Qed.
Lemma V3_eta v : v = V3 (vx v) (vy v) (vz v). Proof. destruct v; auto. Qed.
(** it suffices to consider curves given by their components *)
Lemma omega_by_components C S p t d : curve_deriv p t d ->
  (forall x y z : R -> R, is_derive x t (vx d) -> is_derive y t (vy d) -> is_derive z t (vz d) -> V3 (x t) (y t) (z t) = p t -> angular_velocity (fun s => C (V3 (x s) (y s) (z s))) t (S (V3 (x t) (y t) (z t)) d)) ->
  angular_velocity (fun s => C (p s)) t (S (p t) d).
Proof.
  intros H K v. pose proof (proj1 (curve_deriv_iff p t d) H) as (X & Y & Z).
  pose proof (K _ _ _ X Y Z (eq_sym (V3_eta _)) v) as Q. cbv beta in Q. rewrite <- V3_eta in Q. eapply curve_deriv_ext; [|exact Q]. intros s. cbv beta. rewrite <- V3_eta. auto.
Qed.
Lemma jacobian_by_components f p q J :
  (forall (x y z a b c : R -> R) t dx dy dz da db dc, is_derive x t dx -> is_derive y t dy -> is_derive z t dz -> is_derive a t da -> is_derive b t db -> is_derive c t dc ->
     V3 (x t) (y t) (z t) = p -> V3 (a t) (b t) (c t) = q ->
     curve_deriv (fun s => f (V3 (x s) (y s) (z s)) (V3 (a s) (b s) (c s))) t (add3 (mv3 (fst J) (V3 dx dy dz)) (mv3 (snd J) (V3 da db dc)))) ->
  is_jacobian f p q J.
Proof.
  intros K c d t dc dd <- <- Hc Hd. apply curve_deriv_iff in Hc, Hd. destruct Hc as (X & Y & Z), Hd as (A & B & C).
  pose proof (K _ _ _ _ _ _ t _ _ _ _ _ _ X Y Z A B C (eq_sym (V3_eta _)) (eq_sym (V3_eta _))) as Q. cbv beta in Q. rewrite <- !V3_eta in Q. eapply curve_deriv_ext; [|exact Q].
  intros s. cbv beta. rewrite <- !V3_eta. auto.
Qed.
Ltac dunfold := cbv [zyx_C ypr_C zxy_C zyx_entries zyx_omega ypr_omega zxy_omega er_omega rv_omega zyx_S ypr_S zxy_S zyx_buildS ypr_buildS zyx_J ypr_J zxy_J er_J er_S er_C crossMx fst snd]; vunfold.
Ltac use_derives := repeat match goal with H : is_derive ?f ?t _ |- _ => pose proof (is_derive_unique _ _ _ H); pose proof (ex_intro _ _ H : ex_derive f t); clear H end.
Ltac dfinish := repeat match goal with E : Derive ?f ?t = ?d |- _ => change (Derive (fun u => f u) t) with (Derive f t); rewrite ?E; clear E end.
Lemma cc a : cos a * cos a = 1 - sin a * sin a. Proof. pose proof (sc1 a). lra. Qed.
Ltac dside := repeat match goal with |- _ /\ _ => split | |- True => exact I | |- ex_derive _ _ => assumption end.

Theorem zyx_angular_velocity p t d : curve_deriv p t d -> angular_velocity (fun s => zyx_C (p s)) t (zyx_omega (p t) d).
Proof.
  intros H. apply omega_by_components; auto. clear H. intros x y z X Y Z _ v. apply curve_deriv_iff. destruct v as [a b c]. destruct d as [dx dy dz]. dunfold. use_derives.
  (split; [|split]); (auto_derive; [dside|dfinish]); pose proof (cc (- x t)) as E1; pose proof (cc (- y t)) as E2; ring [E1 E2].
Qed.
Theorem ypr_angular_velocity p t d : curve_deriv p t d -> angular_velocity (fun s => ypr_C (p s)) t (ypr_omega (p t) d).
Proof.
  intros H. apply omega_by_components; auto. clear H. intros x y z X Y Z _ v. apply curve_deriv_iff. destruct v as [a b c]. destruct d as [dx dy dz]. dunfold. use_derives.
  (split; [|split]); (auto_derive; [dside|dfinish]); pose proof (cc (x t)) as E1; pose proof (cc (y t)) as E2; ring [E1 E2].
Qed.
Theorem zxy_angular_velocity p t d : curve_deriv p t d -> angular_velocity (fun s => zxy_C (p s)) t (zxy_omega (p t) d).
Proof.
  intros H. apply omega_by_components; auto. clear H. intros x y z X Y Z _ v. apply curve_deriv_iff. destruct v as [a b c]. destruct d as [dx dy dz]. dunfold. use_derives.
  (split; [|split]); (auto_derive; [dside|dfinish]); pose proof (cc (x t)) as E1; pose proof (cc (y t)) as E2; ring [E1 E2].
Qed.
Theorem zyx_jacobian p q : is_jacobian zyx_omega p q (zyx_J p q).
Proof.
  apply jacobian_by_components. intros x y z a b c t dx dy dz da db dc X Y Z A B C <- <-. apply curve_deriv_iff. dunfold. use_derives. (split; [|split]); (auto_derive; [dside|dfinish; ring]).
Qed.
Theorem ypr_jacobian p q : is_jacobian ypr_omega p q (ypr_J p q).
Proof.
  apply jacobian_by_components. intros x y z a b c t dx dy dz da db dc X Y Z A B C <- <-. apply curve_deriv_iff. dunfold. use_derives. (split; [|split]); (auto_derive; [dside|dfinish; ring]).
Qed.
Theorem zxy_jacobian p q : is_jacobian zxy_omega p q (zxy_J p q).
Proof.
  apply jacobian_by_components. intros x y z a b c t dx dy dz da db dc X Y Z A B C <- <-. apply curve_deriv_iff. dunfold. use_derives. (split; [|split]); (auto_derive; [dside|dfinish; ring]).
Qed.
Theorem er_angular_velocity p t d : curve_deriv p t d -> angular_velocity (fun s => er_C (p s)) t (er_omega (p t) d).
Proof.
  intros H. apply omega_by_components; auto. clear H. intros x y z X Y Z _ v. apply curve_deriv_iff. destruct v as [a b c]. destruct d as [dx dy dz].
  assert (N : 1 + (x t * x t + y t * y t + z t * z t) <> 0) by nra. dunfold. use_derives.
  (split; [|split]); (auto_derive; [dside; auto|dfinish; field; auto]).
Qed.
Theorem er_jacobian p q : is_jacobian er_omega p q (er_J p q).
Proof.
  apply jacobian_by_components. intros x y z a b c t dx dy dz da db dc X Y Z A B C <- <-. apply curve_deriv_iff. assert (N : 1 + (x t * x t + y t * y t + z t * z t) <> 0) by nra. dunfold. use_derives.
  (split; [|split]); (auto_derive; [dside; auto|dfinish; field; auto]).
Qed.
Theorem er_S_consistent p d : er_omega p d = mv3 (er_S p) d.
Proof. assert (N : 1 + dot3 p p <> 0) by (unfold dot3; nra). unfold er_omega, er_S. cbv zeta. f_equal. f_equal. field. auto. Qed.

