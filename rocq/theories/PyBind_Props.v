(** Property C108: the operators seen from Python are those of C++. *)
From Coq Require Import Reals Lra List Bool.
From Verif Require Import Kin_Rot_Model Kin_Quat_Model Kin_Quat_Props Kin_Trans_Model Kin_Trans_Props Kin_Unc_Model Kin_Unc_Props PyBind_Model.
Import ListNotations.
Open Scope R_scope.

(** * Specification: in C++ the overload is chosen by the declared class of the operand, which is that of the object *)
Definition cpp_mul (l r : obj) : option obj :=
  match l, r with
  | OT x, OT y => Some (OT (tf_mul x y)) | OT x, OUT y => Some (OUT (tf_mul_ut x y)) | OT x, OHP p => Some (OHP (tf_act4 x p))
  | OT x, OUHP p => Some (OUHP (tf_act_uh x p)) | OT x, OV3 v => Some (OV3 (tf_act3 x v)) | OT x, OV4 v => Some (OV4 (tf_act4 x v))
  | OUT x, OT y => Some (OUT (ut_mul_tf x y)) | OUT x, OUT y => Some (OUT (ut_mul x y)) | OUT x, OHP p => Some (OUHP (ut_act_hp x p))
  | OUT x, OUHP p => Some (OUHP (ut_act_uh x p)) | OUT x, OV3 v => Some (OV3 (tf_act3 (ut_T x) v)) | OUT x, OV4 v => Some (OV4 (tf_act4 (ut_T x) v))
  | _, _ => None
  end.
Definition cpp_add (l r : obj) : option obj :=
  match l, r with
  | OHP p, OHP q => Some (OHP (hp_add p q)) | OHP p, OUHP q => Some (OUHP (hp_add_uh p q)) | OUHP p, OHP q => Some (OUHP (uh_add_hp p q)) | OUHP p, OUHP q => Some (OUHP (uh_add p q))
  | _, _ => None
  end.
Definition cpp_sub (l r : obj) : option obj :=
  match l, r with
  | OHP p, OHP q => Some (OHP (hp_sub p q)) | OHP p, OUHP q => Some (OUHP (hp_sub_uh p q)) | OUHP p, OHP q => Some (OUHP (uh_sub_hp p q)) | OUHP p, OUHP q => Some (OUHP (uh_sub p q))
  | _, _ => None
  end.
Definition cpp_inverse (l : obj) : option obj := match l with OT x => Some (OT (tf_inverse x)) | OUT x => Some (OUT (ut_inverse x)) | _ => None end.
(** the value without its uncertainty *)
Definition mean (o : obj) : obj := part o.

(** * Which overload Boost.Python takes *)
Lemma first_match_in l o x : first_match l o = Some x -> x = o \/ x = part o.
Proof.
  induction l as [|c l IH]; cbn; [discriminate|]. unfold convert. destruct (cls_eqb c (cls_of o)). { intros [= <-]. auto. }
  destruct (is_a _ _); auto. intros [= <-]. auto.
Qed.
Lemma first_match_app l1 l2 o : first_match (l1 ++ l2) o = match first_match l1 o with Some x => Some x | None => first_match l2 o end.
Proof. induction l1 as [|c l1 IH]; cbn; auto. destruct (convert c o); auto. Qed.
Lemma cls_eqb_eq a b : cls_eqb a b = true <-> a = b.
Proof. destruct a, b; cbn; split; intros; try discriminate; reflexivity. Qed.
(** An overload declared for a derived class is used for objects of that class exactly if no overload for the base is registered after it. *)
Theorem overload_used_iff L c b o : base c = Some b -> cls_of o = c -> part o <> o -> In c L ->
  (choose L o = Some o <-> exists L1 L2, L = L1 ++ c :: L2 /\ ~ In b L2).
Proof.
  intros Bs Co Po IC. unfold choose. split.
  - intros H.
    assert (G : forall M, first_match M o = Some o -> exists M1 M2, M = M1 ++ c :: M2 /\ ~ In b M1).
    { induction M as [|d M IH]; cbn; [discriminate|]. unfold convert. destruct (cls_eqb d (cls_of o)) eqn:E.
      - intros _. apply cls_eqb_eq in E. subst d. rewrite Co. exists [], M. auto.
      - destruct (is_a (cls_of o) d) eqn:I.
        + intros [= X]. contradiction.
        + intros X. destruct (IH X) as (M1 & M2 & -> & N). exists (d :: M1), M2. split; auto. cbn. intros [->|Y]; [|tauto].
          unfold is_a in I. rewrite Co, Bs in I. replace (cls_eqb b b) with true in I by (symmetry; now apply cls_eqb_eq). rewrite orb_true_r in I. discriminate. }
    destruct (G _ H) as (M1 & M2 & E & N). exists (rev M2), (rev M1). split; [|now rewrite <- in_rev].
    rewrite <- (rev_involutive L), E, rev_app_distr. cbn. now rewrite <- app_assoc.
  - intros (L1 & L2 & -> & N). rewrite rev_app_distr. cbn. rewrite <- app_assoc, first_match_app.
    assert (G : forall M, ~ In b M -> first_match M o = None \/ first_match M o = Some o).
    { induction M as [|d M IH]; cbn; auto. intros H. unfold convert. destruct (cls_eqb d (cls_of o)) eqn:E; auto.
      destruct (is_a (cls_of o) d) eqn:I; [|apply IH; tauto]. exfalso. unfold is_a in I. rewrite Co, Bs in I. apply orb_prop in I as [I|I]; apply cls_eqb_eq in I.
      - subst d. rewrite (proj2 (cls_eqb_eq c (cls_of o)) (eq_sym Co)) in E. discriminate.
      - subst d. tauto. }
    destruct (G (rev L2)) as [-> | ->]; [rewrite <- in_rev; auto| |reflexivity].
    cbn. unfold convert. now rewrite (proj2 (cls_eqb_eq c (cls_of o)) (eq_sym Co)).
Qed.

(** * Points: every sum and difference is the one of C++ *)
Theorem points_python_is_cpp l r : py_add l r = cpp_add l r /\ py_sub l r = cpp_sub l r.
Proof. destruct l, r; split; reflexivity. Qed.

(** * Products: as in C++ when no class involved on the right has a derived class *)
Theorem products_python_is_cpp_partial l r : match l, r with OT _, (OT _ | OHP _ | OV3 _) => True | OUT _, (OT _ | OHP _) => True | _, _ => False end ->
  exists x, py_mul l r = Some x /\ cpp_mul l r = Some x.
Proof. destruct l, r; intros []; (eexists; split; reflexivity). Qed.
(** whatever Python answers has the mean C++ gives *)
Theorem products_python_mean l r x : py_mul l r = Some x -> exists y, cpp_mul l r = Some y /\ mean x = mean y.
Proof. destruct l, r; cbn; intros [= <-]; (eexists; split; [reflexivity|]; reflexivity). Qed.
Theorem inverse_python_mean l x : py_inverse l = Some x -> exists y, cpp_inverse l = Some y /\ mean x = mean y.
Proof. destruct l; cbn; intros [= <-]; (eexists; split; [reflexivity|]; reflexivity). Qed.
(** but the uncertainty on the right is dropped, and the class of the result may change *)
Theorem products_python_drop t u p v :
  py_mul (OT t) (OUT u) = Some (OT (tf_mul t (ut_T u))) /\
  py_mul (OT t) (OUHP p) = Some (OHP (tf_act4 t (uh_p p))) /\
  py_mul (OUT v) (OUT u) = Some (OUT (ut_mul_tf v (ut_T u))) /\
  py_mul (OUT v) (OUHP p) = Some (OUHP (ut_act_hp v (uh_p p))) /\
  py_inverse (OUT u) = Some (OT (tf_inverse (ut_T u))).
Proof. repeat split. Qed.
(** the products differ from C++ for all operands with a transformation on the left of an uncertain object, and the inverse always *)
Theorem products_python_refuted t u p :
  py_mul (OT t) (OUT u) <> cpp_mul (OT t) (OUT u) /\ py_mul (OT t) (OUHP p) <> cpp_mul (OT t) (OUHP p) /\ py_inverse (OUT u) <> cpp_inverse (OUT u).
Proof. repeat split; discriminate. Qed.
(** the product of two uncertain transformations is right exactly if the second one is certain *)
Lemma boxTimes_sandwich_zero x U : valid x -> mm6 (mm6 (boxTimes (tf_T x)) U) (tr6 (boxTimes (tf_T x))) = Z6 -> U = Z6.
Proof.
  intros V H. destruct (boxTimes_inv x V) as [_ I]. set (B := boxTimes (tf_T x)) in *. set (C := boxTimes (tf_T (tf_inverse x))) in *.
  assert (E : mm6 (mm6 C (mm6 (mm6 B U) (tr6 B))) (tr6 C) = Z6) by (rewrite H; apply sandwich6_zero).
  rewrite sandwich6_assoc, I, sandwich6_I in E. exact E.
Qed.
Lemma sandwich4_assoc A B U : mm4 (mm4 A (mm4 (mm4 B U) (tr4 B))) (tr4 A) = mm4 (mm4 (mm4 A B) U) (tr4 (mm4 A B)).
Proof. rewrite tr4_mm, !mm4_assoc. auto. Qed.
Lemma tf_sandwich_zero x U : valid x -> mm4 (mm4 (tf_T x) U) (tr4 (tf_T x)) = Z4 -> U = Z4.
Proof.
  intros V H. destruct (inverseTransform_rigid (tf_T x) (tf_T_rigid x V)) as (I & _ & _). set (B := tf_T x) in *. set (C := inverseTransform B) in *.
  assert (E : mm4 (mm4 C (mm4 (mm4 B U) (tr4 B))) (tr4 C) = Z4) by (rewrite H; apply sandwich4_zero).
  rewrite sandwich4_assoc in E. first [rewrite I in E]. rewrite <- E. clear. destruct U. vring.
Qed.
Lemma madd6_zero_r A B : madd6 A B = A -> B = Z6.
Proof.
  destruct A as [a b c d], B as [e f g h]. unfold madd6, Z6. cbn [b11 b12 b21 b22]. intros H.
  assert (Q : forall x y, madd3 x y = x -> y = Z3).
  { intros x y E. replace y with (madd3 (madd3 x y) (mopp3 x)) by (clear; vring). rewrite E. clear. vring. }
  pose proof (f_equal b11 H) as H1. pose proof (f_equal b12 H) as H2. pose proof (f_equal b21 H) as H3. pose proof (f_equal b22 H) as H4. cbn [b11 b12 b21 b22] in *.
  rewrite (Q _ _ H1), (Q _ _ H2), (Q _ _ H3), (Q _ _ H4). reflexivity.
Qed.
Lemma madd4_zero_r A B : madd4 A B = A -> B = Z4.
Proof.
  intros E. replace B with (madd4 (madd4 A B) (M4 (opp4 (r40 A)) (opp4 (r41 A)) (opp4 (r42 A)) (opp4 (r43 A)))) by (clear; vring). rewrite E. clear. vring.
Qed.
Theorem uncertain_products_python_iff v u p : uvalid v ->
  (py_mul (OUT v) (OUT u) = cpp_mul (OUT v) (OUT u) <-> ut_U u = Z6) /\
  (py_mul (OUT v) (OUHP p) = cpp_mul (OUT v) (OUHP p) <-> uh_U p = Z4).
Proof.
  intros V. cbn [py_mul cls_of choose mul_UT rev app first_match convert cls_eqb is_a base orb part bind cpp_mul cpp_mul_fn].
  split; split; intros H.
  - assert (E : ut_U (ut_mul_tf v (ut_T u)) = ut_U (ut_mul v u)) by congruence. cbn [ut_mul_tf ut_mul ut_U] in E. symmetry in E.
    apply madd6_zero_r in E. now apply boxTimes_sandwich_zero in E.
  - do 2 f_equal. unfold ut_mul_tf, ut_mul. f_equal. now rewrite H, sandwich6_zero, madd6_Z_r.
  - assert (E : uh_U (ut_act_hp v (uh_p p)) = uh_U (ut_act_uh v p)) by congruence. cbn [ut_act_hp ut_act_uh uh_U] in E. symmetry in E.
    apply madd4_zero_r in E. now apply tf_sandwich_zero in E.
  - do 2 f_equal. unfold ut_act_hp, ut_act_uh. f_equal. now rewrite H, sandwich4_zero, madd4_Z_r.
Qed.
(** products not available: numpy vectors on the right of an uncertain transformation, and of length 4 in general, although C++ has them *)
Theorem products_python_missing_refuted t u v w :
  py_mul (OUT u) (OV3 v) = None /\ py_mul (OUT u) (OV4 w) = None /\ py_mul (OT t) (OV4 w) = None /\
  cpp_mul (OUT u) (OV3 v) <> None /\ cpp_mul (OUT u) (OV4 w) <> None /\ cpp_mul (OT t) (OV4 w) <> None.
Proof. repeat split; discriminate. Qed.

(** * Constructors and copies *)
Theorem construct_python t u p q v w :
  py_UT (OT t) = Some (OUT (ut_certain t)) /\ py_UHP (OHP q) = Some (OUHP (uh_certain q)) /\ py_UHP (OV3 v) = Some (OUHP (uh_of_euclidean v)) /\ py_UHP (OV4 w) = Some (OUHP (uh_certain w)) /\
  py_UT (OUT u) = Some (OUT (ut_certain (ut_T u))) /\ py_UHP (OUHP p) = Some (OUHP (uh_certain (uh_p p))).
Proof. repeat split. Qed.
(** so constructing from an object of the same class is a copy only of certain objects *)
Theorem construct_copy_refuted : exists u p, py_UT (OUT u) <> Some (OUT u) /\ py_UHP (OUHP p) <> Some (OUHP p).
Proof.
  exists (UT tf_identity I6), (UH hp_zero I4). split; intros E.
  - change (Some (OUT (ut_certain tf_identity)) = Some (OUT (UT tf_identity I6))) in E.
    assert (H : ut_certain tf_identity = UT tf_identity I6) by congruence. apply (f_equal (fun u => vx (r30 (b11 (ut_U u))))) in H. cbn in H. lra.
  - change (Some (OUHP (uh_certain hp_zero)) = Some (OUHP (UH hp_zero I4))) in E.
    assert (H : uh_certain hp_zero = UH hp_zero I4) by congruence. apply (f_equal (fun u => e0 (r40 (uh_U u)))) in H. cbn in H. lra.
Qed.
(** pickling and copy.copy: exact for Transformation, without the covariance for UncertainTransformation *)
Theorem pickle_python t u : py_copy (OT t) = Some (OT t) /\ py_copy (OUT u) = Some (OUT (ut_certain (ut_T u))) /\ (py_copy (OUT u) = Some (OUT u) <-> ut_U u = Z6).
Proof.
  repeat split; cbn; unfold ut_certain.
  - intros E. assert (H : ut_U (UT (ut_T u) Z6) = ut_U u) by congruence. cbn in H. congruence.
  - intros <-. now destruct u.
Qed.
Theorem pickle_refuted : exists u, uvalid u /\ py_copy (OUT u) <> Some (OUT u) /\ py_mul (OUT u) (OUT u) <> cpp_mul (OUT u) (OUT u).
Proof.
  exists (UT tf_identity I6). assert (V : uvalid (UT tf_identity I6)) by (unfold uvalid; cbn; apply (proj1 tf_valid)).
  assert (N : I6 <> Z6). { intros E. apply (f_equal (fun u => vx (r30 (b11 u)))) in E. cbn in E. lra. }
  split; [exact V|]. split.
  - intros E. apply (proj2 (proj2 (pickle_python tf_identity (UT tf_identity I6)))) in E. contradiction.
  - intros E. apply (proj1 (uncertain_products_python_iff _ _ uh_zero V)) in E. contradiction.
Qed.
Example overload_example : choose add_HP (OUHP (UH hp_zero I4)) = Some (OUHP (UH hp_zero I4)) /\ choose mul_T (OUHP (UH hp_zero I4)) = Some (OHP hp_zero).
Proof. split; reflexivity. Qed.
