(** C98: the covariances of C79 are first-order propagation: J U J^T with J the derivative of the operation. *)
From Coq Require Import Reals Lra Psatz FunctionalExtensionality.
From Coquelicot Require Import Coquelicot.
From Verif Require Import LinAlg DenseN Kin_Rot_Model Kin_Quat_Model Kin_Rot_Props Kin_Quat_Props Kin_Rot_Deriv Kin_Trans_Model Kin_Trans_Props Kin_Hom_Props Kin_Jac_Props Kin_Unc_Model Kin_Unc_Props.
Import ListNotations.
Open Scope R_scope.

(** ** specification *)
(** the rows of D are the derivatives of the rows of the matrix curve T *)
Definition mcurve (T : R -> mat4) (t : R) (D : mat4) : Prop :=
  curve4_deriv (fun s => r40 (T s)) t (r40 D) /\ curve4_deriv (fun s => r41 (T s)) t (r41 D) /\ curve4_deriv (fun s => r42 (T s)) t (r42 D) /\ curve4_deriv (fun s => r43 (T s)) t (r43 D).
(** a curve of rigid transformations moves with velocity e (translation, rotation): the image of every point p moves with boxMinus(p) e.
    This is what the 6x6 covariance of an UncertainTransformation measures. *)
Definition moves (T : R -> mat4) (t : R) (e : vec6) : Prop := forall v, curve4_deriv (fun s => mv4 (T s) v) t (mv46 (boxMinus (mv4 (T t) v)) e).
(** J is the Jacobian of f at p *)
Definition jac44 (f : vec4 -> vec4) (p : vec4) (J : mat4) : Prop := forall c t d, curve4_deriv c t d -> c t = p -> curve4_deriv (fun s => f (c s)) t (mv4 J d).

(** ** calculus of matrix curves *)
Lemma curve4_dot a b t da db : curve4_deriv a t da -> curve4_deriv b t db -> derivable_pt_lim (fun s => dot4 (a s) (b s)) t (dot4 da (b t) + dot4 (a t) db).
Proof.
  revert a da. apply (curve4_cases (fun a da => curve4_deriv b t db -> derivable_pt_lim (fun s => dot4 (a s) (b s)) t (dot4 da (b t) + dot4 (a t) db))). intros x y z w dx dy dz dw X Y Z W.
  revert b db. apply (curve4_cases (fun b db => derivable_pt_lim (fun s => dot4 (V4 (x s) (y s) (z s) (w s)) (b s)) t (dot4 (V4 dx dy dz dw) (b t) + dot4 (V4 (x t) (y t) (z t) (w t)) db))). intros a b c d da db dc dd A B C D.
  apply is_derive_Reals. unfold dot4. cbn [e0 e1 e2 e3]. use_derives. auto_derive; [dside2|dfinish; ring].
Qed.
Lemma curve4_const k t : curve4_deriv (fun _ => k) t zero4.
Proof. destruct k as [a b c d]. unfold curve4_deriv, zero4. cbn [e0 e1 e2 e3]. repeat split; apply derivable_pt_lim_const. Qed.
Lemma mcurve_mv T t D c d : mcurve T t D -> curve4_deriv c t d -> curve4_deriv (fun s => mv4 (T s) (c s)) t (add4 (mv4 D (c t)) (mv4 (T t) d)).
Proof.
  intros (H0 & H1 & H2 & H3) HC. unfold curve4_deriv, mv4, add4. cbn [e0 e1 e2 e3].
  (split; [|split; [|split]]); (apply (curve4_dot _ _ _ _ _ H0 HC) || apply (curve4_dot _ _ _ _ _ H1 HC) || apply (curve4_dot _ _ _ _ _ H2 HC) || apply (curve4_dot _ _ _ _ _ H3 HC)).
Qed.
Lemma mcurve_mv_const T t D v : mcurve T t D -> curve4_deriv (fun s => mv4 (T s) v) t (mv4 D v).
Proof. intros H. pose proof (mcurve_mv T t D (fun _ => v) zero4 H (curve4_const v t)) as K. cbv beta in K. replace (add4 (mv4 D v) (mv4 (T t) zero4)) with (mv4 D v) in K by (generalize (T t); vring). exact K. Qed.
Ltac fin E X := eapply E; [| |exact X]; [intros s; unfold dot4; cbn [e0 e1 e2 e3]; ring|unfold dot4; cbn [e0 e1 e2 e3]; ring].
Lemma mcurve_of_mv T t D : (forall v, curve4_deriv (fun s => mv4 (T s) v) t (mv4 D v)) -> mcurve T t D.
Proof.
  intros H. pose proof (H (V4 1 0 0 0)) as (A0 & A1 & A2 & A3). pose proof (H (V4 0 1 0 0)) as (B0 & B1 & B2 & B3). pose proof (H (V4 0 0 1 0)) as (C0 & C1 & C2 & C3). pose proof (H (V4 0 0 0 1)) as (D0 & D1 & D2 & D3). clear H.
  assert (E : forall (f g : R -> R) l l', (forall s, f s = g s) -> l = l' -> derivable_pt_lim f t l -> derivable_pt_lim g t l') by (intros f g l l' F <- HD; replace g with f; auto; apply functional_extensionality; auto).
  unfold mcurve, curve4_deriv. unfold mv4 in *. cbn [e0 e1 e2 e3] in *.
  repeat split; first [fin E A0|fin E A1|fin E A2|fin E A3|fin E B0|fin E B1|fin E B2|fin E B3|fin E C0|fin E C1|fin E C2|fin E C3|fin E D0|fin E D1|fin E D2|fin E D3].
Qed.
Lemma mcurve_product A B t DA DB : mcurve A t DA -> mcurve B t DB -> mcurve (fun s => mm4 (A s) (B s)) t (madd4 (mm4 DA (B t)) (mm4 (A t) DB)).
Proof.
  intros HA HB. apply mcurve_of_mv. intros v. pose proof (mcurve_mv A t DA _ _ HA (mcurve_mv_const B t DB v HB)) as K. cbv beta in K.
  replace (mv4 (madd4 (mm4 DA (B t)) (mm4 (A t) DB)) v) with (add4 (mv4 DA (mv4 (B t) v)) (mv4 (A t) (mv4 DB v))) by (rewrite <- !mv4_mm; vring).
  eapply curve4_ext; [|exact K]. intros s. cbv beta. rewrite mv4_mm. auto.
Qed.
Lemma curve4_unique c t d d' : curve4_deriv c t d -> curve4_deriv c t d' -> d = d'.
Proof. intros (A & B & C & D) (A' & B' & C' & D'). apply V4_eq; eapply uniqueness_limite; eauto. Qed.
Lemma moves_mcurve T t e : moves T t e <-> mcurve T t (mopp4 (mm4 (boxPlus e) (T t))).
Proof.
  assert (E : forall v, mv46 (boxMinus (mv4 (T t) v)) e = mv4 (mopp4 (mm4 (boxPlus e) (T t))) v). { intros v. rewrite boxMinus_boxPlus. generalize (boxPlus e) (T t). vring. }
  split; intros H. apply mcurve_of_mv. intros v. rewrite <- E. apply H. intros v. rewrite E. apply mcurve_mv_const. auto.
Qed.
Lemma boxPlus_add a b : boxPlus (add6 a b) = madd4 (boxPlus a) (boxPlus b).
Proof. destruct a as [[a0 a1 a2] [a3 a4 a5]], b as [[c0 c1 c2] [c3 c4 c5]]. unfold boxPlus, add6. cbn [hi6 lo6]. vunfold. veq; ring. Qed.
Lemma boxTimes_commute T e : is_rigid T -> mm4 T (boxPlus e) = mm4 (boxPlus (mv6 (boxTimes T) e)) T.
Proof. intros H. rewrite <- boxTimes_adjoint, mm4_assoc by auto. destruct (inverseTransform_rigid T H) as (I1 & _ & _). rewrite I1, mm4_I_r. auto. Qed.
(** velocities of a composition and of an inverse *)
Theorem compose_moves A B t a b : is_rigid (A t) -> moves A t a -> moves B t b -> moves (fun s => mm4 (A s) (B s)) t (add6 a (mv6 (boxTimes (A t)) b)).
Proof.
  intros R HA HB. apply moves_mcurve in HA, HB. apply moves_mcurve. pose proof (mcurve_product _ _ _ _ _ HA HB) as K. match type of K with mcurve _ _ ?x => match goal with |- mcurve _ _ ?y => replace y with x; [exact K|] end end.
  rewrite boxPlus_add. assert (M1 : forall X Y, mm4 (mopp4 X) Y = mopp4 (mm4 X Y)) by vring. assert (M2 : forall X Y, mm4 X (mopp4 Y) = mopp4 (mm4 X Y)) by vring. rewrite M1, M2, mm4_add_l, <- !mm4_assoc, (boxTimes_commute (A t)) by auto.
  generalize (mm4 (mm4 (boxPlus a) (A t)) (B t)) (mm4 (mm4 (boxPlus (mv6 (boxTimes (A t)) b)) (A t)) (B t)). vring.
Qed.
Lemma inverse_mcurve T t D : mcurve T t D -> exists D', mcurve (fun s => inverseTransform (T s)) t D'.
Proof.
  intros (H0 & H1 & H2 & _).
  exists (let d := D in let m := T t in
    let row i := V4 (at4 (r40 d) i) (at4 (r41 d) i) (at4 (r42 d) i) (- (at4 (r40 d) i * e3 (r40 m) + at4 (r41 d) i * e3 (r41 m) + at4 (r42 d) i * e3 (r42 m) + (at4 (r40 m) i * e3 (r40 d) + at4 (r41 m) i * e3 (r41 d) + at4 (r42 m) i * e3 (r42 d)))) in
    M4 (row 0%nat) (row 1%nat) (row 2%nat) zero4).
  cbv zeta. unfold mcurve. cbn [r40 r41 r42 r43].
  assert (G : forall (P : vec4 -> vec4 -> vec4 -> vec4) Q, (forall f g h df dg dh, curve4_deriv f t df -> curve4_deriv g t dg -> curve4_deriv h t dh -> curve4_deriv (fun s => P (f s) (g s) (h s)) t (Q df dg dh (f t) (g t) (h t))) ->
     curve4_deriv (fun s => P (r40 (T s)) (r41 (T s)) (r42 (T s))) t (Q (r40 D) (r41 D) (r42 D) (r40 (T t)) (r41 (T t)) (r42 (T t)))). { intros P Q H. exact (H _ _ _ _ _ _ H0 H1 H2). }
  assert (E : forall i, (i < 3)%nat -> curve4_deriv (fun s => V4 (at4 (r40 (T s)) i) (at4 (r41 (T s)) i) (at4 (r42 (T s)) i) (- (at4 (r40 (T s)) i * e3 (r40 (T s)) + at4 (r41 (T s)) i * e3 (r41 (T s)) + at4 (r42 (T s)) i * e3 (r42 (T s))))) t
     (V4 (at4 (r40 D) i) (at4 (r41 D) i) (at4 (r42 D) i) (- (at4 (r40 D) i * e3 (r40 (T t)) + at4 (r41 D) i * e3 (r41 (T t)) + at4 (r42 D) i * e3 (r42 (T t)) + (at4 (r40 (T t)) i * e3 (r40 D) + at4 (r41 (T t)) i * e3 (r41 D) + at4 (r42 (T t)) i * e3 (r42 D)))))).
  { intros i I. apply (G (fun f g h => V4 (at4 f i) (at4 g i) (at4 h i) (- (at4 f i * e3 f + at4 g i * e3 g + at4 h i * e3 h))) (fun df dg dh f g h => V4 (at4 df i) (at4 dg i) (at4 dh i) (- (at4 df i * e3 f + at4 dg i * e3 g + at4 dh i * e3 h + (at4 f i * e3 df + at4 g i * e3 dg + at4 h i * e3 dh))))).
    clear. intros f g h df dg dh F G H. apply curve4_iff in F, G, H. destruct F as (F0 & F1 & F2 & F3), G as (G0 & G1 & G2 & G3), H as (H0 & H1 & H2 & H3).
    assert (K : forall (u v : R -> R) du dv, is_derive u t du -> is_derive v t dv -> is_derive (fun s => u s * v s) t (du * v t + u t * dv)). { intros u v du dv U V. use_derives. auto_derive; [dside2|dfinish; ring]. }
    assert (K2 : forall (a b c : R -> R) da db dc, is_derive a t da -> is_derive b t db -> is_derive c t dc -> is_derive (fun s => - (a s + b s + c s)) t (- (da + db + dc))). { intros a b c da db dc A B C. use_derives. auto_derive; [dside2|dfinish; ring]. }
    assert (AT : forall (w : R -> vec4) dw, is_derive (fun s => e0 (w s)) t (e0 dw) -> is_derive (fun s => e1 (w s)) t (e1 dw) -> is_derive (fun s => e2 (w s)) t (e2 dw) -> is_derive (fun s => e3 (w s)) t (e3 dw) -> is_derive (fun s => at4 (w s) i) t (at4 dw i)) by (intros; destruct i as [|[|[|]]]; assumption).
    pose proof (AT f df F0 F1 F2 F3) as AF. pose proof (AT g dg G0 G1 G2 G3) as AG. pose proof (AT h dh H0 H1 H2 H3) as AH.
    apply curve4_iff. cbn [e0 e1 e2 e3]. split; [exact AF|split; [exact AG|split; [exact AH|]]].
    pose proof (K2 _ _ _ _ _ _ (K _ _ _ _ AF F3) (K _ _ _ _ AG G3) (K _ _ _ _ AH H3)) as Z. cbv beta in Z. match type of Z with is_derive _ _ ?x => match goal with |- is_derive _ _ ?y => replace y with x; [exact Z|ring] end end. }
  (split; [|split; [|split]]).
  - eapply curve4_ext; [|exact (E 0%nat ltac:(repeat constructor))]. intros s. cbv beta. unfold inverseTransform, rt. cbn [r40]. generalize (T s). intros M. vring.
  - eapply curve4_ext; [|exact (E 1%nat ltac:(repeat constructor))]. intros s. cbv beta. unfold inverseTransform, rt. cbn [r41]. generalize (T s). intros M. vring.
  - eapply curve4_ext; [|exact (E 2%nat ltac:(repeat constructor))]. intros s. cbv beta. unfold inverseTransform, rt. cbn [r42]. generalize (T s). intros M. vring.
  - exact (curve4_const (V4 0 0 0 1) t).
Qed.
Definition opp6 (a : vec6) : vec6 := V6 (opp3 (hi6 a)) (opp3 (lo6 a)).
Theorem inverse_moves T t e : (forall s, is_rigid (T s)) -> moves T t e -> moves (fun s => inverseTransform (T s)) t (opp6 (mv6 (boxTimes (inverseTransform (T t))) e)).
Proof.
  intros R H. apply moves_mcurve in H. destruct (inverse_mcurve _ _ _ H) as (D' & HD). pose proof (mcurve_product _ _ _ _ _ HD H) as K. cbv beta in K.
  assert (C : mcurve (fun s => mm4 (inverseTransform (T s)) (T s)) t Z4). { apply mcurve_of_mv. intros v. eapply curve4_ext. intros s. destruct (inverseTransform_rigid (T s) (R s)) as (I1 & _ & _). symmetry. rewrite I1. apply mv4_I. replace (mv4 Z4 v) with zero4 by vring. apply curve4_const. }
  assert (S : madd4 (mm4 D' (T t)) (mm4 (inverseTransform (T t)) (mopp4 (mm4 (boxPlus e) (T t)))) = Z4). { apply mat4_ext. intros v. apply (curve4_unique (fun s => mv4 (mm4 (inverseTransform (T s)) (T s)) v) t); apply mcurve_mv_const; auto. }
  destruct (inverseTransform_rigid (T t) (R t)) as (I1 & I2 & RI). assert (E : D' = mm4 (inverseTransform (T t)) (boxPlus e)).
  { set (N := inverseTransform (T t)) in *. assert (X : mm4 D' (T t) = mm4 (mm4 N (boxPlus e)) (T t)). { replace (mm4 N (mopp4 (mm4 (boxPlus e) (T t)))) with (mopp4 (mm4 (mm4 N (boxPlus e)) (T t))) in S by (rewrite mm4_assoc; generalize (mm4 (boxPlus e) (T t)); vring). generalize dependent (mm4 (mm4 N (boxPlus e)) (T t)). generalize (mm4 D' (T t)). clear. intros A B H. apply mat4_ext. intros v. apply (f_equal (fun M => mv4 M v)) in H. replace (mv4 (madd4 A (mopp4 B)) v) with (sub4 (mv4 A v) (mv4 B v)) in H by vring. replace (mv4 Z4 v) with zero4 in H by vring. generalize dependent (mv4 A v). generalize (mv4 B v). intros [a b c d] [a' b' c' d'] H. unfold sub4, zero4 in H. cbn [e0 e1 e2 e3] in H. injection H. intros. f_equal; lra. }
    rewrite <- (mm4_I_r D'), <- I2, <- mm4_assoc, X, mm4_assoc, I2, mm4_I_r. auto. }
  apply moves_mcurve. rewrite boxTimes_commute in E by auto. replace (mopp4 (mm4 (boxPlus (opp6 (mv6 (boxTimes (inverseTransform (T t))) e))) (inverseTransform (T t)))) with D'; [exact HD|]. rewrite E.
  generalize (mv6 (boxTimes (inverseTransform (T t))) e) (inverseTransform (T t)). clear. intros [[a b c] [d g f]] M. unfold boxPlus, opp6. cbn [hi6 lo6]. vring.
Qed.

(** ** C98: transformations *)
(** composition: with independent velocities a and b the product moves with J1 a + J2 b, and its covariance is J1 U1 J1^T + J2 U2 J2^T *)
Theorem ut_mul_first_order x y : uvalid x -> exists J1 J2,
  (forall A B t a b, A t = tf_T (ut_T x) -> B t = tf_T (ut_T y) -> moves A t a -> moves B t b -> moves (fun s => mm4 (A s) (B s)) t (add6 (mv6 J1 a) (mv6 J2 b))) /\
  ut_U (ut_mul x y) = madd6 (mm6 (mm6 J1 (ut_U x)) (tr6 J1)) (mm6 (mm6 J2 (ut_U y)) (tr6 J2)).
Proof.
  intros V. exists I6, (boxTimes (tf_T (ut_T x))). split.
  - intros A B t a b EA EB HA HB. replace (mv6 I6 a) with a. rewrite <- EA. apply compose_moves; auto. rewrite EA. apply tf_T_rigid. auto.
    destruct a as [a a']. unfold mv6, I6. cbn [b11 b12 b21 b22 hi6 lo6]. f_equal; vring.
  - rewrite sandwich6_I. auto.
Qed.
Theorem ut_inverse_first_order x : uvalid x -> exists J,
  (forall A t a, A t = tf_T (ut_T x) -> (forall s, is_rigid (A s)) -> moves A t a -> moves (fun s => inverseTransform (A s)) t (mv6 J a)) /\
  ut_U (ut_inverse x) = mm6 (mm6 J (ut_U x)) (tr6 J).
Proof.
  intros V. unfold uvalid in V. assert (NG : forall M, exists N, forall v, mv6 N v = opp6 (mv6 M v) /\ forall W, mm6 (mm6 N W) (tr6 N) = mm6 (mm6 M W) (tr6 M)).
  { intros [m1 m2 m3 m4]. exists (M6 (mopp3 m1) (mopp3 m2) (mopp3 m3) (mopp3 m4)). intros [v1 v2]. split. unfold mv6, opp6. cbn [b11 b12 b21 b22 hi6 lo6]. f_equal; vring.
    intros [w1 w2 w3 w4]. unfold mm6, tr6. cbn [b11 b12 b21 b22]. assert (N1 : forall P Q, mm3 (mopp3 P) Q = mopp3 (mm3 P Q)) by vring. assert (N2 : forall P Q, mm3 P (mopp3 Q) = mopp3 (mm3 P Q)) by vring. assert (N3 : forall P, tr3 (mopp3 P) = mopp3 (tr3 P)) by vring. assert (N4 : forall P Q, madd3 (mopp3 P) (mopp3 Q) = mopp3 (madd3 P Q)) by vring. assert (N5 : forall P, mopp3 (mopp3 P) = P) by vring.
    rewrite !N3, !N1, !N4, !N1, !N2, !N5. auto. }
  destruct (NG (boxTimes (tf_T (tf_inverse (ut_T x))))) as (N & HN). exists N. split.
  - intros A t a EA RA HA. rewrite (proj1 (HN a)), tf_inverse_T, <- EA by auto. apply inverse_moves; auto.
  - rewrite (proj2 (HN (V6 zero3 zero3))). auto.
Qed.
(** action on a point: the image moves with J1 a + J2 d for a velocity a of the transformation and d of the point *)
Theorem ut_act_first_order x p : uvalid x -> exists J1 J2,
  (forall A c t a d, A t = tf_T (ut_T x) -> c t = uh_p p -> moves A t a -> curve4_deriv c t d -> curve4_deriv (fun s => mv4 (A s) (c s)) t (add4 (mv46 J1 a) (mv4 J2 d))) /\
  uh_p (ut_act_uh x p) = mv4 (tf_T (ut_T x)) (uh_p p) /\ uh_U (ut_act_uh x p) = madd4 (mm46t (mm46_6 J1 (ut_U x)) J1) (mm4 (mm4 J2 (uh_U p)) (tr4 J2)).
Proof.
  intros V. exists (boxMinus (mv4 (tf_T (ut_T x)) (uh_p p))), (tf_T (ut_T x)). split; [|unfold ut_act_uh; cbn [uh_p uh_U]; rewrite act4_T by exact V; auto].
  intros A c t a d EA EC HA HC. pose proof (proj1 (moves_mcurve _ _ _) HA) as MA. pose proof (mcurve_mv _ _ _ _ _ MA HC) as K. rewrite <- EA, <- EC. match type of K with curve4_deriv _ _ ?u => match goal with |- curve4_deriv _ _ ?w => replace w with u; [exact K|] end end.
  f_equal. rewrite boxMinus_boxPlus. generalize (boxPlus a) (A t) (c t). vring.
Qed.
(** setUOplus: an update d by oplus moves the transformation with J d, and the covariance set is J U J^T *)
Theorem ut_setUOplus_first_order x U : uvalid x -> exists J,
  (forall c t d, curve6_deriv c t d -> c t = V6 zero3 zero3 -> moves (fun s => tf_T (tf_oplus (ut_T x) (c s))) t (mv6 J d)) /\ ut_U (ut_setUOplus x U) = mm6 (mm6 J U) (tr6 J).
Proof.
  intros V. exists (tf_S (ut_T x)). split; auto. intros c t d D Z v. pose proof (transformation_jacobian (ut_T x) v c t d V D Z) as [_ H]. cbn [transformationAndJacobian snd] in H. replace (tf_T (tf_oplus (ut_T x) (c t))) with (tf_T (ut_T x)); [exact H|].
  rewrite Z. unfold tf_oplus. cbn [hi6 lo6]. rewrite updateQuat_zero. destruct (ut_T x) as [q u]. cbn [tq tt]. f_equal. f_equal. vring.
Qed.

(** ** points *)
Theorem uh_add_first_order x y : exists J1 J2, jac44 (fun p => hp_add p (uh_p y)) (uh_p x) J1 /\ jac44 (fun q => hp_add (uh_p x) q) (uh_p y) J2 /\
  uh_U (uh_add x y) = madd4 (mm4 (mm4 J1 (uh_U x)) (tr4 J1)) (mm4 (mm4 J2 (uh_U y)) (tr4 J2)).
Proof.
  assert (L : forall M p f, (forall q, f q = mv4 M q) -> jac44 f p M). { intros M p f E c t d D _. eapply curve4_ext. intros s. symmetry. apply E. pose proof (mcurve_mv (fun _ => M) t Z4 c d) as K. cbv beta in K. replace (add4 (mv4 Z4 (c t)) (mv4 M d)) with (mv4 M d) in K by vring. apply K; auto. apply mcurve_of_mv. intros v. replace (mv4 Z4 v) with zero4 by vring. apply curve4_const. }
  exists (toHomogeneousPlus (uh_p y)), (toHomogeneousPlus (uh_p x)). split; [|split].
  - apply L. intros q. rewrite toHomogeneousPlus_adds. apply hp_add_comm.
  - apply L. intros q. rewrite toHomogeneousPlus_adds. auto.
  - auto.
Qed.
Lemma jac44_linear M p f : (forall q, f q = mv4 M q) -> jac44 f p M.
Proof. intros E c t d D _. eapply curve4_ext. intros s. symmetry. apply E. pose proof (mcurve_mv (fun _ => M) t Z4 c d) as K. cbv beta in K. replace (add4 (mv4 Z4 (c t)) (mv4 M d)) with (mv4 M d) in K by vring. apply K; auto. apply mcurve_of_mv. intros v. replace (mv4 Z4 v) with zero4 by vring. apply curve4_const. Qed.
Lemma jac44_unique f p J K : jac44 f p J -> jac44 f p K -> J = K.
Proof.
  intros HJ HK. apply mat4_ext. intros v. assert (D : curve4_deriv (fun s => add4 p (scale4 s v)) 0 v). { apply curve4_iff. unfold add4, scale4. cbn [e0 e1 e2 e3]. (split; [|split; [|split]]); (auto_derive; [auto|ring]). }
  assert (Z : add4 p (scale4 0 v) = p) by vring. eapply curve4_unique; [apply (HJ _ _ _ D Z)|apply (HK _ _ _ D Z)].
Qed.
(** the Jacobians of the difference *)
Definition minus_left (q : vec4) : mat4 := M4 (V4 (e3 q) 0 0 (- e0 q)) (V4 0 (e3 q) 0 (- e1 q)) (V4 0 0 (e3 q) (- e2 q)) (V4 0 0 0 (e3 q)).
Definition minus_right (p : vec4) : mat4 := M4 (V4 (- e3 p) 0 0 (e0 p)) (V4 0 (- e3 p) 0 (e1 p)) (V4 0 0 (- e3 p) (e2 p)) (V4 0 0 0 (e3 p)).
Lemma minus_jacobians p q : jac44 (fun r => hp_sub r q) p (minus_left q) /\ jac44 (fun r => hp_sub p r) q (minus_right p).
Proof. split; apply jac44_linear; intros r; unfold hp_sub, minus_left, minus_right; vring. Qed.
Theorem uh_sub_first_order_partial x y : certain_scale x -> certain_scale y -> exists J1 J2, jac44 (fun p => hp_sub p (uh_p y)) (uh_p x) J1 /\ jac44 (fun q => hp_sub (uh_p x) q) (uh_p y) J2 /\
  uh_U (uh_sub x y) = madd4 (mm4 (mm4 J1 (uh_U x)) (tr4 J1)) (mm4 (mm4 J2 (uh_U y)) (tr4 J2)).
Proof.
  intros (U & E) (W & F). exists (minus_left (uh_p y)), (minus_right (uh_p x)). destruct (minus_jacobians (uh_p x) (uh_p y)) as [A B]. split; [auto|split; [auto|]]. unfold uh_sub, uh_plus_cov. cbn [uh_U]. rewrite E, F. clear. destruct x as [p P], y as [q Q]. cbn [uh_p]. unfold minus_left, minus_right, toHomogeneousPlus, embed3. clear P Q. vring.
Qed.
Theorem uh_sub_first_order_refuted : exists x y, cov4 (uh_U x) /\ cov4 (uh_U y) /\ e3 (uh_p x) = 1 /\ e3 (uh_p y) = 1 /\ forall J1 J2, jac44 (fun p => hp_sub p (uh_p y)) (uh_p x) J1 -> jac44 (fun q => hp_sub (uh_p x) q) (uh_p y) J2 ->
  uh_U (uh_sub x y) <> madd4 (mm4 (mm4 J1 (uh_U x)) (tr4 J1)) (mm4 (mm4 J2 (uh_U y)) (tr4 J2)).
Proof.
  exists (UH (V4 0 0 0 1) scale_only), (UH (V4 1 0 0 1) Z4). split; [apply cov_scale_only|]. split; [apply cov4_zero|]. split; [auto|]. split; [auto|]. cbn [uh_p uh_U]. intros J1 J2 H1 H2. destruct (minus_jacobians (V4 0 0 0 1) (V4 1 0 0 1)) as [A B].
  rewrite (jac44_unique _ _ _ _ H1 A), (jac44_unique _ _ _ _ H2 B). intros E. apply (f_equal (fun M => e3 (r40 M))) in E. revert E. unfold uh_sub, uh_plus_cov, minus_left, minus_right, toHomogeneousPlus, scale_only. cbn [uh_p uh_U]. vunfold. lra.
Qed.
Theorem uh_normalize_first_order x y : uh_normalize x = Some y -> exists J, uh_U y = mm4 (mm4 J (uh_U x)) (tr4 J) /\
  forall c t d, curve4_deriv c t d -> c t = uh_p x -> curve4_deriv (fun s => scale4 (1 / norm4 (c s)) (c s)) t (mv4 J d).
Proof.
  unfold uh_normalize. destruct (normalizeAndJacobian4 (uh_p x)) as [[p J]|] eqn:E; intros H; inversion H. exists J. split; auto. intros c t d D Z. rewrite <- Z in E. apply (normalizeAndJacobian4_jacobian c t d p J D E).
Qed.
Theorem uh_U3_first_order x U : uh_U3 x = Some U -> exists J, U = mm34t (mm34_4 J (uh_U x)) J /\ forall c t d, curve4_deriv c t d -> c t = uh_p x -> deriv_along hp_toEuclidean c t (mv34 J d).
Proof.
  unfold uh_U3. destruct (fromHomogeneousJacobian (uh_p x)) as [J|] eqn:E; intros H; inversion H. exists J. split; auto. intros c t d D Z. rewrite <- Z in E. pose proof (fromHomogeneous_jacobian c t d J D E) as (g & (eps & P & G) & K). exists g. split; auto. exists eps. split; auto. intros s S. rewrite <- fromHomogeneous_toEuclidean. auto.
Qed.
Theorem uh_setUOplus_first_order x U y : uh_setUOplus x U = Some y -> exists J, uh_U y = mm43t (mm43_3 J U) J /\ forall c t d, curve_deriv c t d -> c t = zero3 -> curve4_deriv (fun s => hp_oplus (uh_p x) (c s)) t (mv43 J d).
Proof.
  unfold uh_setUOplus. destruct (near_unit (uh_p x)); intros H; inversion H. exists (quatInvS (uh_p x)). split; auto. intros c t d D Z. replace (quatInvS (uh_p x)) with (hp_toHomogeneousJ (uh_p x)). apply hp_toHomogeneous_jacobian; auto.
  destruct (uh_p x) as [a b e w]. unfold hp_toHomogeneousJ, quatInvS, scale4. cbn [e0 e1 e2 e3]. f_equal; f_equal; field.
Qed.
