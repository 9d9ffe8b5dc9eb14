(** Alignment of two point clouds (C90).  Vocabulary: the error of a transformation is the (weighted) sum of squared distances between the points of
    the first cloud and the transformed points of the second. *)
From Coq Require Import List Reals Lra Lia Psatz Bool.
From Verif Require Import LinAlg Kin_Rot_Model Kin_Quat_Model Kin_Quat_Props ThreePoint_Model.
Import ListNotations.
Open Scope R_scope.

(** ** specification words *)
Definition sumR {A} (f : A -> R) (l : list A) : R := fold_right (fun x s => f x + s) 0 l.
Definition dist2 (a b : vec3) : R := dot3 (sub3 a b) (sub3 a b).
(** T applied to a point *)
Definition act (T : mat4) (p : vec3) : vec3 := head3 (mv4 T (cons4 p 1)).
(** sum of |p0_i - T p1_i|^2 *)
Definition align_error (T : mat4) (p0 p1 : list vec3) : R := sumR (fun ab => dist2 (fst ab) (act T (snd ab))) (combine p0 p1).
Definition is_centroid (c : vec3) (p : list vec3) : Prop := p <> [] /\ scale3 (INR (length p)) c = fold_right add3 zero3 p.
(** sum of (p0_i - c0) (p1_i - c1)^T *)
Definition cross_covariance (c0 c1 : vec3) (p0 p1 : list vec3) : mat3 :=
  fold_right (fun ab M => madd3 (outer3 (sub3 (fst ab) c0) (sub3 (snd ab) c1)) M) Z3 (combine p0 p1).
(** (U,V) are the orthogonal factors of a singular value decomposition of H, singular values in descending order *)
Definition is_svd (H : mat3) (UV : mat3 * mat3) : Prop :=
  orthonormal (fst UV) /\ orthonormal (snd UV) /\ exists s1 s2 s3, s1 >= s2 /\ s2 >= s3 /\ s3 >= 0 /\ H = mm3 (fst UV) (mm3 (m3 s1 0 0 0 s2 0 0 0 s3) (tr3 (snd UV))).

(** ** auxiliary facts *)
Definition frob (A B : mat3) : R := dot3 (r30 A) (r30 B) + dot3 (r31 A) (r31 B) + dot3 (r32 A) (r32 B).
Lemma fold_left_add p : forall z, fold_left add3 p z = add3 z (fold_right add3 zero3 p).
Proof. induction p as [|a p IH]; intros z; cbn [fold_left fold_right]; [vring|]. rewrite IH. generalize (fold_right add3 zero3 p). vring. Qed.
Lemma mean_centroid p : p <> [] -> is_centroid (mean p) p.
Proof.
  intros H. split; auto. unfold mean. rewrite fold_left_add. generalize (fold_right add3 zero3 p) as s. intros s.
  assert (N : INR (length p) <> 0) by (apply not_0_INR; destruct p; [congruence|discriminate]).
  destruct s as [x y z]. vunfold. f_equal; field; auto.
Qed.
Lemma centroid_unique c d p : is_centroid c p -> is_centroid d p -> c = d.
Proof.
  intros [H E] [_ F]. rewrite <- F in E.
  assert (N : INR (length p) <> 0) by (apply not_0_INR; destruct p; [congruence|discriminate]).
  destruct c as [x y z], d as [x' y' z']. unfold scale3 in E. cbn [vx vy vz] in E. injection E as E1 E2 E3. f_equal; eapply Rmult_eq_reg_l; eauto.
Qed.
Lemma covLoop_spec c0 c1 l : forall Z, fold_left (fun H ab => madd3 H (outer3 (sub3 (fst ab) c0) (sub3 (snd ab) c1))) l Z
   = madd3 Z (fold_right (fun ab M => madd3 (outer3 (sub3 (fst ab) c0) (sub3 (snd ab) c1)) M) Z3 l).
Proof.
  induction l as [|a l IH]; intros Z; cbn [fold_left fold_right]; [rewrite madd3_Z_r; auto|]. rewrite IH, madd3_assoc. auto.
Qed.
Lemma covLoop_eq c0 c1 p0 p1 : covLoop c0 c1 (combine p0 p1) = cross_covariance c0 c1 p0 p1.
Proof. unfold covLoop, cross_covariance. rewrite covLoop_spec, madd3_Z_l. auto. Qed.

Definition centred (c : vec3) (p : list vec3) : vec3 := fold_right (fun a s => add3 (sub3 a c) s) zero3 p.
Lemma centred_sum c p : centred c p = sub3 (fold_right add3 zero3 p) (scale3 (INR (length p)) c).
Proof.
  induction p as [|a p IH]. { unfold centred. cbn [fold_right length INR]. vring. }
  unfold centred. cbn [fold_right]. fold (centred c p). rewrite IH. replace (INR (length (a :: p))) with (INR (length p) + 1) by (cbn [length]; rewrite S_INR; auto).
  generalize (fold_right add3 zero3 p), (INR (length p)). vring.
Qed.
Lemma centred_zero c p : is_centroid c p -> centred c p = zero3.
Proof. intros [_ H]. rewrite centred_sum, H. generalize (fold_right add3 zero3 p). vring. Qed.

Lemma orth_dot C v : orthonormal C -> dot3 (mv3 C v) (mv3 C v) = dot3 v v.
Proof. intros [_ O]. rewrite dot3_tr, <- mv3_mm, O, mv3_I. auto. Qed.
Lemma error_step C t c0 c1 a b : orthonormal C -> let d := sub3 (sub3 c0 (mv3 C c1)) t in
  dist2 a (add3 (mv3 C b) t) = dot3 (sub3 a c0) (sub3 a c0) + dot3 (sub3 b c1) (sub3 b c1) - 2 * frob C (outer3 (sub3 a c0) (sub3 b c1)) + dot3 d d
    + 2 * dot3 d (sub3 (sub3 a c0) (mv3 C (sub3 b c1))).
Proof.
  intros O d. unfold d. rewrite <- (orth_dot C (sub3 b c1) O). unfold dist2, frob. clear. destruct C as [[x0 x1 x2] [x3 x4 x5] [x6 x7 x8]], t, c0, c1, a, b. vunfold. ring.
Qed.
Lemma error_sum C t c0 c1 : orthonormal C -> forall p0 p1, length p0 = length p1 -> let d := sub3 (sub3 c0 (mv3 C c1)) t in
  sumR (fun ab => dist2 (fst ab) (add3 (mv3 C (snd ab)) t)) (combine p0 p1)
  = sumR (fun a => dot3 (sub3 a c0) (sub3 a c0)) p0 + sumR (fun b => dot3 (sub3 b c1) (sub3 b c1)) p1 - 2 * frob C (cross_covariance c0 c1 p0 p1)
    + INR (length p0) * dot3 d d + 2 * dot3 d (sub3 (centred c0 p0) (mv3 C (centred c1 p1))).
Proof.
  intros O. induction p0 as [|a p0 IH]; destruct p1 as [|b p1]; try discriminate; intros L d.
  { unfold d. unfold sumR, centred, cross_covariance, frob. cbn [combine fold_right length INR]. clear. vring. }
  specialize (IH p1 ltac:(injection L; auto)). cbv zeta in IH. fold d in IH.
  assert (N : INR (length (a :: p0)) = INR (length p0) + 1) by (cbn [length]; rewrite S_INR; auto). rewrite N. clear N.
  unfold sumR at 1 2 3. cbn [combine fold_right fst snd]. fold (sumR (fun ab : vec3 * vec3 => dist2 (fst ab) (add3 (mv3 C (snd ab)) t)) (combine p0 p1)).
  rewrite IH, (error_step C t c0 c1 a b O). fold d.
  unfold cross_covariance. cbn [combine fold_right fst snd]. fold (cross_covariance c0 c1 p0 p1).
  unfold centred. cbn [fold_right]. fold (centred c0 p0) (centred c1 p1). fold (sumR (fun a => dot3 (sub3 a c0) (sub3 a c0)) p0). fold (sumR (fun b => dot3 (sub3 b c1) (sub3 b c1)) p1).
  generalize (cross_covariance c0 c1 p0 p1), (centred c0 p0), (centred c1 p1), (sumR (fun a => dot3 (sub3 a c0) (sub3 a c0)) p0), (sumR (fun b => dot3 (sub3 b c1) (sub3 b c1)) p1), (INR (length p0)).
  generalize (dot3 (sub3 a c0) (sub3 a c0)), (dot3 (sub3 b c1) (sub3 b c1)), (sub3 a c0), (sub3 b c1), d. clear. unfold frob. vring.
Qed.
Lemma act_rt C t p : act (rt C t) p = add3 (mv3 C p) t.
Proof. unfold act. vring. Qed.
(** the error of a rigid transformation *)
Lemma error_rigid C t c0 c1 p0 p1 : orthonormal C -> length p0 = length p1 -> is_centroid c0 p0 -> is_centroid c1 p1 -> let d := sub3 (sub3 c0 (mv3 C c1)) t in
  align_error (rt C t) p0 p1 = sumR (fun a => dot3 (sub3 a c0) (sub3 a c0)) p0 + sumR (fun b => dot3 (sub3 b c1) (sub3 b c1)) p1
    - 2 * frob C (cross_covariance c0 c1 p0 p1) + INR (length p0) * dot3 d d.
Proof.
  intros O L Z0 Z1 d. unfold align_error. transitivity (sumR (fun ab => dist2 (fst ab) (add3 (mv3 C (snd ab)) t)) (combine p0 p1)).
  - generalize (combine p0 p1) as l. clear -C. induction l as [|x l IH]; unfold sumR; cbn [fold_right]; auto; fold (sumR (fun ab : vec3 * vec3 => dist2 (fst ab) (act (rt C t) (snd ab))) l); fold (sumR (fun ab => dist2 (fst ab) (add3 (mv3 C (snd ab)) t)) l); rewrite IH, act_rt; auto.
  - rewrite (error_sum C t c0 c1 O p0 p1 L). fold d. rewrite (centred_zero c0 p0 Z0), (centred_zero c1 p1 Z1).
    replace (dot3 d (sub3 zero3 (mv3 C zero3))) with 0; [ring|]. clearbody d. clear. destruct C as [[x0 x1 x2] [x3 x4 x5] [x6 x7 x8]], d. vunfold. ring.
Qed.

(** ** the largest value of the trace *)
Lemma orth_mm A B : orthonormal A -> orthonormal B -> orthonormal (mm3 A B).
Proof.
  intros [A1 A2] [B1 B2]. split.
  - rewrite tr3_mm, mm3_assoc, <- (mm3_assoc B), B1, mm3_I_l. auto.
  - rewrite tr3_mm, mm3_assoc, <- (mm3_assoc (tr3 A)), A2, mm3_I_l. auto.
Qed.
Lemma orth_tr A : orthonormal A -> orthonormal (tr3 A).
Proof. intros [A1 A2]. split; rewrite tr3_tr; auto. Qed.
Lemma orth_det A : orthonormal A -> det3 A = 1 \/ det3 A = -1.
Proof. intros [A1 _]. assert (det3 A * det3 A = 1) by (rewrite <- (det3_tr A) at 2; rewrite <- det3_mm, A1; apply det3_I). assert ((det3 A - 1) * (det3 A + 1) = 0) by lra. apply Rmult_integral in H0. lra. Qed.
Lemma orth_diag Q : orthonormal Q -> vx (r30 Q) <= 1 /\ vy (r31 Q) <= 1 /\ vz (r32 Q) <= 1.
Proof.
  intros [H _]. destruct Q as [[a b c] [d e f] [g h i]]. vunfold. injection H as H0 _ _ _ H1 _ _ _ H2. clear - H0 H1 H2. split; [|split]; nra.
Qed.
Lemma trace_rotation Q : is_rotation Q -> -1 <= trace3 Q.
Proof.
  intros H. destruct (r2quat_correct Q H) as (U & E & _). rewrite <- E. generalize dependent (r2quat Q). intros q U _. destruct q as [a b c d]. qunfold. clear - U. nra.
Qed.
Lemma trace_reflection Q : orthonormal Q -> det3 Q = -1 -> trace3 Q <= 1.
Proof.
  intros O D. assert (is_rotation (mopp3 Q)).
  { split. - destruct O as [O1 O2]. split; [rewrite <- O1|rewrite <- O2]; clear; vring. - transitivity (- det3 Q); [clear; vring|lra]. }
  apply trace_rotation in H. replace (trace3 (mopp3 Q)) with (- trace3 Q) in H by (clear; vring). lra.
Qed.
Lemma frob_svd C U V s1 s2 s3 : let Q := mm3 (tr3 U) (mm3 C V) in
  frob C (mm3 U (mm3 (m3 s1 0 0 0 s2 0 0 0 s3) (tr3 V))) = s1 * vx (r30 Q) + s2 * vy (r31 Q) + s3 * vz (r32 Q).
Proof. intros Q. unfold Q, frob. clear. destruct C as [[c0 c1 c2] [c3 c4 c5] [c6 c7 c8]], U as [[x0 x1 x2] [x3 x4 x5] [x6 x7 x8]], V as [[y0 y1 y2] [y3 y4 y5] [y6 y7 y8]]. vunfold. ring. Qed.

(** the rotation chosen from U and V (R^T in the code) *)
Definition chosen (U V : mat3) : mat3 := tr3 (if Rlt_dec (det3 (mm3 V (tr3 U))) 0 then mm3 (negCol2 V) (tr3 U) else mm3 V (tr3 U)).
Lemma negCol2_mm V : negCol2 V = mm3 V (m3 1 0 0 0 1 0 0 0 (-1)). Proof. unfold negCol2. vring. Qed.
Lemma orth_flip : orthonormal (m3 1 0 0 0 1 0 0 0 (-1)). Proof. split; vring. Qed.
Lemma chosen_rotation U V : orthonormal U -> orthonormal V -> is_rotation (chosen U V).
Proof.
  intros OU OV. unfold chosen. apply orth_rotation_tr. destruct (Rlt_dec _ _) as [L|L].
  - split. { rewrite negCol2_mm. apply orth_mm; [apply orth_mm; auto using orth_flip|apply orth_tr; auto]. }
    rewrite negCol2_mm, !det3_mm. rewrite det3_mm in L. replace (det3 (m3 1 0 0 0 1 0 0 0 (-1))) with (-1) by vring. rewrite det3_tr in *.
    destruct (orth_det U OU) as [E|E], (orth_det V OV) as [F|F]; rewrite E, F in *; lra.
  - assert (O : orthonormal (mm3 V (tr3 U))) by (apply orth_mm; auto using orth_tr). split; auto. destruct (orth_det _ O); lra.
Qed.
Lemma chosen_best H U V C : is_svd H (U, V) -> is_rotation C -> frob C H <= frob (chosen U V) H.
Proof.
  intros (OU & OV & s1 & s2 & s3 & S1 & S2 & S3 & ->) [OC DC]. cbn [fst snd] in *. rewrite !frob_svd. cbv zeta.
  set (Q := mm3 (tr3 U) (mm3 C V)).
  assert (OQ : orthonormal Q) by (apply orth_mm; [apply orth_tr|apply orth_mm]; auto).
  destruct (orth_diag Q OQ) as (D1 & D2 & D3).
  assert (DQ : det3 Q = det3 (mm3 V (tr3 U))) by (unfold Q; rewrite !det3_mm, DC; ring).
  unfold chosen. destruct (Rlt_dec _ _) as [L|L].
  - assert (E : mm3 (tr3 U) (mm3 (tr3 (mm3 (negCol2 V) (tr3 U))) V) = m3 1 0 0 0 1 0 0 0 (-1)).
    { rewrite negCol2_mm, !tr3_mm, tr3_tr, !mm3_assoc, (proj2 OV), mm3_I_r, <- mm3_assoc, (proj2 OU), mm3_I_l. vring. }
    rewrite E. assert (T : trace3 Q <= 1). { apply trace_reflection; auto. rewrite DQ in *. destruct (orth_det Q OQ); lra. }
    unfold trace3 in T. cbn [m3 r30 r31 r32 vx vy vz]. nra.
  - assert (E : mm3 (tr3 U) (mm3 (tr3 (mm3 V (tr3 U))) V) = I3).
    { rewrite !tr3_mm, tr3_tr, !mm3_assoc, (proj2 OV), mm3_I_r, (proj2 OU). auto. }
    rewrite E. unfold I3. cbn [m3 r30 r31 r32 vx vy vz]. nra.
Qed.
Lemma threePointSvd_eq svd p0 p1 : length p0 = length p1 -> p0 <> [] ->
  exists c0 c1, is_centroid c0 p0 /\ is_centroid c1 p1 /\ let UV := svd (cross_covariance c0 c1 p0 p1) in
    threePointSvd svd p0 p1 = Some (rt (chosen (fst UV) (snd UV)) (sub3 c0 (mv3 (chosen (fst UV) (snd UV)) c1))).
Proof.
  intros L N. exists (mean p0), (mean p1). split; [|split]; [apply mean_centroid; auto|apply mean_centroid; destruct p1; [destruct p0; [congruence|discriminate]|congruence]|].
  intros UV. unfold threePointSvd. rewrite L, Nat.eqb_refl. cbn [negb]. destruct (Nat.eqb (length p1) 0) eqn:E. { apply Nat.eqb_eq in E. rewrite <- L in E. destruct p0; [congruence|discriminate]. }
  rewrite covLoop_eq. fold UV. unfold chosen. destruct UV as [U V]. cbn [fst snd]. auto.
Qed.

(** ** C90, threePointSvd *)
(** whatever orthogonal matrices the decomposition returns, the result is a rigid transformation that maps centroid to centroid *)
Theorem threePointSvd_rigid svd p0 p1 : length p0 = length p1 -> p0 <> [] -> (forall H, orthonormal (fst (svd H)) /\ orthonormal (snd (svd H))) ->
  exists T, threePointSvd svd p0 p1 = Some T /\ is_rigid T /\ forall c0 c1, is_centroid c0 p0 -> is_centroid c1 p1 -> act T c1 = c0.
Proof.
  intros L N O. destruct (threePointSvd_eq svd p0 p1 L N) as (c0 & c1 & Z0 & Z1 & E). cbv zeta in E. rewrite E. eexists. split; [reflexivity|]. split.
  - eexists _, _. split; [|reflexivity]. apply chosen_rotation; apply O.
  - intros d0 d1 Y0 Y1. rewrite (centroid_unique d0 c0 p0 Y0 Z0), (centroid_unique d1 c1 p1 Y1 Z1), act_rt. generalize (mv3 (chosen (fst (svd (cross_covariance c0 c1 p0 p1))) (snd (svd (cross_covariance c0 c1 p0 p1)))) c1). vring.
Qed.
(** it is defined exactly for two clouds of the same non-zero size *)
Theorem threePointSvd_defined svd p0 p1 : threePointSvd svd p0 p1 <> None <-> length p0 = length p1 /\ p0 <> [].
Proof.
  unfold threePointSvd. destruct (Nat.eqb_spec (length p0) (length p1)) as [L|L]; cbn [negb].
  - destruct (Nat.eqb_spec (length p0) 0) as [Z|Z].
    + split; [congruence|]. intros [_ N]. destruct p0; [congruence|discriminate].
    + destruct (svd _). split; [|congruence]. intros _. split; auto. intros ->. apply Z. auto.
  - split; [congruence|]. intros [? _]. contradiction.
Qed.
(** it is a least-squares alignment: no rigid transformation has a smaller error *)
Theorem threePointSvd_optimal svd p0 p1 T : length p0 = length p1 ->
  (forall c0 c1, is_centroid c0 p0 -> is_centroid c1 p1 -> is_svd (cross_covariance c0 c1 p0 p1) (svd (cross_covariance c0 c1 p0 p1))) ->
  threePointSvd svd p0 p1 = Some T -> is_rigid T /\ forall T', is_rigid T' -> align_error T p0 p1 <= align_error T' p0 p1.
Proof.
  intros L S E. assert (N : p0 <> []) by (destruct (proj1 (threePointSvd_defined svd p0 p1)); [congruence|auto]).
  destruct (threePointSvd_eq svd p0 p1 L N) as (c0 & c1 & Z0 & Z1 & F). cbv zeta in F. rewrite E in F. apply (f_equal (fun o => match o with Some x => x | None => T end)) in F. subst T.
  specialize (S c0 c1 Z0 Z1). destruct (svd (cross_covariance c0 c1 p0 p1)) as [U V]. cbn [fst snd] in *.
  assert (RC : is_rotation (chosen U V)) by (destruct S as (OU & OV & _); apply chosen_rotation; auto).
  split; [eexists _, _; split; [exact RC|reflexivity]|]. intros T' (C & t & RC' & ->).
  rewrite (error_rigid _ _ c0 c1 p0 p1 (proj1 RC) L Z0 Z1), (error_rigid C t c0 c1 p0 p1 (proj1 RC') L Z0 Z1). cbv zeta.
  replace (dot3 _ _) with 0 by (generalize (mv3 (chosen U V) c1); clear; vring).
  pose proof (chosen_best _ U V C S RC'). assert (0 <= INR (length p0) * dot3 (sub3 (sub3 c0 (mv3 C c1)) t) (sub3 (sub3 c0 (mv3 C c1)) t)).
  { apply Rmult_le_pos; [apply pos_INR|]. generalize (sub3 (sub3 c0 (mv3 C c1)) t). clear. intros v. unfold dot3. nra. }
  lra.
Qed.
Lemma dot_pos v : 0 <= dot3 v v. Proof. unfold dot3. nra. Qed.
Lemma dot_zero v : dot3 v v = 0 -> v = zero3.
Proof. destruct v as [x y z]. unfold dot3, zero3. cbn. intros H. assert (x = 0) by nra. assert (y = 0) by nra. assert (z = 0) by nra. subst. auto. Qed.
Lemma sumR_pos {A} (f : A -> R) l : (forall x, 0 <= f x) -> 0 <= sumR f l.
Proof. intros H. induction l as [|x l IH]; cbn; [lra|]. fold (sumR f l). specialize (H x). lra. Qed.
Lemma sumR_zero {A} (f : A -> R) l : (forall x, 0 <= f x) -> sumR f l <= 0 -> forall x, In x l -> f x = 0.
Proof.
  intros H. induction l as [|x l IH]; cbn; [tauto|]. fold (sumR f l). intros S y [<-|I]; pose proof (sumR_pos f l H); pose proof (H x); auto.
  - lra.
  - apply IH; auto. lra.
Qed.
Lemma sumR_all_zero {A} (f : A -> R) l : (forall x, In x l -> f x = 0) -> sumR f l = 0.
Proof. induction l as [|x l IH]; cbn; auto. fold (sumR f l). intros H. rewrite (H x), IH; auto. lra. Qed.
Lemma sub3_zero a b : sub3 a b = zero3 -> a = b.
Proof. destruct a as [x y z], b as [x' y' z']. unfold sub3, zero3. cbn [vx vy vz]. intros H. injection H as H1 H2 H3. f_equal; lra. Qed.
Lemma in_combine_map {A B} (f : A -> B) (l : list A) y : In y (combine (map f l) l) -> fst y = f (snd y) /\ In (snd y) l.
Proof. induction l as [|x l IH]; cbn; [tauto|]. intros [<-|H]; cbn; auto. apply IH in H. tauto. Qed.
Lemma in_combine_map2 {A B} (f : A -> B) (l : list A) x : In x l -> In (f x, x) (combine (map f l) l).
Proof. induction l as [|y l IH]; cbn; [tauto|]. intros [->|H]; auto. Qed.
(** if the first cloud is a rigid motion of the second, the motion found maps every point of the second to its partner ... *)
Theorem threePointSvd_exact svd p1 C t T : is_rotation C -> let p0 := map (fun p => add3 (mv3 C p) t) p1 in
  (forall c0 c1, is_centroid c0 p0 -> is_centroid c1 p1 -> is_svd (cross_covariance c0 c1 p0 p1) (svd (cross_covariance c0 c1 p0 p1))) ->
  threePointSvd svd p0 p1 = Some T -> forall p, In p p1 -> act T p = add3 (mv3 C p) t.
Proof.
  intros RC p0 S E p I. destruct (threePointSvd_optimal svd p0 p1 T) as [_ O]; auto. { unfold p0. apply map_length. }
  specialize (O (rt C t) ltac:(eexists _, _; eauto)).
  assert (Z : align_error (rt C t) p0 p1 = 0).
  { apply sumR_all_zero. intros y Y. apply in_combine_map in Y. destruct Y as [-> _]. rewrite act_rt. unfold dist2. generalize (add3 (mv3 C (snd y)) t). clear. vring. }
  rewrite Z in O. apply sumR_zero with (x := (add3 (mv3 C p) t, p)) in O.
  - cbn [fst snd] in O. apply dot_zero, sub3_zero in O. auto.
  - intros x. apply dot_pos.
  - apply in_combine_map2 with (f := fun p => add3 (mv3 C p) t). auto.
Qed.
(** ... and it is that motion, if three of the points are not on one line *)
Lemma rotation_two A B u v : is_rotation A -> is_rotation B -> cross u v <> zero3 -> mv3 A u = mv3 B u -> mv3 A v = mv3 B v -> A = B.
Proof.
  intros [OA DA] [OB DB] N Eu Ev. pose proof (cross_mv A u v DA OA) as Fa. pose proof (cross_mv B u v DB OB) as Fb.
  assert (Ew : mv3 A (cross u v) = mv3 B (cross u v)) by (rewrite <- Fa, <- Fb, Eu, Ev; auto).
  set (W := tr3 (M3 u v (cross u v))). assert (EW : mm3 A W = mm3 B W).
  { assert (P : forall M, mm3 M W = tr3 (M3 (mv3 M u) (mv3 M v) (mv3 M (cross u v)))) by (intros M; unfold W; generalize (cross u v); clear; vring). rewrite !P, Eu, Ev, Ew. auto. }
  assert (D : det3 W <> 0). { unfold W. rewrite det3_tr. replace (det3 (M3 u v (cross u v))) with (dot3 (cross u v) (cross u v)) by (clear; vring). intros H. apply N, dot_zero, H. }
  set (adj := tr3 (M3 (cross (r31 W) (r32 W)) (cross (r32 W) (r30 W)) (cross (r30 W) (r31 W)))).
  assert (AD : mm3 W adj = mscale3 (det3 W) I3) by (unfold adj; generalize W; clear; vring).
  assert (X : forall M, mscale3 (/ det3 W) (mm3 (mm3 M W) adj) = M).
  { intros M. rewrite mm3_assoc, AD. generalize (det3 W) D. clear. intros d D. destruct M as [[x0 x1 x2] [x3 x4 x5] [x6 x7 x8]]. vunfold. repeat f_equal; field; auto. }
  rewrite <- (X A), <- (X B), EW. auto.
Qed.
Theorem threePointSvd_recovers svd p1 C t T a b c : is_rotation C -> let p0 := map (fun p => add3 (mv3 C p) t) p1 in
  (forall c0 c1, is_centroid c0 p0 -> is_centroid c1 p1 -> is_svd (cross_covariance c0 c1 p0 p1) (svd (cross_covariance c0 c1 p0 p1))) ->
  In a p1 -> In b p1 -> In c p1 -> cross (sub3 b a) (sub3 c a) <> zero3 ->
  threePointSvd svd p0 p1 = Some T -> T = rt C t.
Proof.
  intros RC p0 S Ia Ib Ic N E.
  pose proof (threePointSvd_exact svd p1 C t T RC S E) as X.
  destruct (threePointSvd_optimal svd p0 p1 T) as [(A & s & RA & ET) _]; auto. { unfold p0. apply map_length. }
  subst T. pose proof (X a Ia) as Xa. pose proof (X b Ib) as Xb. pose proof (X c Ic) as Xc. rewrite act_rt in *.
  assert (D : forall x y, add3 (mv3 A x) s = add3 (mv3 C x) t -> add3 (mv3 A y) s = add3 (mv3 C y) t -> mv3 A (sub3 x y) = mv3 C (sub3 x y)).
  { intros x y Hx Hy. rewrite !mv3_sub. replace (sub3 (mv3 A x) (mv3 A y)) with (sub3 (add3 (mv3 A x) s) (add3 (mv3 A y) s)) by (generalize (mv3 A x), (mv3 A y); clear; vring).
    rewrite Hx, Hy. generalize (mv3 C x), (mv3 C y). clear. vring. }
  assert (EA : A = C) by (apply (rotation_two A C (sub3 b a) (sub3 c a)); auto). subst A. f_equal.
  assert (P : forall v w, sub3 (add3 v w) v = w) by (clear; vring). rewrite <- (P (mv3 C a) s), <- (P (mv3 C a) t), Xa. auto.
Qed.

(** ** C90, qMethod *)
(** sum of w_i |p0_i - C p1_i|^2 *)
Definition wahba_error (C : mat3) (p0 p1 : list vec3) (w : list R) : R :=
  sumR (fun abw => snd abw * dist2 (fst (fst abw)) (mv3 C (snd (fst abw)))) (combine (combine p0 p1) w).
(** eigenvalues and orthonormal eigenvectors (the columns of E) of K *)
Definition is_eigen (K : mat4) (r : vec4 * mat4) : Prop :=
  let '(l, E) := r in mm4 (tr4 E) E = I4 /\ mm4 E (tr4 E) = I4 /\ forall i, (i < 4)%nat -> mv4 K (col4 E i) = scale4 (at4 l i) (col4 E i).
(** sum of w_i p0_i p1_i^T, and Davenport's matrix of it *)
Definition attitude_profile (p0 p1 : list vec3) (w : list R) : mat3 :=
  fold_right (fun abw B => madd3 (mscale3 (snd abw) (outer3 (fst (fst abw)) (snd (fst abw)))) B) Z3 (combine (combine p0 p1) w).
Definition davenport_matrix (B : mat3) : mat4 :=
  let S := madd3 B (tr3 B) in let s := trace3 B in
  let z := V3 (vz (r31 B) - vy (r32 B)) (vx (r32 B) - vz (r30 B)) (vy (r30 B) - vx (r31 B)) in
  M4 (cons4 (sub3 (r30 S) (V3 s 0 0)) (vx z)) (cons4 (sub3 (r31 S) (V3 0 s 0)) (vy z)) (cons4 (sub3 (r32 S) (V3 0 0 s)) (vz z)) (cons4 z s).
Definition near_unit (a : vec3) : Prop := Rabs (norm3 a - 1) <= / 10000.

Lemma davenport_eq B : davenport B = davenport_matrix B. Proof. unfold davenport, davenport_matrix. vring. Qed.
Lemma davenport_form B q : dot4 q (mv4 (davenport_matrix B) q) = frob (quat2r q) B.
Proof. unfold davenport_matrix, frob. destruct q as [a b c d], B as [[x0 x1 x2] [x3 x4 x5] [x6 x7 x8]]. qunfold. ring. Qed.
Lemma weighted_spec dbg w : forall p0 p1, length p0 = length p1 -> length w = length p0 ->
  (forall x, In x w -> 0 <= x) -> (dbg = true -> forall a, In a p0 \/ In a p1 -> near_unit a) ->
  weighted dbg w (combine p0 p1) = Some (attitude_profile p0 p1 w).
Proof.
  induction w as [|x w IH]; intros [|a p0] [|b p1] L1 L2 P D; try discriminate; auto. cbn [combine weighted].
  destruct (Rlt_dec x 0) as [N|N]. { pose proof (P x (or_introl eq_refl)). lra. }
  assert (E : dbg && negb (nearOne a && nearOne b) = false).
  { destruct dbg; auto. cbn [andb]. unfold nearOne. pose proof (D eq_refl a) as Da. pose proof (D eq_refl b) as Db. unfold near_unit in *.
    destruct (Rle_dec _ _) as [?|Q]; [|exfalso; apply Q, Da; cbn; auto]. destruct (Rle_dec _ _) as [?|Q]; [auto|exfalso; apply Q, Db; cbn; auto]. }
  rewrite E, IH; auto; [|intros; apply P; cbn; auto|intros; apply D; auto; cbn; tauto].
  unfold attitude_profile. cbn [combine fold_right fst snd]. f_equal. f_equal. pose proof (sqrt_sqrt x ltac:(lra)) as S.
  transitivity (mscale3 (sqrt x * sqrt x) (outer3 a b)); [generalize (sqrt x); clear; vring|rewrite S; auto].
Qed.
Lemma wahba_sum C : orthonormal C -> forall p0 p1 w, exists k, (* k does not depend on C: see below *)
  k = sumR (fun abw => snd abw * (dot3 (fst (fst abw)) (fst (fst abw)) + dot3 (snd (fst abw)) (snd (fst abw)))) (combine (combine p0 p1) w) /\
  wahba_error C p0 p1 w = k - 2 * frob C (attitude_profile p0 p1 w).
Proof.
  intros O p0 p1 w. eexists. split; [reflexivity|]. unfold wahba_error, attitude_profile. generalize (combine (combine p0 p1) w) as l.
  induction l as [|[[a b] x] l IH]. { unfold sumR, frob. cbn [fold_right]. clear. vring. }
  unfold sumR in *. cbn [fold_right fst snd]. rewrite IH. clear IH. generalize (fold_right (fun (abw : vec3 * vec3 * R) (B : mat3) => madd3 (mscale3 (snd abw) (outer3 (fst (fst abw)) (snd (fst abw)))) B) Z3 l).
  intros M. rewrite <- (orth_dot C b O). unfold dist2, frob. generalize (fold_right
    (fun (x0 : vec3 * vec3 * R) (s : R) => snd x0 * (dot3 (fst (fst x0)) (fst (fst x0)) + dot3 (snd (fst x0)) (snd (fst x0))) + s) 0 l). intros s. clear.
  destruct C as [[c0 c1 c2] [c3 c4 c5] [c6 c7 c8]], M as [[x0 x1 x2] [x3 x4 x5] [x6 x7 x8]], a, b. vunfold. ring.
Qed.
Lemma maxIdx_max l : (maxIdx l < 4)%nat /\ forall i, (i < 4)%nat -> at4 l i <= at4 l (maxIdx l).
Proof.
  unfold maxIdx. set (upd := fun (i : nat) '(v, k) => if Rlt_dec v (at4 l i) then (at4 l i, i) else (v, k)).
  assert (S : forall i vk n, (i < 4)%nat -> (snd vk < 4)%nat -> fst vk = at4 l (snd vk) -> (forall j, (j < n)%nat -> at4 l j <= fst vk) -> i = n ->
    (snd (upd i vk) < 4)%nat /\ fst (upd i vk) = at4 l (snd (upd i vk)) /\ forall j, (j < S n)%nat -> at4 l j <= fst (upd i vk)).
  { intros i [v k] n I K V P ->. unfold upd. cbn [fst snd] in *. destruct (Rlt_dec v (at4 l n)) as [L|L]; cbn [fst snd]; (split; [auto|split; [auto|]]); intros j J; inversion J; subst; try lra.
    - pose proof (P j ltac:(auto)). lra.
    - pose proof (P j ltac:(auto)). lra. }
  assert (S0 : forall j, (j < 1)%nat -> at4 l j <= fst (at4 l 0, 0%nat)). { intros j J. inversion J; [cbn; lra|]. inversion H0. }
  destruct (S 1%nat (at4 l 0, 0%nat) 1%nat ltac:(auto) ltac:(cbn; auto) eq_refl S0 eq_refl) as (A1 & A2 & A3).
  destruct (S 2%nat _ 2%nat ltac:(auto) A1 A2 A3 eq_refl) as (B1 & B2 & B3).
  destruct (S 3%nat _ 3%nat ltac:(auto) B1 B2 B3 eq_refl) as (C1 & C2 & C3). split; [exact C1|]. intros i I. eapply Rle_trans; [exact (C3 i I)|]. rewrite C2. apply Rle_refl.
Qed.
Lemma chosen_quat B q : unit4 q -> let qv := head3 q in let qs := e3 q in
  msub3 (madd3 (mscale3 (qs * qs - dot3 qv qv) I3) (mscale3 2 (outer3 qv qv))) (mscale3 (2 * qs) (crossMx qv)) = quat2r q /\ frob (quat2r q) B = dot4 q (mv4 (davenport_matrix B) q).
Proof. intros U. split; [|symmetry; apply davenport_form]. clear. unfold crossMx. qring. Qed.
Lemma normalized_unit q : norm4 q <> 0 -> let n := norm4 q in unit4 (V4 (e0 q / n) (e1 q / n) (e2 q / n) (e3 q / n)).
Proof.
  intros N n. pose proof (norm4_sq q) as S. fold n in S, N. clearbody n. destruct q as [a b c d]. unfold unit4, dot4 in *. cbn [e0 e1 e2 e3] in *.
  transitivity ((a * a + b * b + c * c + d * d) / (n * n)); [field; auto|]. rewrite <- S. field. auto.
Qed.
(** whatever non-zero vectors the eigensolver returns, the result is a rotation matrix *)
Theorem qMethod_rotation dbg eig p0 p1 w C : qMethod dbg eig p0 p1 w = Some C -> is_rotation C.
Proof.
  unfold qMethod. destruct (negb _); [discriminate|]. destruct (negb _); [discriminate|]. destruct (weighted _ _ _) as [B|]; [|discriminate].
  destruct (eig (davenport B)) as [l E]. destruct (Req_EM_T _ _) as [Z|Z]; [discriminate|]. intros H. apply (f_equal (fun o => match o with Some x => x | None => C end)) in H. rewrite <- H. clear H.
  pose proof (normalized_unit _ Z) as U. cbv zeta in U. pose proof (proj1 (chosen_quat Z3 _ U)) as Q. cbv zeta in Q. rewrite Q. apply quat2r_rotation. auto.
Qed.
Lemma max_form K l E p : is_eigen K (l, E) -> unit4 p -> dot4 p (mv4 K p) <= at4 l (maxIdx l).
Proof.
  intros (O1 & O2 & V) U. destruct (maxIdx_max l) as [_ M]. set (m := at4 l (maxIdx l)) in *. clearbody m.
  set (y := mv4 (tr4 E) p).
  assert (P : p = mv4 E y) by (unfold y; rewrite <- mv4_mm, O2, mv4_I; auto).
  assert (KE : mv4 K p = mv4 E (V4 (e0 l * e0 y) (e1 l * e1 y) (e2 l * e2 y) (e3 l * e3 y))).
  { assert (X : forall v, mv4 E v = add4 (add4 (scale4 (e0 v) (col4 E 0)) (scale4 (e1 v) (col4 E 1))) (add4 (scale4 (e2 v) (col4 E 2)) (scale4 (e3 v) (col4 E 3)))) by (clear; vring).
    rewrite P at 1. rewrite !X. cbn [e0 e1 e2 e3]. rewrite !mv4_add, !mv4_scale. rewrite !V by (repeat constructor). cbn [at4].
    generalize (col4 E 0), (col4 E 1), (col4 E 2), (col4 E 3), y. clear. vring. }
  rewrite KE. rewrite P at 1. rewrite dot4_tr, <- mv4_mm, O1, mv4_I.
  assert (Y : dot4 y y = 1). { unfold y. rewrite dot4_tr, tr4_tr, <- mv4_mm, O2, mv4_I. exact U. }
  pose proof (M 0%nat ltac:(auto)) as M0. pose proof (M 1%nat ltac:(auto)) as M1. pose proof (M 2%nat ltac:(auto)) as M2. pose proof (M 3%nat ltac:(auto)) as M3'.
  clearbody y. clear - Y M0 M1 M2 M3'. destruct y as [a b c d], l as [l0 l1 l2 l3]. unfold dot4 in *. cbn [at4 e0 e1 e2 e3] in *.
  assert (Q : forall l x, l <= m -> 0 <= (m - l) * (x * x)) by (intros; apply Rmult_le_pos; nra).
  pose proof (Q l0 a M0). pose proof (Q l1 b M1). pose proof (Q l2 c M2). pose proof (Q l3 d M3'). assert (m = m * (a * a + b * b + c * c + d * d)) by (rewrite Y; ring). lra.
Qed.
(** it solves Wahba's problem: no rotation has a smaller weighted error *)
Theorem qMethod_optimal dbg eig p0 p1 w : length p0 = length p1 -> length w = length p0 ->
  (forall x, In x w -> 0 <= x) -> (dbg = true -> forall a, In a p0 \/ In a p1 -> near_unit a) ->
  is_eigen (davenport_matrix (attitude_profile p0 p1 w)) (eig (davenport_matrix (attitude_profile p0 p1 w))) ->
  exists C, qMethod dbg eig p0 p1 w = Some C /\ is_rotation C /\ forall C', is_rotation C' -> wahba_error C p0 p1 w <= wahba_error C' p0 p1 w.
Proof.
  intros L1 L2 P D G. unfold qMethod. rewrite L2, L1, Nat.eqb_refl. cbn [negb]. rewrite (weighted_spec dbg w p0 p1) by auto. rewrite davenport_eq.
  set (B := attitude_profile p0 p1 w) in *. destruct (eig (davenport_matrix B)) as [l E].
  destruct (maxIdx_max l) as [I M]. pose proof (max_form (davenport_matrix B) l E) as F.
  assert (U : unit4 (col4 E (maxIdx l))).
  { destruct G as (O1 & _ & _). clear - O1. pose proof (f_equal (fun M => e0 (r40 M)) O1) as H0. pose proof (f_equal (fun M => e1 (r41 M)) O1) as H1. pose proof (f_equal (fun M => e2 (r42 M)) O1) as H2. pose proof (f_equal (fun M => e3 (r43 M)) O1) as H3. unfold unit4. destruct (maxIdx l) as [|[|[|i]]]; [exact H0|exact H1|exact H2|exact H3]. }
  assert (N : norm4 (col4 E (maxIdx l)) = 1) by (unfold norm4; rewrite U; apply sqrt_1). rewrite N. destruct (Req_EM_T 1 0); [lra|].
  set (q := col4 E (maxIdx l)) in *. replace (V4 (e0 q / 1) (e1 q / 1) (e2 q / 1) (e3 q / 1)) with q by (destruct q as [a b c d]; cbn [e0 e1 e2 e3]; f_equal; field).
  destruct (chosen_quat B q U) as [X Y]. cbv zeta in X. rewrite X. clear X.
  eexists. split; [reflexivity|]. pose proof (quat2r_rotation q U) as RC. split; auto. intros C' RC'.
  destruct (wahba_sum (quat2r q) (proj1 RC) p0 p1 w) as (k & K1 & ->). destruct (wahba_sum C' (proj1 RC') p0 p1 w) as (k' & K2 & ->). subst k k'. fold B. rewrite Y.
  destruct (r2quat_correct C' RC') as (U' & E' & _). rewrite <- E', <- davenport_form.
  specialize (F _ G U'). assert (Z : dot4 q (mv4 (davenport_matrix B) q) = at4 l (maxIdx l)).
  { destruct G as (_ & _ & V). unfold q. rewrite V by auto. fold q. transitivity (at4 l (maxIdx l) * dot4 q q); [generalize q, (at4 l (maxIdx l)); clear; vring|]. unfold unit4 in U. rewrite U. ring. }
  rewrite Z. lra.
Qed.
(** when the first directions are the rotated second ones, the rotation found maps every direction with positive weight to its partner *)
Theorem qMethod_exact dbg eig p1 w C : is_rotation C -> let p0 := map (mv3 C) p1 in length w = length p1 ->
  (forall x, In x w -> 0 < x) -> (dbg = true -> forall a, In a p1 -> near_unit a) ->
  is_eigen (davenport_matrix (attitude_profile p0 p1 w)) (eig (davenport_matrix (attitude_profile p0 p1 w))) ->
  exists C', qMethod dbg eig p0 p1 w = Some C' /\ is_rotation C' /\ (forall p, In p p1 -> mv3 C' p = mv3 C p) /\
    ((exists a b, In a p1 /\ In b p1 /\ cross a b <> zero3) -> C' = C).
Proof.
  intros RC p0 L P D G. assert (L0 : length p0 = length p1) by apply map_length.
  destruct (qMethod_optimal dbg eig p0 p1 w) as (C' & E & RC' & O); auto. { congruence. } { intros; apply Rlt_le; auto. }
  { intros T a [I|I]; [|apply D; auto]. apply in_map_iff in I. destruct I as (b & <- & I). unfold near_unit, norm3. rewrite (orth_dot C b (proj1 RC)). apply D; auto. }
  exists C'. split; auto. split; auto.
  assert (Z : wahba_error C p0 p1 w = 0).
  { apply sumR_all_zero. intros [y x] Y. apply in_combine_l in Y. apply in_combine_map in Y. cbn [fst snd]. destruct Y as [-> _]. unfold dist2. generalize (mv3 C (snd y)). clear. vring. }
  specialize (O C RC). rewrite Z in O. clear Z.
  assert (X : forall p, In p p1 -> mv3 C' p = mv3 C p).
  { intros p I. apply (in_combine_map2 (mv3 C)) in I. fold p0 in I.
    assert (J : exists x, In ((mv3 C p, p), x) (combine (combine p0 p1) w) /\ 0 < x).
    { assert (LL : length w = length (combine p0 p1)) by (rewrite combine_length, L0, Nat.min_id; auto). revert I LL P. generalize (combine p0 p1) as l. clear. induction w as [|x w IH]; intros [|y l]; cbn; try tauto; try discriminate.
      intros [->|I] H P; [exists x; auto|]. destruct (IH l I ltac:(auto) ltac:(auto)) as (z & J & Pz). eauto. }
    destruct J as (x & J & Px).
    assert (W : forall z, In z (combine (combine p0 p1) w) -> 0 <= snd z * dist2 (fst (fst z)) (mv3 C' (snd (fst z)))).
    { intros [y z] Y. apply in_combine_r in Y. cbn [fst snd]. apply Rmult_le_pos; [apply Rlt_le; auto|apply dot_pos]. }
    unfold wahba_error in O. revert O J W. generalize (combine (combine p0 p1) w) as l. clear - Px. intros l O J W.
    assert (S : sumR (fun abw => snd abw * dist2 (fst (fst abw)) (mv3 C' (snd (fst abw)))) l >= x * dist2 (mv3 C p) (mv3 C' p)).
    { clear O. induction l as [|y l IH]; [destruct J|]. unfold sumR. cbn [fold_right]. fold (sumR (fun abw => snd abw * dist2 (fst (fst abw)) (mv3 C' (snd (fst abw)))) l).
      destruct J as [->|J].
      - cbn [fst snd]. assert (0 <= sumR (fun abw => snd abw * dist2 (fst (fst abw)) (mv3 C' (snd (fst abw)))) l); [|lra].
        clear IH. assert (W' : forall z, In z l -> 0 <= snd z * dist2 (fst (fst z)) (mv3 C' (snd (fst z)))) by (intros; apply W; cbn; auto). clear W. induction l as [|y l IH]; cbn; [lra|].
        fold (sumR (fun abw => snd abw * dist2 (fst (fst abw)) (mv3 C' (snd (fst abw)))) l). pose proof (W' y (or_introl eq_refl)). assert (0 <= sumR (fun abw => snd abw * dist2 (fst (fst abw)) (mv3 C' (snd (fst abw)))) l) by (apply IH; intros; apply W'; cbn; auto). lra.
      - pose proof (W y (or_introl eq_refl)). specialize (IH J ltac:(intros; apply W; cbn; auto)). lra. }
    pose proof (dot_pos (sub3 (mv3 C p) (mv3 C' p))) as Q. fold (dist2 (mv3 C p) (mv3 C' p)) in Q. assert (Y : dist2 (mv3 C p) (mv3 C' p) = 0) by nra. apply dot_zero, sub3_zero in Y. auto. }
  split; auto. intros (a & b & Ia & Ib & N). apply (rotation_two C' C a b); auto.
Qed.
(** without weights all directions count the same *)
Theorem qMethod_unweighted dbg eig p0 p1 : qMethod1 dbg eig p0 p1 = qMethod dbg eig p0 p1 (map (fun _ => 1) p0) \/ length p0 <> length p1.
Proof.
  destruct (Nat.eq_dec (length p0) (length p1)) as [L|]; auto. left. unfold qMethod1. f_equal. rewrite <- L. clear. induction p0; cbn; auto. f_equal; auto.
Qed.
(** errors: clouds of different sizes, weights of another number, a negative weight; in the debug build also a direction that is not of unit length *)
Theorem qMethod_errors dbg eig p0 p1 w : length p0 <> length p1 \/ length w <> length p0 \/ (exists x, In x w /\ x < 0) \/
  (dbg = true /\ exists a, (In a p0 \/ In a p1) /\ ~ near_unit a) -> qMethod dbg eig p0 p1 w = None.
Proof.
  intros H. unfold qMethod. destruct (Nat.eqb_spec (length p0) (length p1)) as [L|L]; cbn [negb]; auto. destruct (Nat.eqb_spec (length w) (length p0)) as [L2|L2]; cbn [negb]; auto.
  assert (E : weighted dbg w (combine p0 p1) = None); [|rewrite E; auto].
  destruct H as [H|[H|H]]; try contradiction. revert p0 p1 L L2 H. induction w as [|x w IH]; intros [|a p0] [|b p1] L L2 H; try discriminate.
  { destruct H as [(x & [] & _)|(_ & a & [[]|[]] & _)]. }
  cbn [combine weighted]. destruct (Rlt_dec x 0) as [N|N]; auto. destruct (dbg && negb (nearOne a && nearOne b)) eqn:Q; auto. rewrite (IH p0 p1); auto.
  destruct H as [(y & [<-|I] & Y)|(T & c & I & Y)]; [lra|left; eauto|right]. subst dbg. split; auto. cbn [andb] in Q. apply negb_false_iff, andb_prop in Q. destruct Q as [Q1 Q2]. unfold nearOne in *.
  destruct (Rle_dec (Rabs (norm3 a - 1)) _); [|discriminate]. destruct (Rle_dec (Rabs (norm3 b - 1)) _); [|discriminate]. exists c. split; auto.
  destruct I as [[<-|I]|[<-|I]]; auto; contradiction.
Qed.
(** the hypotheses are met by concrete clouds: a planar cloud, a quarter turn about z, and a decomposition with det (V U^T) < 0 *)
Example ex_svd :
  let C := m3 0 (-1) 0 1 0 0 0 0 1 in let t := V3 1 2 3 in
  let p1 := [V3 2 0 0; V3 (-2) 0 0; V3 0 1 0; V3 0 (-1) 0] in
  threePointSvd (fun _ => (C, m3 1 0 0 0 1 0 0 0 (-1))) (map (fun p => add3 (mv3 C p) t) p1) p1 = Some (rt C t).
Proof.
  intros C t p1. set (svd := fun _ : mat3 => (C, m3 1 0 0 0 1 0 0 0 (-1))). set (p0 := map _ p1).
  assert (RC : is_rotation C) by (split; [split|]; unfold C; vring).
  assert (S : forall c0 c1, is_centroid c0 p0 -> is_centroid c1 p1 -> is_svd (cross_covariance c0 c1 p0 p1) (svd (cross_covariance c0 c1 p0 p1))).
  { intros c0 c1 Z0 Z1. assert (c1 = zero3). { apply (centroid_unique c1 zero3 p1 Z1). split; [discriminate|]. clear. unfold p1. cbn [length fold_right INR]. clear. vunfold. f_equal; ring. }
    assert (c0 = t). { apply (centroid_unique c0 t p0 Z0). split; [discriminate|]. unfold p0, p1, C, t. cbn [map length fold_right INR]. clear. vunfold. f_equal; ring. } subst c0 c1.
    unfold svd. split; [exact (proj1 RC)|]. split; [exact orth_flip|]. exists 8, 2, 0. repeat (split; [lra|]). unfold cross_covariance, p0, p1, C, t. cbn [map combine fold_right fst snd]. clear. vunfold. veq; ring. }
  destruct (threePointSvd svd p0 p1) as [T|] eqn:E.
  - f_equal. apply (threePointSvd_recovers svd p1 C t T (V3 2 0 0) (V3 (-2) 0 0) (V3 0 1 0)); auto; try (cbn; tauto). clear. vunfold. intros H. apply (f_equal vz) in H. cbn in H. lra.
  - exfalso. apply (proj2 (threePointSvd_defined svd p0 p1)); auto. split; [reflexivity|discriminate].
Qed.
Example ex_qMethod : let C := m3 (-1) 0 0 0 (-1) 0 0 0 1 in let p1 := [V3 1 0 0; V3 0 1 0; V3 0 0 1] in
  qMethod true (fun _ => (V4 (-2) (-4) 6 0, I4)) (map (mv3 C) p1) p1 [1; 2; 3] = Some C.
Proof.
  intros C p1. assert (RC : is_rotation C) by (split; [split|]; unfold C; vring).
  destruct (qMethod_exact true (fun _ => (V4 (-2) (-4) 6 0, I4)) p1 [1; 2; 3] C RC) as (C' & E & _ & _ & U); auto.
  - cbn. intros x [<-|[<-|[<-|[]]]]; lra.
  - intros _ a I. assert (N : norm3 a = 1). { unfold norm3. replace (dot3 a a) with 1; [apply sqrt_1|]. destruct I as [<-|[<-|[<-|[]]]]; clear; vunfold; ring. } unfold near_unit. rewrite N. replace (1 - 1) with 0 by ring. rewrite Rabs_R0. lra.
  - split; [vring|]. split; [vring|]. intros i I. assert (K : davenport_matrix (attitude_profile (map (mv3 C) p1) p1 [1; 2; 3]) = M4 (V4 (-2) 0 0 0) (V4 0 (-4) 0 0) (V4 0 0 6 0) (V4 0 0 0 0)).
    { unfold attitude_profile, davenport_matrix, p1, C. cbn [map combine fold_right fst snd]. clear. vunfold. veq; ring. }
    rewrite K. destruct i as [|[|[|[|i]]]]; [| | | |exfalso; lia]; clear; vunfold; f_equal; ring.
  - rewrite E, U; auto. exists (V3 1 0 0), (V3 0 1 0). split; [cbn; auto|]. split; [cbn; auto|]. clear. vunfold. intros H. apply (f_equal vz) in H. cbn in H. lra.
Qed.
