(** Model of the maps from parameter rates to angular velocity (parametersToSMatrix, angularVelocityAndJacobian of EulerAnglesZYX.cpp 51-97, EulerAnglesYawPitchRoll.cpp
    51-97, EulerAnglesZXY.cpp 76-106, EulerRodriguez.cpp 53-60 and 62-70, RotationVector.cpp 82-183, parametersToInverseSMatrix of RotationVector.cpp 186-201) in binary64,
    operation by operation in the order of the C++ expressions.  Kin_Rot_Model models the same functions in exact arithmetic.  Same simplifications as in
    Kin_FloatMat_Model; the coefficients of A * A for a cross-product matrix A are written without their zero terms (which could only change the sign of a zero).
    What Eigen leaves open is a parameter: in which order each coefficient of S * pdot is summed, and whether (c * A) * B multiplies by c before or after the product.
    The Jacobian of EulerRodriguez (71-84) is in Kin_FloatER_Model. *)
From Verif Require Export Kin_FloatMat_Model.
Open Scope Z_scope.

(** pow(x, 3.0/2.0) and pow(x, 5.0/2.0) of the C library *)
Record lib3 := mkLib3 { lbase : lib; m_pow32 : f64 -> f64; m_pow52 : f64 -> f64; factored : bool; rows : nat -> stree }.
(** Eigen's S * pdot *)
Definition frowdot (t : stree) (a b : F3) : f64 := fsum_tree (fun i => fmul (fat3 a i) (fat3 b i)) t.
Definition fmv3 (L : lib3) (M : FM3) (v : F3) : F3 := mkF3 (frowdot (rows L 0%nat) (fr0 M) v) (frowdot (rows L 1%nat) (fr1 M) v) (frowdot (rows L 2%nat) (fr2 M) v).

(** EulerAnglesZYX::buildSMatrix (60-69), parametersToSMatrix (51-58) *)
Definition fzyx_buildS (sz cz sy cy : f64) : FM3 := fm3 fzero (fneg sz) (fmul cy cz) fzero cz (fmul cy sz) fone fzero (fneg sy).
Definition fzyx_S (L : lib) (p : F3) : FM3 := fzyx_buildS (m_sin L (fneg (fx p))) (m_cos L (fneg (fx p))) (m_sin L (fneg (fy p))) (m_cos L (fneg (fy p))).
(** EulerAnglesYawPitchRoll::buildSMatrix (60-69), parametersToSMatrix (51-58) *)
Definition fypr_buildS (sz cz sy cy : f64) : FM3 := fm3 fzero sz (fmul (fneg cy) cz) fzero (fneg cz) (fmul (fneg cy) sz) (fneg fone) fzero sy.
Definition fypr_S (L : lib) (p : F3) : FM3 := fypr_buildS (m_sin L (fx p)) (m_cos L (fx p)) (m_sin L (fy p)) (m_cos L (fy p)).
(** EulerAnglesZXY::parametersToSMatrix (76-86) *)
Definition fzxy_S (L : lib) (p : F3) : FM3 :=
  let cx := m_cos L (fy p) in let sx := m_sin L (fy p) in let cz := m_cos L (fx p) in let sz := m_sin L (fx p) in
  fm3 fzero (fneg cz) (fmul cx sz) fzero (fneg sz) (fmul (fneg cx) cz) (fneg fone) fzero (fneg sx).
(** the block d omega / d p of EulerAnglesZYX (84-93) and EulerAnglesYawPitchRoll (84-93) *)
Definition fzyx_dp (cz sz cy sy : f64) (q : F3) : FM3 :=
  fm3 (fadd (fmul cz (fy q)) (fmul (fmul cy sz) (fz q))) (fmul (fmul cz sy) (fz q)) fzero
      (fsub (fmul sz (fy q)) (fmul (fmul cz cy) (fz q))) (fmul (fmul sz sy) (fz q)) fzero
      fzero (fmul cy (fz q)) fzero.
(** angularVelocityAndJacobian of the three: omega, d omega / d p, d omega / d pdot *)
Definition fzyx_rates (L : lib3) (p q : F3) : F3 * FM3 * FM3 :=
  let B := lbase L in let cy := m_cos B (fneg (fy p)) in let sy := m_sin B (fneg (fy p)) in let cz := m_cos B (fneg (fx p)) in let sz := m_sin B (fneg (fx p)) in
  let S := fzyx_buildS sz cz sy cy in (fmv3 L S q, fzyx_dp cz sz cy sy q, S).
Definition fypr_rates (L : lib3) (p q : F3) : F3 * FM3 * FM3 :=
  let B := lbase L in let cy := m_cos B (fy p) in let sy := m_sin B (fy p) in let cz := m_cos B (fx p) in let sz := m_sin B (fx p) in
  let S := fypr_buildS sz cz sy cy in (fmv3 L S q, fzyx_dp cz sz cy sy q, S).
(** EulerAnglesZXY (88-106) *)
Definition fzxy_rates (L : lib3) (p q : F3) : F3 * FM3 * FM3 :=
  let B := lbase L in let cx := m_cos B (fy p) in let sx := m_sin B (fy p) in let cz := m_cos B (fx p) in let sz := m_sin B (fx p) in
  let S := fzxy_S B p in
  (fmv3 L S q,
   fm3 (fadd (fmul sz (fy q)) (fmul (fmul cx cz) (fz q))) (fmul (fmul (fneg sx) sz) (fz q)) fzero
       (fadd (fmul (fneg cz) (fy q)) (fmul (fmul cx sz) (fz q))) (fmul (fmul sx cz) (fz q)) fzero
       fzero (fmul (fneg cx) (fz q)) fzero,
   S).

(** EulerRodriguez: f * (Identity - crossp) *)
Definition fer_entries (f : f64) (p : F3) : FM3 :=
  let x := fx p in let y := fy p in let z := fz p in let e i c := fmul f (fsub i c) in
  fm3 (e fone fzero) (e fzero (fneg z)) (e fzero y) (e fzero z) (e fone fzero) (e fzero (fneg x)) (e fzero (fneg y)) (e fzero x) (e fone fzero).
(** parametersToSMatrix (53-60) *)
Definition fer_S (L : lib) (p : F3) : FM3 := fer_entries (fdiv (fofZ 2) (fadd fone (fdot3 L p))) p.
(** angularVelocityAndJacobian (62-70): omega and d omega / d pdot; here f = 2 * (1.0/(1.0 + ...)) *)
Definition fer_rates (L : lib3) (p q : F3) : F3 * FM3 :=
  let rd := fdiv fone (fadd fone (fdot3 (lbase L) p)) in let f := fmul (fofZ 2) rd in let S := fer_entries f p in (fmv3 L S q, S).

(** RotationVector: one coefficient of (c * A) * A for A = crossMx(a): the products a b, and - a a - b b on the diagonal *)
Definition fcc (fac : bool) (c a b : f64) : f64 := if fac then fmul c (fmul a b) else fmul (fmul c a) b.
Definition fcd (fac : bool) (c a b : f64) : f64 :=
  if fac then fmul c (fadd (fmul (fneg a) a) (fmul b (fneg b))) else fadd (fmul (fmul c (fneg a)) a) (fmul (fmul c b) (fneg b)).
(** Identity + c1 * A + (c2 * A) * A *)
Definition fcross_poly (fac : bool) (c1 c2 : f64) (a : F3) : FM3 :=
  let x := fx a in let y := fy a in let z := fz a in let e i s t := fadd (fadd i (fmul c1 s)) t in
  fm3 (e fone fzero (fcd fac c2 z y)) (e fzero (fneg z) (fcc fac c2 y x)) (e fzero y (fcc fac c2 z x))
      (e fzero z (fcc fac c2 x y)) (e fone fzero (fcd fac c2 z x)) (e fzero (fneg x) (fcc fac c2 z y))
      (e fzero (fneg y) (fcc fac c2 x z)) (e fzero x (fcc fac c2 y z)) (e fone fzero (fcd fac c2 y x)).
(** parametersToSMatrix (82-106) *)
Definition frv_S (L : lib3) (p : F3) : FM3 :=
  let a := fnorm3 (lbase L) p in
  if fltb a f1em14 then fidentity
  else let ra := fdiv fone a in let axis := mkF3 (fmul (fx p) ra) (fmul (fy p) ra) (fmul (fz p) ra) in
       let st2 := m_sin (lbase L) (fmul a fhalf) in let st := m_sin (lbase L) a in
       let c1 := fmul (fmul (fmul (fofZ (-2)) st2) st2) ra in let c2 := fmul (fsub a st) ra in
       fcross_poly (factored L) c1 c2 axis.
(** omega of angularVelocityAndJacobian (109-114) *)
Definition frv_omega (L : lib3) (p q : F3) : F3 := fmv3 L (frv_S L p) q.
(** parametersToInverseSMatrix (186-201) *)
Definition frv_invS (L : lib3) (p : F3) : FM3 :=
  let phi := fnorm3 (lbase L) p in
  if feqb phi fzero then fidentity
  else let cot := fdiv (fneg (m_sin (lbase L) phi)) (fsub (m_cos (lbase L) phi) fone) in
       let a1 := fmul (fdiv fone (fmul phi phi)) (fsub fone (fmul (fmul fhalf phi) cot)) in
       fcross_poly (factored L) fhalf a1 p.
(** the block d omega / d p of angularVelocityAndJacobian (124-176), transcribed mechanically *)
Definition frv_dp (L : lib3) (p pdot : F3) : FM3 :=
  let c1 := fofZ 1 in let c2 := fofZ 2 in let c3 := fofZ 3 in let c4 := fofZ 4 in
  let t1 := fx p in
  let t2 := fy p in
  let t3 := fz p in
  let dt1 := fx pdot in
  let dt2 := fy pdot in
  let dt3 := fz pdot in
  let t5 := fmul t1 t1 in
  let t6 := fmul t2 t2 in
  let t7 := fmul t3 t3 in
  let t8 := fadd (fadd t5 t6) t7 in
  let t9 := m_pow32 L t8 in
  let t10 := fsqrt t8 in
  let t11 := m_sin (lbase L) t10 in
  let t12 := m_cos (lbase L) t10 in
  let t13 := fmul t12 (fdiv c1 c2) in
  let t14 := fsub t13 (fdiv c1 c2) in
  let t15 := fdiv c1 (m_pow52 L t8) in
  let t16 := fmul (fmul (fmul dt3 t14) t9) c2 in
  let t17 := fmul (fmul (fmul (fmul (fmul dt3 t1) t11) t2) t3) c3 in
  let t18 := fmul (fmul dt3 t3) t9 in
  let t19 := fmul (fmul (fmul (fmul dt1 t1) t10) t6) c2 in
  let t20 := fmul (fmul (fmul (fmul dt2 t11) t2) t5) c3 in
  let t21 := fmul (fmul (fmul (fmul dt1 t1) t10) t12) t6 in
  let t22 := fmul (fmul (fmul dt2 t14) t9) c2 in
  let t23 := fmul (fmul (fmul (fmul (fmul dt2 t1) t10) t2) t3) c2 in
  let t24 := fmul (fmul (fmul (fmul (fmul dt2 t1) t10) t12) t2) t3 in
  let t25 := fmul (fmul (fmul dt1 t14) t9) c2 in
  let t26 := fmul (fmul (fmul (fmul (fmul dt1 t1) t11) t2) t3) c3 in
  let t27 := fmul (fmul dt1 t1) t9 in
  let t28 := fmul (fmul dt2 t2) t9 in
  let t29 := fmul (fmul (fmul (fmul dt1 t1) t10) t7) c2 in
  let t30 := fmul (fmul (fmul (fmul dt2 t10) t2) t7) c2 in
  let t31 := fmul (fmul (fmul (fmul dt3 t11) t3) t5) c3 in
  let t32 := fmul (fmul (fmul (fmul dt3 t11) t3) t6) c3 in
  let t33 := fmul (fmul (fmul (fmul dt2 t1) t11) t3) t8 in
  let t34 := fmul (fmul (fmul (fmul (fmul dt2 t1) t10) t14) t3) c4 in
  let t35 := fmul (fmul (fmul (fmul dt1 t1) t10) t12) t7 in
  let t36 := fmul (fmul (fmul (fmul dt2 t10) t12) t2) t7 in
  let t0 := fmul t15 (fsub (fsub (fsub (fsub (fsub (fsub (fsub (fsub (fsub (fsub (fadd (fadd (fadd (fadd (fadd (fadd (fadd (fadd (fadd t18 t19) t20) t21) t28) t29) t31) t33) t34) t35) (fmul (fmul (fmul (fmul dt1 t1) t11) t6) c3)) (fmul (fmul (fmul (fmul dt2 t10) t2) t5) c2)) (fmul (fmul (fmul (fmul dt1 t1) t11) t7) c3)) (fmul (fmul (fmul (fmul dt3 t10) t3) t5) c2)) (fmul (fmul (fmul dt2 t11) t2) t8)) (fmul (fmul (fmul dt3 t11) t3) t8)) (fmul (fmul (fmul (fmul (fmul dt3 t1) t10) t14) t2) c4)) (fmul (fmul (fmul (fmul dt2 t10) t12) t2) t5)) (fmul (fmul (fmul (fmul dt3 t10) t12) t3) t5)) (fmul (fmul (fmul (fmul dt3 t1) t11) t2) t8)) in
  fm3 (t0)
      (fmul t15 (fsub (fadd (fadd (fadd (fsub (fadd (fsub (fsub (fadd (fsub (fsub (fadd (fsub (fadd (fsub (fadd (fsub (fsub (fadd (fadd t16 t17) (fmul (fmul dt2 t1) t9)) (fmul (fmul (fmul dt1 t2) t9) c2)) (fmul (fmul (fmul (fmul dt2 t1) t10) t6) c2)) (fmul (fmul (fmul (fmul dt2 t1) t11) t6) c3)) (fmul (fmul (fmul (fmul dt3 t10) t14) t6) c4)) (fmul (fmul (fmul (fmul dt1 t10) t2) t6) c2)) (fmul (fmul (fmul (fmul dt1 t11) t2) t6) c3)) (fmul (fmul (fmul (fmul dt1 t10) t2) t7) c2)) (fmul (fmul (fmul (fmul dt1 t11) t2) t7) c3)) (fmul (fmul (fmul dt2 t1) t11) t8)) (fmul (fmul (fmul (fmul dt1 t11) t2) t8) c2)) (fmul (fmul (fmul dt3 t11) t6) t8)) (fmul (fmul (fmul (fmul (fmul dt3 t1) t10) t2) t3) c2)) (fmul (fmul (fmul (fmul (fmul dt2 t10) t14) t2) t3) c4)) (fmul (fmul (fmul (fmul dt2 t1) t10) t12) t6)) (fmul (fmul (fmul (fmul dt1 t10) t12) t2) t6)) (fmul (fmul (fmul (fmul dt1 t10) t12) t2) t7)) (fmul (fmul (fmul (fmul dt2 t11) t2) t3) t8)) (fmul (fmul (fmul (fmul (fmul dt3 t1) t10) t12) t2) t3)))
      (fmul (fneg t15) (fadd (fsub (fsub (fadd (fadd (fsub (fsub (fsub (fadd (fsub (fadd (fadd (fsub (fsub (fsub (fadd (fadd (fsub (fadd (fadd t22 t23) t24) (fmul (fmul dt3 t1) t9)) (fmul (fmul (fmul dt1 t3) t9) c2)) (fmul (fmul (fmul (fmul dt3 t1) t10) t7) c2)) (fmul (fmul (fmul (fmul dt3 t1) t11) t7) c3)) (fmul (fmul (fmul (fmul dt2 t10) t14) t7) c4)) (fmul (fmul (fmul (fmul dt1 t10) t3) t6) c2)) (fmul (fmul (fmul (fmul dt1 t11) t3) t6) c3)) (fmul (fmul (fmul dt3 t1) t11) t8)) (fmul (fmul (fmul (fmul dt1 t10) t3) t7) c2)) (fmul (fmul (fmul (fmul dt1 t11) t3) t7) c3)) (fmul (fmul (fmul (fmul dt1 t11) t3) t8) c2)) (fmul (fmul (fmul dt2 t11) t7) t8)) (fmul (fmul (fmul (fmul (fmul dt2 t1) t11) t2) t3) c3)) (fmul (fmul (fmul (fmul (fmul dt3 t10) t14) t2) t3) c4)) (fmul (fmul (fmul (fmul dt3 t1) t10) t12) t7)) (fmul (fmul (fmul (fmul dt1 t10) t12) t3) t6)) (fmul (fmul (fmul (fmul dt1 t10) t12) t3) t7)) (fmul (fmul (fmul (fmul dt3 t11) t2) t3) t8)))
      (fmul (fneg t15) (fadd (fadd (fsub (fadd (fsub (fadd (fadd (fsub (fadd (fsub (fadd (fsub (fsub (fadd (fsub (fadd (fsub (fsub (fadd (fsub t16 t17) (fmul (fmul (fmul dt2 t1) t9) c2)) (fmul (fmul dt1 t2) t9)) (fmul (fmul (fmul (fmul dt2 t1) t10) t5) c2)) (fmul (fmul (fmul (fmul dt2 t1) t11) t5) c3)) (fmul (fmul (fmul (fmul dt3 t10) t14) t5) c4)) (fmul (fmul (fmul (fmul dt1 t10) t2) t5) c2)) (fmul (fmul (fmul (fmul dt1 t11) t2) t5) c3)) (fmul (fmul (fmul (fmul dt2 t1) t10) t7) c2)) (fmul (fmul (fmul (fmul dt2 t1) t11) t7) c3)) (fmul (fmul (fmul (fmul dt2 t1) t11) t8) c2)) (fmul (fmul (fmul dt1 t11) t2) t8)) (fmul (fmul (fmul dt3 t11) t5) t8)) (fmul (fmul (fmul (fmul (fmul dt1 t1) t10) t14) t3) c4)) (fmul (fmul (fmul (fmul (fmul dt3 t1) t10) t2) t3) c2)) (fmul (fmul (fmul (fmul dt2 t1) t10) t12) t5)) (fmul (fmul (fmul (fmul dt1 t10) t12) t2) t5)) (fmul (fmul (fmul (fmul dt2 t1) t10) t12) t7)) (fmul (fmul (fmul (fmul dt1 t1) t11) t3) t8)) (fmul (fmul (fmul (fmul (fmul dt3 t1) t10) t12) t2) t3)))
      (fmul t15 (fsub (fadd (fsub (fadd (fsub (fadd (fsub (fsub (fsub (fsub (fadd (fadd (fadd (fadd (fadd (fadd (fsub (fsub (fsub t18 t19) t20) t21) t27) t30) t32) t36) (fmul (fmul (fmul (fmul dt1 t1) t11) t6) c3)) (fmul (fmul (fmul (fmul dt2 t10) t2) t5) c2)) (fmul (fmul (fmul dt1 t1) t11) t8)) (fmul (fmul (fmul (fmul dt2 t11) t2) t7) c3)) (fmul (fmul (fmul (fmul dt3 t10) t3) t6) c2)) (fmul (fmul (fmul dt3 t11) t3) t8)) (fmul (fmul (fmul (fmul (fmul dt3 t1) t10) t14) t2) c4)) (fmul (fmul (fmul (fmul (fmul dt1 t10) t14) t2) t3) c4)) (fmul (fmul (fmul (fmul dt2 t10) t12) t2) t5)) (fmul (fmul (fmul (fmul dt3 t10) t12) t3) t6)) (fmul (fmul (fmul (fmul dt3 t1) t11) t2) t8)) (fmul (fmul (fmul (fmul dt1 t11) t2) t3) t8)))
      (fmul t15 (fsub (fadd (fadd (fsub (fadd (fsub (fadd (fsub (fadd (fsub (fsub (fadd (fadd (fsub (fsub (fsub (fadd (fsub (fadd (fadd t25 t26) (fmul (fmul dt3 t2) t9)) (fmul (fmul (fmul dt2 t3) t9) c2)) (fmul (fmul (fmul (fmul dt2 t10) t3) t5) c2)) (fmul (fmul (fmul (fmul dt2 t11) t3) t5) c3)) (fmul (fmul (fmul (fmul dt1 t10) t14) t7) c4)) (fmul (fmul (fmul (fmul dt3 t10) t2) t7) c2)) (fmul (fmul (fmul (fmul dt3 t11) t2) t7) c3)) (fmul (fmul (fmul (fmul dt2 t10) t3) t7) c2)) (fmul (fmul (fmul (fmul dt2 t11) t3) t7) c3)) (fmul (fmul (fmul dt3 t11) t2) t8)) (fmul (fmul (fmul (fmul dt2 t11) t3) t8) c2)) (fmul (fmul (fmul dt1 t11) t7) t8)) (fmul (fmul (fmul (fmul (fmul dt3 t1) t10) t14) t3) c4)) (fmul (fmul (fmul (fmul (fmul dt1 t1) t10) t2) t3) c2)) (fmul (fmul (fmul (fmul dt2 t10) t12) t3) t5)) (fmul (fmul (fmul (fmul dt3 t10) t12) t2) t7)) (fmul (fmul (fmul (fmul dt2 t10) t12) t3) t7)) (fmul (fmul (fmul (fmul dt3 t1) t11) t3) t8)) (fmul (fmul (fmul (fmul (fmul dt1 t1) t10) t12) t2) t3)))
      (fmul t15 (fadd (fsub (fadd (fadd (fadd (fadd (fsub (fsub (fadd (fadd (fsub (fsub (fadd (fsub (fsub (fadd (fadd (fsub (fsub (fsub t22 t23) t24) (fmul (fmul (fmul dt3 t1) t9) c2)) (fmul (fmul dt1 t3) t9)) (fmul (fmul (fmul (fmul dt3 t1) t10) t5) c2)) (fmul (fmul (fmul (fmul dt3 t1) t11) t5) c3)) (fmul (fmul (fmul (fmul dt2 t10) t14) t5) c4)) (fmul (fmul (fmul (fmul dt3 t1) t10) t6) c2)) (fmul (fmul (fmul (fmul dt3 t1) t11) t6) c3)) (fmul (fmul (fmul (fmul dt1 t10) t3) t5) c2)) (fmul (fmul (fmul (fmul dt1 t11) t3) t5) c3)) (fmul (fmul (fmul (fmul dt3 t1) t11) t8) c2)) (fmul (fmul (fmul dt1 t11) t3) t8)) (fmul (fmul (fmul dt2 t11) t5) t8)) (fmul (fmul (fmul (fmul (fmul dt1 t1) t10) t14) t2) c4)) (fmul (fmul (fmul (fmul (fmul dt2 t1) t11) t2) t3) c3)) (fmul (fmul (fmul (fmul dt3 t1) t10) t12) t5)) (fmul (fmul (fmul (fmul dt3 t1) t10) t12) t6)) (fmul (fmul (fmul (fmul dt1 t10) t12) t3) t5)) (fmul (fmul (fmul (fmul dt1 t1) t11) t2) t8)))
      (fmul (fneg t15) (fadd (fadd (fadd (fsub (fsub (fadd (fadd (fsub (fadd (fsub (fsub (fadd (fadd (fsub (fsub (fadd (fsub (fsub (fadd (fsub t25 t26) (fmul (fmul (fmul dt3 t2) t9) c2)) (fmul (fmul dt2 t3) t9)) (fmul (fmul (fmul (fmul dt3 t10) t2) t5) c2)) (fmul (fmul (fmul (fmul dt3 t11) t2) t5) c3)) (fmul (fmul (fmul (fmul dt1 t10) t14) t6) c4)) (fmul (fmul (fmul (fmul dt3 t10) t2) t6) c2)) (fmul (fmul (fmul (fmul dt3 t11) t2) t6) c3)) (fmul (fmul (fmul (fmul dt2 t10) t3) t6) c2)) (fmul (fmul (fmul (fmul dt2 t11) t3) t6) c3)) (fmul (fmul (fmul (fmul dt3 t11) t2) t8) c2)) (fmul (fmul (fmul dt2 t11) t3) t8)) (fmul (fmul (fmul dt1 t11) t6) t8)) (fmul (fmul (fmul (fmul (fmul dt2 t1) t10) t14) t2) c4)) (fmul (fmul (fmul (fmul (fmul dt1 t1) t10) t2) t3) c2)) (fmul (fmul (fmul (fmul dt3 t10) t12) t2) t5)) (fmul (fmul (fmul (fmul dt3 t10) t12) t2) t6)) (fmul (fmul (fmul (fmul dt2 t10) t12) t3) t6)) (fmul (fmul (fmul (fmul dt2 t1) t11) t2) t8)) (fmul (fmul (fmul (fmul (fmul dt1 t1) t10) t12) t2) t3)))
      (fmul t15 (fadd (fadd (fadd (fadd (fsub (fadd (fadd (fsub (fadd (fadd (fsub (fsub (fsub (fsub (fsub (fsub (fsub (fsub (fadd t27 t28) t29) t30) t31) t32) t33) t34) t35) t36) (fmul (fmul (fmul (fmul dt1 t1) t11) t7) c3)) (fmul (fmul (fmul (fmul dt3 t10) t3) t5) c2)) (fmul (fmul (fmul dt1 t1) t11) t8)) (fmul (fmul (fmul (fmul dt2 t11) t2) t7) c3)) (fmul (fmul (fmul (fmul dt3 t10) t3) t6) c2)) (fmul (fmul (fmul dt2 t11) t2) t8)) (fmul (fmul (fmul (fmul (fmul dt1 t10) t14) t2) t3) c4)) (fmul (fmul (fmul (fmul dt3 t10) t12) t3) t5)) (fmul (fmul (fmul (fmul dt3 t10) t12) t3) t6)) (fmul (fmul (fmul (fmul dt1 t11) t2) t3) t8))).
