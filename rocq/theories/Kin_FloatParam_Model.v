(** Model of the functions that read parameters off a rotation matrix (sm_kinematics/src/rotations.cpp: R2rph 64-75, C2rph 189-214; rotationMatrixToParameters of
    EulerAnglesZYX.cpp 37-49, EulerAnglesYawPitchRoll.cpp 37-49, EulerAnglesZXY.cpp 67-74, RotationVector.cpp 57-80, EulerRodriguez.cpp 27-51) in binary64, operation by
    operation.  Same simplifications as in Kin_FloatMat_Model; asin, acos, tan and atan2 of the C library are parameters. *)
From Verif Require Export Kin_FloatMat_Model.
Open Scope Z_scope.

Record lib2 := mkLib2 { base : lib; m_asin : f64 -> f64; m_acos : f64 -> f64; m_tan : f64 -> f64; m_atan2 : f64 -> f64 -> f64 }.
(** C(i,j) *)
Definition fent (C : FM3) (i j : nat) : f64 := fat3 (match i with O => fr0 C | S O => fr1 C | _ => fr2 C end) j.
(** R2rph (64-75) *)
Definition fR2rph (L : lib2) (C : FM3) : F3 :=
  let phi := m_asin L (fent C 2 0) in let theta := m_atan2 L (fent C 2 1) (fent C 2 2) in let psi := m_atan2 L (fent C 1 0) (fent C 0 0) in
  mkF3 theta (fneg phi) psi.
(** C2rph (189-214), both overloads *)
Definition fC2rph (L : lib2) (C : FM3) : F3 :=
  mkF3 (m_atan2 L (fneg (fent C 2 1)) (fent C 2 2)) (m_asin L (fent C 2 0)) (m_atan2 L (fneg (fent C 1 0)) (fent C 0 0)).
(** EulerAnglesZYX (37-49) *)
Definition fzyx_params (L : lib2) (C : FM3) : F3 :=
  let phi := m_asin L (fent C 2 0) in let theta := m_atan2 L (fent C 2 1) (fent C 2 2) in let psi := m_atan2 L (fent C 1 0) (fent C 0 0) in
  mkF3 (fneg psi) phi (fneg theta).
(** EulerAnglesYawPitchRoll (37-49) *)
Definition fypr_params (L : lib2) (C : FM3) : F3 :=
  let phi := m_asin L (fneg (fent C 2 0)) in let theta := m_atan2 L (fent C 2 1) (fent C 2 2) in let psi := m_atan2 L (fent C 1 0) (fent C 0 0) in
  mkF3 psi phi theta.
(** EulerAnglesZXY (67-74) *)
Definition fzxy_params (L : lib2) (C : FM3) : F3 :=
  let sx := fent C 2 1 in let r_x := m_asin L sx in let r_y := m_atan2 L (fneg (fent C 2 0)) (fent C 2 2) in let r_z := m_atan2 L (fneg (fent C 0 1)) (fent C 1 1) in
  mkF3 r_z r_x r_y.
(** std::min(a, b) = b < a ? b : a;  std::max(a, b) = a < b ? b : a *)
Definition fmin (a b : f64) : f64 := if fltb b a then b else a.
Definition fmax (a b : f64) : f64 := if fltb a b then b else a.
Definition fzero3 : F3 := mkF3 fzero fzero fzero.
(** (C(0,0) + C(1,1) + C(2,2) - 1.0) * 0.5 *)
Definition ftrace (C : FM3) : f64 := fmul (fsub (fadd (fadd (fent C 0 0) (fent C 1 1)) (fent C 2 2)) fone) fhalf.
Definition fskew (C : FM3) : F3 := mkF3 (fsub (fent C 2 1) (fent C 1 2)) (fsub (fent C 0 2) (fent C 2 0)) (fsub (fent C 1 0) (fent C 0 1)).
(** RotationVector (57-80) *)
Definition frv_params (L : lib2) (C : FM3) : F3 :=
  let tr := fmax (fneg fone) (fmin (ftrace C) fone) in
  let a := m_acos L tr in
  if fltb (fabs a) f1em14 then fzero3
  else let p := fskew C in let n2 := fnorm3 (base L) p in
       if fltb (fabs n2) f1em14 then fzero3 else let scale := fdiv (fneg a) n2 in fscale3 scale p.
(** EulerRodriguez (27-51): no truncation *)
Definition fer_params (L : lib2) (C : FM3) : F3 :=
  let a := m_acos L (ftrace C) in
  if fltb (fabs a) f1em14 then fzero3
  else let p := fskew C in let n2 := fnorm3 (base L) p in
       if fltb n2 f1em14 then fzero3 else let scale := fdiv (fneg (m_tan L (fmul fhalf a))) n2 in fscale3 scale p.
