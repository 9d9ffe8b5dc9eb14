(** Model of the functions that build a rotation matrix from parameters (sm_kinematics/src/rotations.cpp 11-62, 97-133, 155-187; parametersToRotationMatrix of
    EulerAnglesZYX.cpp 12-35, EulerAnglesYawPitchRoll.cpp 12-35, EulerAnglesZXY.cpp 51-65, RotationVector.cpp 10-55, EulerRodriguez.cpp 11-25) in binary64, operation by
    operation in the order of the C++ expressions (left to right, unary minus first).  Same simplifications as in Kin_Float_Model and Kin_FloatExp_Model. *)
From Verif Require Export Kin_FloatExp_Model.
Open Scope Z_scope.

Definition fone : f64 := fofZ 1.
Definition fm3 (a b c d e f g h i : f64) : FM3 := mkFM3 (mkF3 a b c) (mkF3 d e f) (mkF3 g h i).
Definition fidentity : FM3 := fm3 fone fzero fzero fzero fone fzero fzero fzero fone.
(** Rx, Ry, Rz (rotations.cpp 11-41), Cx, Cy, Cz (155-166) *)
Definition fRx (L : lib) (a : f64) : FM3 := let c := m_cos L a in let s := m_sin L a in fm3 fone fzero fzero fzero c (fneg s) fzero s c.
Definition fRy (L : lib) (a : f64) : FM3 := let c := m_cos L a in let s := m_sin L a in fm3 c fzero s fzero fone fzero (fneg s) fzero c.
Definition fRz (L : lib) (a : f64) : FM3 := let c := m_cos L a in let s := m_sin L a in fm3 c (fneg s) fzero s c fzero fzero fzero fone.
Definition fCx (L : lib) (a : f64) : FM3 := fRx L (fneg a).
Definition fCy (L : lib) (a : f64) : FM3 := fRy L (fneg a).
Definition fCz (L : lib) (a : f64) : FM3 := fRz L (fneg a).
(** the matrix at rotations.cpp 54-56, EulerAnglesZYX.cpp 24-27, EulerAnglesYawPitchRoll.cpp 24-27 *)
Definition fzyx_entries (cx sx cy sy cz sz : f64) : FM3 :=
  fm3 (fmul cz cy) (fadd (fmul (fneg sz) cx) (fmul (fmul cz sy) sx)) (fadd (fmul sz sx) (fmul (fmul cz sy) cx))
      (fmul sz cy) (fadd (fmul cz cx) (fmul (fmul sz sy) sx)) (fadd (fmul (fneg cz) sx) (fmul (fmul sz sy) cx))
      (fneg sy) (fmul cy sx) (fmul cy cx).
(** rph2R (43-62), rph2C (168-187) *)
Definition frph2R (L : lib) (x y z : f64) : FM3 := fzyx_entries (m_cos L x) (m_sin L x) (m_cos L y) (m_sin L y) (m_cos L z) (m_sin L z).
Definition frph2C (L : lib) (x y z : f64) : FM3 := frph2R L (fneg x) (fneg y) (fneg z).
(** parametersToRotationMatrix of EulerAnglesZYX, EulerAnglesYawPitchRoll *)
Definition fzyx_C (L : lib) (p : F3) : FM3 :=
  fzyx_entries (m_cos L (fneg (fz p))) (m_sin L (fneg (fz p))) (m_cos L (fneg (fy p))) (m_sin L (fneg (fy p))) (m_cos L (fneg (fx p))) (m_sin L (fneg (fx p))).
Definition fypr_C (L : lib) (p : F3) : FM3 := fzyx_entries (m_cos L (fz p)) (m_sin L (fz p)) (m_cos L (fy p)) (m_sin L (fy p)) (m_cos L (fx p)) (m_sin L (fx p)).
(** parametersToRotationMatrix of EulerAnglesZXY (51-65) *)
Definition fzxy_C (L : lib) (p : F3) : FM3 :=
  let cx := m_cos L (fy p) in let sx := m_sin L (fy p) in let cy := m_cos L (fz p) in let sy := m_sin L (fz p) in let cz := m_cos L (fx p) in let sz := m_sin L (fx p) in
  fm3 (fsub (fmul cz cy) (fmul (fmul sz sx) sy)) (fmul (fneg sz) cx) (fadd (fmul cz sy) (fmul (fmul sz sx) cy))
      (fadd (fmul sz cy) (fmul (fmul cz sx) sy)) (fmul cz cx) (fsub (fmul sz sy) (fmul (fmul cz sx) cy))
      (fmul (fneg cx) sy) sx (fmul cx cy).
(** the matrix at rotations.cpp 114-117 and RotationVector.cpp 40-43 *)
Definition faa_entries (ax ay az sa ca : f64) : FM3 :=
  let ax2 := fmul ax ax in let ay2 := fmul ay ay in let az2 := fmul az az in
  let d a2 := fadd a2 (fmul ca (fsub fone a2)) in
  let o a b := fsub (fmul a b) (fmul (fmul ca a) b) in
  fm3 (d ax2) (fadd (o ax ay) (fmul sa az)) (fsub (o ax az) (fmul sa ay))
      (fsub (o ax ay) (fmul sa az)) (d ay2) (fadd (o ay az) (fmul sa ax))
      (fadd (o ax az) (fmul sa ay)) (fsub (o ay az) (fmul sa ax)) (d az2).
(** the constants 1e-12 and 1e-14 (the literals correctly rounded) *)
Definition f1em12 : f64 := fdec 1 12.
Definition f1em14 : f64 := fdec 1 14.
(** axisAngle2R(a, ax, ay, az) (97-120) *)
Definition faxisAngle2R4 (L : lib) (a ax ay az : f64) : FM3 :=
  if fltb a f1em12 then fidentity else faa_entries ax ay az (m_sin L a) (m_cos L a).
(** axisAngle2R(x, y, z) (121-133): the squares are added left to right, whatever the order of Eigen's norm() *)
Definition faxisAngle2R (L : lib) (p : F3) : FM3 :=
  let a := fsqrt (fadd (fadd (fmul (fx p) (fx p)) (fmul (fy p) (fy p))) (fmul (fz p) (fz p))) in
  if fltb a f1em12 then fidentity
  else let d := fdiv fone a in faxisAngle2R4 L a (fmul (fx p) d) (fmul (fy p) d) (fmul (fz p) d).
(** RotationVector::parametersToRotationMatrix (10-55) *)
Definition frv_C (L : lib) (p : F3) : FM3 :=
  let a := fnorm3 L p in
  if fltb a f1em14 then fidentity
  else let ra := fdiv fone a in faa_entries (fmul (fx p) ra) (fmul (fy p) ra) (fmul (fz p) ra) (m_sin L a) (m_cos L a).
(** EulerRodriguez::parametersToRotationMatrix (11-25).  crossMx(p) has the entries 0, -z, y, ...; the product crossp * crossp is evaluated first (an Eigen
    product nested in a sum); each of its coefficients is a sum of three products of which at least one (off the diagonal: two) is a signed zero, so that the
    order of Eigen's sum does not matter and the zero terms are left out here (they could only change the sign of a zero).  Then coefficient by coefficient
    I + s * (cc - crossp). *)
Definition fdot3 (L : lib) (a : F3) : f64 := fsum_tree (fun i => fmul (fat3 a i) (fat3 a i)) (order3 L).
Definition fer_C (L : lib) (p : F3) : FM3 :=
  let x := fx p in let y := fy p in let z := fz p in
  let s := fdiv (fofZ 2) (fadd fone (fdot3 L p)) in
  let e i cc c := fadd i (fmul s (fsub cc c)) in
  let dg a b := fadd (fmul (fneg a) a) (fmul b (fneg b)) in
  fm3 (e fone (dg z y) fzero) (e fzero (fmul y x) (fneg z)) (e fzero (fmul z x) y)
      (e fzero (fmul x y) z) (e fone (dg z x) fzero) (e fzero (fmul z y) (fneg x))
      (e fzero (fmul x z) (fneg y)) (e fzero (fmul y z) x) (e fone (dg y x) fzero).
