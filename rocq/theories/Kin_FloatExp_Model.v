(** Model of axisAngle2quat, updateQuat (sm_kinematics/src/quaternion_algebra.cpp 10-14, 200-221, 302-318) and of Transformation::oplus
    (Transformation.cpp 137-141) in binary64, operation by operation.  Same simplifications as in Kin_Float_Model.  sin and cos of the C library
    are parameters; the order in which Eigen adds the three squares of norm() is a parameter; pow(2^-52, 1.0/4.0) is taken to be exactly 2^-13. *)
From Verif Require Export Kin_Float_Model.
From Coq Require Import List Permutation.
Import ListNotations.

(** what the C library and Eigen leave open *)
Record lib := mkLib { m_sin : f64 -> f64; m_cos : f64 -> f64; order3 : stree }.
Definition fat3 (a : F3) (i : nat) : f64 := match i with O => fx a | S O => fy a | _ => fz a end.
(** Eigen's norm() of a Vector3d *)
Definition fnorm3 (L : lib) (a : F3) : f64 := fsqrt (fsum_tree (fun i => fmul (fat3 a i) (fat3 a i)) (order3 L)).
(** epsilon4thRoot (10-14), one_over_48 = 1.0/48.0 (212) *)
Definition feps4 : f64 := flit 1 (-13).
Definition f48 : f64 := fdiv (fofZ 1) (fofZ 48).
(** axisAngle2quat (200-221) *)
Definition faxisAngle2quat (L : lib) (a : F3) : F4 :=
  let theta := fnorm3 L a in
  let na := if fltb theta feps4 then fadd fhalf (fmul (fmul theta theta) f48) else fdiv (m_sin L (fmul theta fhalf)) theta in
  mkF4 (fmul (fx a) na) (fmul (fy a) na) (fmul (fz a) na) (m_cos L (fmul theta fhalf)).
(** updateQuat (302-318) *)
Definition fupdateQuat (L : lib) (q : F4) (dq : F3) : F4 :=
  let d := faxisAngle2quat L dq in let ca := f3 d in
  mkF4 (fadd (fsub (fadd (fmul (f0 q) ca) (fmul (f0 d) (f3 q))) (fmul (f1 d) (f2 q))) (fmul (f2 d) (f1 q)))
       (fsub (fadd (fadd (fmul (f1 q) ca) (fmul (f0 d) (f2 q))) (fmul (f1 d) (f3 q))) (fmul (f2 d) (f0 q)))
       (fadd (fadd (fsub (fmul (f2 q) ca) (fmul (f0 d) (f1 q))) (fmul (f1 d) (f0 q))) (fmul (f2 d) (f3 q)))
       (fsub (fsub (fsub (fmul (f3 q) ca) (fmul (f0 d) (f0 q))) (fmul (f1 d) (f1 q))) (fmul (f2 d) (f2 q))).
(** Transformation::oplus (137-141): dt = (translation, rotation) *)
Definition ft_oplus (L : lib) (x : ftrafo) (dt dr : F3) : ftrafo := FT (fupdateQuat L (fq x) dr) (fadd3 (ft x) dt).
