(** sm_kinematics/src/EulerRodriguez.cpp 62-90 in binary64: the derivative of the angular velocity with respect to the parameters.
    Simplifications: the zero entries of crossMx take part in the sums of crossp * pdot and f * crossMx(pdot), as in Eigen; -p[i] is exact;
    [o] is the order in which Eigen sums the three terms of crossp * pdot, one for each row (it may differ from that of S * pdot). *)
From Verif Require Import Float64 Kin_Float_Model Kin_FloatR_Model Kin_FloatExp_Model Kin_FloatMat_Model Kin_FloatS_Model.

(** crossMx (rotations.cpp 79-86) *)
Definition fcrossMx (v : F3) : FM3 := fm3 fzero (fneg (fz v)) (fy v) (fz v) fzero (fneg (fx v)) (fneg (fy v)) (fx v) fzero.
(** Jacobian->block(0,0,3,3) (77-82): pdot * a^T - crossp * pdot * a^T + f * crossMx(pdot), a = ((-4.0 * rd) * rd) * p *)
Definition fer_dp (L : lib) (o : nat -> stree) (p pdot : F3) : FM3 :=
  let rd := fdiv fone (fadd fone (fdot3 L p)) in
  let f := fmul (fofZ 2) rd in
  let c := fmul (fmul (fofZ (-4)) rd) rd in
  let a := mkF3 (fmul c (fx p)) (fmul c (fy p)) (fmul c (fz p)) in
  let X := fcrossMx p in
  let v := mkF3 (frowdot (o 0%nat) (fr0 X) pdot) (frowdot (o 1%nat) (fr1 X) pdot) (frowdot (o 2%nat) (fr2 X) pdot) in
  let D := fcrossMx pdot in
  let e q w b x := fadd (fsub (fmul q b) (fmul w b)) (fmul f x) in
  let row q w r := mkF3 (e q w (fx a) (fx r)) (e q w (fy a) (fy r)) (e q w (fz a) (fz r)) in
  mkFM3 (row (fx pdot) (fx v) (fr0 D)) (row (fy pdot) (fy v) (fr1 D)) (row (fz pdot) (fz v) (fr2 D)).
