(** Model of the Jacobians of homogeneous points in binary64, operation by operation: HomogeneousPoint::toHomogeneousAndJacobian and toEuclideanAndJacobian
    (sm_kinematics/src/HomogeneousPoint.cpp 140-188), fromHomogeneous with its Jacobian (src/homogeneous_coordinates.cpp 20-41).
    Same simplifications as in Kin_Float_Model; the order in which Eigen sums the four products of each entry of Je * Jh is a parameter,
    one order per entry.  The zero entries of Identity() * recip_p3 take part in the sums, as in Eigen. *)
From Verif Require Export Kin_FloatHom_Model Kin_FloatR_Model Kin_FloatMat_Model.
Open Scope Z_scope.

(** 4x3 and 3x4 matrices of doubles, by rows *)
Record F43 := mkF43 { w0 : F3; w1 : F3; w2 : F3; w3 : F3 }.
Record F34 := mkF34 { z0 : F4; z1 : F4; z2 : F4 }.
Definition row43 (M : F43) (i : nat) : F3 := match i with 0 => w0 M | 1 => w1 M | 2 => w2 M | _ => w3 M end%nat.
Definition row34 (M : F34) (i : nat) : F4 := match i with 0 => z0 M | 1 => z1 M | _ => z2 M end%nat.
(** toHomogeneousAndJacobian (161-188): the entries, then J *= 0.5 *)
Definition fhp_toHomogeneousJ (p : F4) : F43 :=
  let h x := fmul x fhalf in
  mkF43 (mkF3 (h (f3 p)) (h (fneg (f2 p))) (h (f1 p))) (mkF3 (h (f2 p)) (h (f3 p)) (h (fneg (f0 p))))
        (mkF3 (h (fneg (f1 p))) (h (f0 p)) (h (f3 p))) (mkF3 (h (fneg (f0 p))) (h (fneg (f1 p))) (h (fneg (f2 p)))).
(** Je.topRightCorner = -v3 * recip_p3, Je.topLeftCorner = Identity * recip_p3 (149-151); jacobian (homogeneous_coordinates.cpp 37-38) *)
Definition fread_jacobian (v : F3) (r : f64) : F34 :=
  let one := fmul fone r in let nil := fmul fzero r in
  mkF34 (mkF4 one nil nil (fmul (fneg (fx v)) r)) (mkF4 nil one nil (fmul (fneg (fy v)) r)) (mkF4 nil nil one (fmul (fneg (fz v)) r)).
(** fromHomogeneous (homogeneous_coordinates.cpp 29-41) with the Jacobian, fromHomogeneousJacobian (20-27) *)
Definition ffromHomogeneous (p : F4) : F3 * F34 := let v := fhp_toEuclidean p in (v, fread_jacobian v (fdiv fone (f3 p))).
(** one entry of a product of a 3x4 and a 4x3 matrix *)
Definition fentry (o : stree) (A : F34) (B : F43) (i j : nat) : f64 := fsum_tree (fun k => fmul (fat4 (row34 A i) k) (fat3 (row43 B k) j)) o.
(** toEuclideanAndJacobian (141-155) *)
Definition fhp_toEuclideanAndJacobian (o : nat -> nat -> stree) (p : F4) : F3 * FM3 :=
  let v := fhp_toEuclidean p in let Je := fread_jacobian v (fdiv fone (f3 p)) in let Jh := fhp_toHomogeneousJ p in
  let e i j := fentry (o i j) Je Jh i j in
  (v, fm3 (e 0 0) (e 0 1) (e 0 2) (e 1 0) (e 1 1) (e 1 2) (e 2 0) (e 2 1) (e 2 2))%nat.
