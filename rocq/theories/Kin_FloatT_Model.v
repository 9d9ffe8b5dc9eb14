(** Model of sm_kinematics/src/transformations.cpp (6-122) in binary64, operation by operation: 4x4 transformation matrices as their blocks (FM4 of
    Kin_FloatR_Model).  Same simplifications as in Kin_Float_Model; the order in which Eigen sumorder the products of a matrix-vector product is a
    parameter (any tree over the three or four products). *)
From Coq Require Import List.
From Verif Require Export Kin_FloatParam_Model Kin_FloatR_Model.
Import ListNotations.
Open Scope Z_scope.

(** the orders of summation of three and of four products *)
Record sumorder := mkSumOrder { by3 : stree; by4 : stree }.
Definition sums_ok (o : sumorder) : Prop := Permutation.Permutation (leaves (by3 o)) [0; 1; 2]%nat /\ Permutation.Permutation (leaves (by4 o)) [0; 1; 2; 3]%nat.
Definition fdot_3 (o : sumorder) (a b : F3) : f64 := fsum_tree (fun i => fmul (fat3 a i) (fat3 b i)) (by3 o).
Definition fdot_4 (o : sumorder) (a b : F4) : f64 := fsum_tree (fun i => fmul (fat4 a i) (fat4 b i)) (by4 o).
Definition bottom : F4 := mkF4 fzero fzero fzero (fofZ 1).
Definition ftranspose (A : FM3) : FM3 :=
  mkFM3 (mkF3 (fx (fr0 A)) (fx (fr1 A)) (fx (fr2 A))) (mkF3 (fy (fr0 A)) (fy (fr1 A)) (fy (fr2 A))) (mkF3 (fz (fr0 A)) (fz (fr1 A)) (fz (fr2 A))).
(** rt2Transform (6-17), transform2C (19-22), transform2rho (24-27), transform2rhoHomogeneous (29-32) *)
Definition frt2Transform (C : FM3) (rho : F3) : FM4 := mkFM4 C rho bottom.
Definition ftransform2C (T : FM4) : FM3 := fC T.
Definition ftransform2rho (T : FM4) : F3 := ftr T.
Definition ftransform2rhoHomogeneous (T : FM4) : F4 := mkF4 (fx (ftr T)) (fy (ftr T)) (fz (ftr T)) (f3 (fbot T)).
(** boxMinus (45-53): the four rows *)
Definition fboxMinus (p : F4) : list (list f64) :=
  [[f3 p; fzero; fzero; fzero; fneg (f2 p); f1 p]; [fzero; f3 p; fzero; f2 p; fzero; fneg (f0 p)];
   [fzero; fzero; f3 p; fneg (f1 p); f0 p; fzero]; [fzero; fzero; fzero; fzero; fzero; fzero]].
(** inverseTransform (55-66): the product is of the negated matrix and the vector *)
Definition finverseTransform (o : sumorder) (T : FM4) : FM4 :=
  let C := ftranspose (fC T) in
  mkFM4 C (mkF3 (fdot_3 o (fneg3 (fr0 C)) (ftr T)) (fdot_3 o (fneg3 (fr1 C)) (ftr T)) (fdot_3 o (fneg3 (fr2 C)) (ftr T))) bottom.
(** fromTEuler (68-74): translation and angles *)
Definition ffromTEuler (L : lib2) (T : FM4) : F3 * F3 := (ftr T, fneg3 (fR2rph L (fC T))).
(** toTEuler of a column (76-86), of six numbers (88-101) *)
Definition ftoTEuler (L : lib2) (t a : F3) : FM4 := mkFM4 (frph2R (base L) (fneg (fx a)) (fneg (fy a)) (fneg (fz a))) t bottom.
Definition ftoTEuler6 (L : lib2) (x y z r p h : f64) : FM4 := mkFM4 (frph2R (base L) (fneg r) (fneg p) (fneg h)) (mkF3 x y z) bottom.
(** T * v *)
Definition frow (a : F3) (t : f64) : F4 := mkF4 (fx a) (fy a) (fz a) t.
Definition fTv (o : sumorder) (T : FM4) (v : F4) : F4 :=
  mkF4 (fdot_4 o (frow (fr0 (fC T)) (fx (ftr T))) v) (fdot_4 o (frow (fr1 (fC T)) (fy (ftr T))) v) (fdot_4 o (frow (fr2 (fC T)) (fz (ftr T))) v) (fdot_4 o (fbot T) v).
(** transformationAndJacobian (103-112) *)
Definition ftransformationAndJacobian (o : sumorder) (T : FM4) (v : F4) : F4 * list (list f64) := let a := fTv o T v in (a, fboxMinus a).
(** inverseTransformationAndJacobian (114-131): the point, and the two 3x3 halves of the Jacobian above a row of zeros; crossMx(v) (rotations.cpp) by
    its columns (0, z, -y), (-z, 0, x), (y, -x, 0) *)
Definition finverseTransformationAndJacobian (o : sumorder) (T : FM4) (v : F4) : F4 * (FM3 * FM3) :=
  let Ti := finverseTransform o T in let C := fC Ti in let w := fneg (f3 v) in
  let c0 := mkF3 fzero (f2 v) (fneg (f1 v)) in let c1 := mkF3 (fneg (f2 v)) fzero (f0 v) in let c2 := mkF3 (f1 v) (fneg (f0 v)) fzero in
  let row r := mkF3 (fdot_3 o (fneg3 r) c0) (fdot_3 o (fneg3 r) c1) (fdot_3 o (fneg3 r) c2) in
  (fTv o Ti v, (mkFM3 (fscale3 w (fr0 C)) (fscale3 w (fr1 C)) (fscale3 w (fr2 C)), mkFM3 (row (fr0 C)) (row (fr1 C)) (row (fr2 C)))).
