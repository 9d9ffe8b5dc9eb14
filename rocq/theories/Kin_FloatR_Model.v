(** Model of r2quat and of the transformations built from a matrix (sm_kinematics/src/quaternion_algebra.cpp 17-75,
    Transformation.cpp 24-29, 57-61, 63-73) in binary64, operation by operation.  Same simplifications as in Kin_Float_Model. *)
From Verif Require Export Kin_Float_Model.
Open Scope Z_scope.

Definition fquarter : f64 := flit 1 (-2).
(** r2quat (17-75), by columns: c1 = R(0,0), c2 = R(1,0), c3 = R(2,0), c4 = R(0,1), ... *)
Definition fr2quat (M : FM3) : F4 :=
  let c1 := fx (fr0 M) in let c2 := fx (fr1 M) in let c3 := fx (fr2 M) in
  let c4 := fy (fr0 M) in let c5 := fy (fr1 M) in let c6 := fy (fr2 M) in
  let c7 := fz (fr0 M) in let c8 := fz (fr1 M) in let c9 := fz (fr2 M) in
  let one := fofZ 1 in
  let d0 := fabs (fsub (fsub (fadd one c1) c5) c9) in let d1 := fabs (fsub (fadd (fsub one c1) c5) c9) in
  let d2 := fabs (fadd (fsub (fsub one c1) c5) c9) in let d3 := fabs (fadd (fadd (fadd one c1) c5) c9) in
  (* 34-42: dc(i) > maxqval *)
  let '(m1, v1) := if fltb d0 d1 then (1%nat, d1) else (0%nat, d0) in
  let '(m2, v2) := if fltb v1 d2 then (2%nat, d2) else (m1, v1) in
  let '(m3, v3) := if fltb v2 d3 then (3%nat, d3) else (m2, v2) in
  let q := match m3 with
           | O => let x := fmul fhalf (fsqrt d0) in let c := fdiv fquarter x in mkF4 x (fmul c (fadd c4 c2)) (fmul c (fadd c7 c3)) (fmul c (fsub c8 c6))
           | S O => let x := fmul fhalf (fsqrt d1) in let c := fdiv fquarter x in mkF4 (fmul c (fadd c4 c2)) x (fmul c (fadd c6 c8)) (fmul c (fsub c3 c7))
           | S (S O) => let x := fmul fhalf (fsqrt d2) in let c := fdiv fquarter x in mkF4 (fmul c (fadd c3 c7)) (fmul c (fadd c6 c8)) x (fmul c (fsub c4 c2))
           | _ => let x := fmul fhalf (fsqrt d3) in let c := fdiv fquarter x in mkF4 (fmul c (fsub c8 c6)) (fmul c (fsub c3 c7)) (fmul c (fsub c4 c2)) x
           end in
  (* 71-72 *)
  if fltb (f3 q) fzero then mkF4 (fneg (f0 q)) (fneg (f1 q)) (fneg (f2 q)) (fneg (f3 q)) else q.

(** a 4x4 matrix, as the rotation block, the translation column and the bottom row *)
Record FM4 := mkFM4 { fC : FM3; ftr : F3; fbot : F4 }.
(** Transformation(T) (24-29), set(T) (57-61): the bottom row is not looked at; no normalisation *)
Definition ft_of_T (T : FM4) : ftrafo := FT (fr2quat (fC T)) (ftr T).
Definition ft_set (x : ftrafo) (T : FM4) : ftrafo := FT (fr2quat (fC T)) (ftr T).
(** T() (63-73): the rotation block, the translation, three zeros and 1.0 *)
Definition ft_T (x : ftrafo) : FM4 := mkFM4 (fquat2r (fq x)) (ft x) (mkF4 fzero fzero fzero (fofZ 1)).
