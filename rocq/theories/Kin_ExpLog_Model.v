(** Model of the Jacobians of the quaternion exponential and logarithm: sm_kinematics/src/quaternion_algebra.cpp 416-533, in exact real
    arithmetic (the double instantiations). *)
From Coq Require Import Reals.
From Verif Require Import LinAlg Kin_Rot_Model Kin_Quat_Model.
Open Scope R_scope.

(** quatV (457-463): half the first three columns of the identity *)
Definition quatV : mat43 := M43 (V3 (1 / 2) 0 0) (V3 0 (1 / 2) 0) (V3 0 0 (1 / 2)) (V3 0 0 0).
Definition colOf43 (M : mat43) (j : nat) : vec4 := V4 (at3 (s0 M) j) (at3 (s1 M) j) (at3 (s2 M) j) (at3 (s3 M) j).
Definition mm4_43 (A : mat4) (M : mat43) : mat43 :=
  let row r := V3 (dot4 r (colOf43 M 0)) (dot4 r (colOf43 M 1)) (dot4 r (colOf43 M 2)) in M43 (row (r40 A)) (row (r41 A)) (row (r42 A)) (row (r43 A)).
Definition mm43_33 (M : mat43) (N : mat3) : mat43 := M43 (rowmul3 (s0 M) N) (rowmul3 (s1 M) N) (rowmul3 (s2 M) N) (rowmul3 (s3 M) N).
Definition tr43 (M : mat43) : mat34 := M34 (colOf43 M 0) (colOf43 M 1) (colOf43 M 2).
Definition mscale34 (k : R) (M : mat34) : mat34 := M34 (scale4 k (u0 M)) (scale4 k (u1 M)) (scale4 k (u2 M)).
Definition colOf34 (M : mat34) (j : nat) : vec3 := V3 (at4 (u0 M) j) (at4 (u1 M) j) (at4 (u2 M) j).
Definition mm3_34 (N : mat3) (M : mat34) : mat34 :=
  let row r := V4 (dot3 r (colOf34 M 0)) (dot3 r (colOf34 M 1)) (dot3 r (colOf34 M 2)) (dot3 r (colOf34 M 3)) in M34 (row (r30 N)) (row (r31 N)) (row (r32 N)).
Definition mm34_44 (M : mat34) (A : mat4) : mat34 := M34 (rowmul4 (u0 M) A) (rowmul4 (u1 M) A) (rowmul4 (u2 M) A).

(** expDiffMat (466-491): 24/2 and 120/6 are integer divisions without remainder *)
Definition expDiffMat (v : vec3) : mat3 :=
  let phi := norm3 v in
  if Req_EM_T phi 0 then I3
  else
    let X := crossMx v in
    let '(a, b) := if negb (small (Rabs phi)) then
                     (2 * sin (phi / 2) * sin (phi / 2) / (phi * phi), (1 - sin phi / phi) / (phi * phi))
                   else (1 / 2 * (1 - 1 / 12 * (phi * phi)), 1 / 6 * (1 - 1 / 20 * (phi * phi))) in
    madd3 (msub3 I3 (mscale3 a X)) (mm3 (mscale3 b X) X).
(** quatExpJacobian (495-500) *)
Definition quatExpJacobian (v : vec3) : mat43 := mm43_33 (mm4_43 (quatOPlus (axisAngle2quat v)) quatV) (expDiffMat v).
(** logDiffMat (502-521); the quotient by tan(phi/2) is written cos/sin: the same wherever tan is defined, and 0 where it has its poles (between
    doubles).  None where tan(phi/2) = 0: a division by zero. *)
Definition logDiffMat (v : vec3) : option mat3 :=
  let phi := norm3 v in
  if Req_EM_T phi 0 then Some I3
  else
    let X := crossMx v in
    let res a := Some (madd3 (madd3 I3 (mscale3 (1 / 2) X)) (mm3 (mscale3 a X) X)) in
    if negb (small (Rabs phi)) then
      let h := 1 / 2 * phi in
      if Req_EM_T (sin h) 0 then None else res ((1 - h * cos h / sin h) / phi / phi)
    else res (1 / 12 * (1 + 1 / 60 * phi * phi)).
(** quatLogJacobian2 (525-528); None where the logarithm or its differential has no value *)
Definition quatLogJacobian2 (p : vec4) : option mat34 :=
  match quat2AxisAngle p with
  | None => None
  | Some v => match logDiffMat v with
              | None => None
              | Some L => Some (mm34_44 (mm3_34 L (mscale34 4 (tr43 quatV))) (quatOPlus (quatInv p)))
              end
  end.
(** quatLogJacobian (416-455); None where it divides by zero or acos has no value *)
Definition quatLogJacobian (p : vec4) : option mat34 :=
  let n := norm3 (qeps p) in
  if Req_EM_T n 0 then None
  else if Rlt_dec (Rabs (e3 p)) 1 then
    let de := n * n * n in
    let u12 := e1 p * e1 p + e2 p * e2 p in
    let u02 := e0 p * e0 p + e2 p * e2 p in
    let u01 := e0 p * e0 p + e1 p * e1 p in
    let a := acos (e3 p) in
    let uw := sqrt (- (e3 p * e3 p - 1) * n * n) in
    Some (M34 (V4 (2 * a * u12 / de) (-2 * a * e1 p * e0 p / de) (-2 * a * e2 p * e0 p / de) (-2 * e0 p / uw))
              (V4 (-2 * a * e0 p * e1 p / de) (2 * a * u02 / de) (-2 * a * e1 p * e2 p / de) (-2 * e1 p / uw))
              (V4 (-2 * a * e0 p * e2 p / de) (-2 * a * e1 p * e2 p / de) (2 * a * u01 / de) (-2 * e2 p / uw)))
  else None.
