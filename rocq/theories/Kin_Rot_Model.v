(** Model of sm_kinematics/src/rotations.cpp and of the rotation parametrisations (EulerAnglesZYX, EulerAnglesYawPitchRoll, EulerAnglesZXY,
    EulerRodriguez, RotationVector) in exact real arithmetic.  The constants 1e-12, 1e-14 and SM_2PI stand for the real numbers they denote
    (2 pi for the last).  Not modelled here: rounding (see Kin_FloatMat_Model), R2AxisAngle (it is Eigen's AngleAxis), deg2rad, rad2deg (see Kin_Angle_Model). *)
From Verif Require Export LinAlg.
Open Scope R_scope.

(** ** rotations.cpp *)
(** Rx, Ry, Rz (11-41) *)
Definition Rx (a : R) : mat3 := let c := cos a in let s := sin a in m3 1 0 0 0 c (- s) 0 s c.
Definition Ry (a : R) : mat3 := let c := cos a in let s := sin a in m3 c 0 s 0 1 0 (- s) 0 c.
Definition Rz (a : R) : mat3 := let c := cos a in let s := sin a in m3 c (- s) 0 s c 0 0 0 1.
(** the matrix written out at 54-56, EulerAnglesZYX.cpp:24-27 and EulerAnglesYawPitchRoll.cpp:24-27 *)
Definition zyx_entries (cx sx cy sy cz sz : R) : mat3 :=
  m3 (cz * cy) (- sz * cx + cz * sy * sx) (sz * sx + cz * sy * cx)
     (sz * cy) (cz * cx + sz * sy * sx) (- cz * sx + sz * sy * cx)
     (- sy) (cy * sx) (cy * cx).
(** rph2R (43-62) *)
Definition rph2R (x y z : R) : mat3 := zyx_entries (cos x) (sin x) (cos y) (sin y) (cos z) (sin z).
(** atan2 of the C library on the reals; atan2(+-0, x<0) = +-pi is not distinguished (there is one zero, giving +pi) *)
Definition atan2 (y x : R) : R :=
  if Rlt_dec 0 x then atan (y / x)
  else if Rlt_dec x 0 then (if Rle_dec 0 y then atan (y / x) + PI else atan (y / x) - PI)
  else if Rlt_dec 0 y then PI / 2 else if Rlt_dec y 0 then - (PI / 2) else 0.
(** R2rph (64-75) *)
Definition R2rph (C : mat3) : vec3 :=
  let phi := asin (vx (r32 C)) in let theta := atan2 (vy (r32 C)) (vz (r32 C)) in let psi := atan2 (vx (r31 C)) (vx (r30 C)) in
  V3 theta (- phi) psi.
(** crossMx (79-86) *)
Definition crossMx (v : vec3) : mat3 := m3 0 (- vz v) (vy v) (vz v) 0 (- vx v) (- vy v) (vx v) 0.
(** the matrix written out at 114-117 and RotationVector.cpp:40-43 *)
Definition aa_entries (ax ay az sa ca : R) : mat3 :=
  m3 (ax * ax + ca * (1 - ax * ax)) (ax * ay - ca * ax * ay + sa * az) (ax * az - ca * ax * az - sa * ay)
     (ax * ay - ca * ax * ay - sa * az) (ay * ay + ca * (1 - ay * ay)) (ay * az - ca * ay * az + sa * ax)
     (ax * az - ca * ax * az + sa * ay) (ay * az - ca * ay * az - sa * ax) (az * az + ca * (1 - az * az)).
(** axisAngle2R(a, ax, ay, az) (97-120) *)
Definition axisAngle2R4 (a : R) (e : vec3) : mat3 := if Rlt_dec a (/ 10 ^ 12) then I3 else aa_entries (vx e) (vy e) (vz e) (sin a) (cos a).
(** axisAngle2R(x, y, z) (121-133) *)
Definition axisAngle2R (x : vec3) : mat3 :=
  let a := norm3 x in if Rlt_dec a (/ 10 ^ 12) then I3 else let d := 1 / a in axisAngle2R4 a (V3 (vx x * d) (vy x * d) (vz x * d)).
(** angleMod (144-146); boost::math::round rounds halves away from zero *)
Definition round_away (x : R) : R := if Rle_dec 0 x then IZR (Int_part (x + 1 / 2)) else - IZR (Int_part (- x + 1 / 2)).
Definition angleMod (r : R) : R := r - 2 * PI * round_away (r / (2 * PI)).
(** Cx, Cy, Cz, rph2C (155-187), C2rph (189-214) *)
Definition Cx a := Rx (- a).
Definition Cy a := Ry (- a).
Definition Cz a := Rz (- a).
Definition rph2C (x y z : R) : mat3 := rph2R (- x) (- y) (- z).
Definition C2rph (C : mat3) : vec3 := V3 (atan2 (- vy (r32 C)) (vz (r32 C))) (asin (vx (r32 C))) (atan2 (- vx (r31 C)) (vx (r30 C))).

(** ** the parametrisations; the Jacobian of angularVelocityAndJacobian is a pair of 3x3 blocks (d/dp, d/dpdot) *)
(** EulerAnglesZYX.cpp: parametersToRotationMatrix (12-35), rotationMatrixToParameters (37-49), buildSMatrix (60-69), parametersToSMatrix (51-58), angularVelocityAndJacobian (71-97) *)
Definition zyx_C (p : vec3) : mat3 := zyx_entries (cos (- vz p)) (sin (- vz p)) (cos (- vy p)) (sin (- vy p)) (cos (- vx p)) (sin (- vx p)).
Definition zyx_params (C : mat3) : vec3 :=
  let phi := asin (vx (r32 C)) in let theta := atan2 (vy (r32 C)) (vz (r32 C)) in let psi := atan2 (vx (r31 C)) (vx (r30 C)) in V3 (- psi) phi (- theta).
Definition zyx_buildS (sz cz sy cy : R) : mat3 := m3 0 (- sz) (cy * cz) 0 cz (cy * sz) 1 0 (- sy).
Definition zyx_S (p : vec3) : mat3 := zyx_buildS (sin (- vx p)) (cos (- vx p)) (sin (- vy p)) (cos (- vy p)).
Definition zyx_omega (p pdot : vec3) : vec3 := mv3 (zyx_S p) pdot.
Definition zyx_J (p pdot : vec3) : mat3 * mat3 :=
  let cy := cos (- vy p) in let sy := sin (- vy p) in let cz := cos (- vx p) in let sz := sin (- vx p) in
  (m3 (cz * vy pdot + cy * sz * vz pdot) (cz * sy * vz pdot) 0
      (sz * vy pdot - cz * cy * vz pdot) (sz * sy * vz pdot) 0
      0 (cy * vz pdot) 0, zyx_buildS sz cz sy cy).
(** EulerAnglesYawPitchRoll.cpp: the same functions at the same lines *)
Definition ypr_C (p : vec3) : mat3 := zyx_entries (cos (vz p)) (sin (vz p)) (cos (vy p)) (sin (vy p)) (cos (vx p)) (sin (vx p)).
Definition ypr_params (C : mat3) : vec3 :=
  let phi := asin (- vx (r32 C)) in let theta := atan2 (vy (r32 C)) (vz (r32 C)) in let psi := atan2 (vx (r31 C)) (vx (r30 C)) in V3 psi phi theta.
Definition ypr_buildS (sz cz sy cy : R) : mat3 := m3 0 sz (- cy * cz) 0 (- cz) (- cy * sz) (-1) 0 sy.
Definition ypr_S (p : vec3) : mat3 := ypr_buildS (sin (vx p)) (cos (vx p)) (sin (vy p)) (cos (vy p)).
Definition ypr_omega (p pdot : vec3) : vec3 := mv3 (ypr_S p) pdot.
Definition ypr_J (p pdot : vec3) : mat3 * mat3 :=
  let cy := cos (vy p) in let sy := sin (vy p) in let cz := cos (vx p) in let sz := sin (vx p) in
  (m3 (cz * vy pdot + cy * sz * vz pdot) (cz * sy * vz pdot) 0
      (sz * vy pdot - cz * cy * vz pdot) (sz * sy * vz pdot) 0
      0 (cy * vz pdot) 0, ypr_buildS sz cz sy cy).
(** EulerAnglesZXY.cpp: parametersToRotationMatrix (51-65), rotationMatrixToParameters (67-74), parametersToSMatrix (76-86), angularVelocityAndJacobian (88-106) *)
Definition zxy_C (p : vec3) : mat3 :=
  let cx := cos (vy p) in let sx := sin (vy p) in let cy := cos (vz p) in let sy := sin (vz p) in let cz := cos (vx p) in let sz := sin (vx p) in
  m3 (cz * cy - sz * sx * sy) (- sz * cx) (cz * sy + sz * sx * cy)
     (sz * cy + cz * sx * sy) (cz * cx) (sz * sy - cz * sx * cy)
     (- cx * sy) sx (cx * cy).
Definition zxy_params (C : mat3) : vec3 :=
  let sx := vy (r32 C) in let r_x := asin sx in let r_y := atan2 (- vx (r32 C)) (vz (r32 C)) in let r_z := atan2 (- vy (r30 C)) (vy (r31 C)) in V3 r_z r_x r_y.
Definition zxy_S (p : vec3) : mat3 :=
  let cx := cos (vy p) in let sx := sin (vy p) in let cz := cos (vx p) in let sz := sin (vx p) in
  m3 0 (- cz) (cx * sz) 0 (- sz) (- cx * cz) (-1) 0 (- sx).
Definition zxy_omega (p pdot : vec3) : vec3 := mv3 (zxy_S p) pdot.
Definition zxy_J (p pdot : vec3) : mat3 * mat3 :=
  let cx := cos (vy p) in let sx := sin (vy p) in let cz := cos (vx p) in let sz := sin (vx p) in
  (m3 (sz * vy pdot + cx * cz * vz pdot) (- sx * sz * vz pdot) 0
      (- cz * vy pdot + cx * sz * vz pdot) (sx * cz * vz pdot) 0
      0 (- cx * vz pdot) 0, zxy_S p).
(** EulerRodriguez.cpp: parametersToRotationMatrix (11-25), rotationMatrixToParameters (27-51), parametersToSMatrix (53-60), angularVelocityAndJacobian (62-85) *)
Definition er_C (p : vec3) : mat3 := let X := crossMx p in madd3 I3 (mscale3 (2 / (1 + dot3 p p)) (msub3 (mm3 X X) X)).
Definition er_params (C : mat3) : vec3 :=
  let a := acos ((vx (r30 C) + vy (r31 C) + vz (r32 C) - 1) * (1 / 2)) in
  if Rlt_dec (Rabs a) (/ 10 ^ 14) then zero3
  else let p := V3 (vy (r32 C) - vz (r31 C)) (vz (r30 C) - vx (r32 C)) (vx (r31 C) - vy (r30 C)) in
       let n2 := norm3 p in
       if Rlt_dec n2 (/ 10 ^ 14) then zero3 else let scale := - tan (1 / 2 * a) / n2 in scale3 scale p.
Definition er_S (p : vec3) : mat3 := mscale3 (2 / (1 + dot3 p p)) (msub3 I3 (crossMx p)).
Definition er_omega (p pdot : vec3) : vec3 := let rd := 1 / (1 + dot3 p p) in let f := 2 * rd in mv3 (mscale3 f (msub3 I3 (crossMx p))) pdot.
Definition er_J (p pdot : vec3) : mat3 * mat3 :=
  let rd := 1 / (1 + dot3 p p) in let f := 2 * rd in let a := scale3 (-4 * rd * rd) p in
  (madd3 (msub3 (outer3 pdot a) (outer3 (mv3 (crossMx p) pdot) a)) (mscale3 f (crossMx pdot)), mscale3 f (msub3 I3 (crossMx p))).
(** RotationVector.cpp: parametersToRotationMatrix (10-55), rotationMatrixToParameters (57-80), parametersToSMatrix (82-106), angularVelocityAndJacobian (109-183), parametersToInverseSMatrix (186-201) *)
Definition rv_C (p : vec3) : mat3 :=
  let a := norm3 p in
  if Rlt_dec a (/ 10 ^ 14) then I3
  else let ra := 1 / a in aa_entries (vx p * ra) (vy p * ra) (vz p * ra) (sin a) (cos a).
Definition rv_params (C : mat3) : vec3 :=
  let tr := Rmax (-1) (Rmin ((vx (r30 C) + vy (r31 C) + vz (r32 C) - 1) * (1 / 2)) 1) in
  let a := acos tr in
  if Rlt_dec (Rabs a) (/ 10 ^ 14) then zero3
  else let p := V3 (vy (r32 C) - vz (r31 C)) (vz (r30 C) - vx (r32 C)) (vx (r31 C) - vy (r30 C)) in
       let n2 := norm3 p in
       if Rlt_dec (Rabs n2) (/ 10 ^ 14) then zero3 else let scale := - a / n2 in scale3 scale p.
Definition rv_S (p : vec3) : mat3 :=
  let a := norm3 p in
  if Rlt_dec a (/ 10 ^ 14) then I3
  else let ra := 1 / a in let A := crossMx (V3 (vx p * ra) (vy p * ra) (vz p * ra)) in
       let st2 := sin (a * (1 / 2)) in let st := sin a in
       let c1 := -2 * st2 * st2 * ra in let c2 := (a - st) * ra in
       madd3 (madd3 I3 (mscale3 c1 A)) (mm3 (mscale3 c2 A) A).
Definition rv_omega (p pdot : vec3) : vec3 := mv3 (rv_S p) pdot.
(** pow(t, 3/2) and pow(t, 5/2) for t >= 0 *)
Definition powR32 (t : R) : R := t * sqrt t.
Definition powR52 (t : R) : R := t * t * sqrt t.
(** the 3x3 block d omega / d p (124-176), for p <> 0 *)
Definition rv_J1 (p pdot : vec3) : mat3 :=
  let t1 := vx p in
  let t2 := vy p in
  let t3 := vz p in
  let dt1 := vx pdot in
  let dt2 := vy pdot in
  let dt3 := vz pdot in
  let t5 := t1 * t1 in
  let t6 := t2 * t2 in
  let t7 := t3 * t3 in
  let t8 := t5 + t6 + t7 in
  let t9 := powR32 t8 in
  let t10 := sqrt t8 in
  let t11 := sin t10 in
  let t12 := cos t10 in
  let t13 := t12 * (1 / 2) in
  let t14 := t13 - 1 / 2 in
  let t15 := 1 / powR52 t8 in
  let t16 := dt3 * t14 * t9 * 2 in
  let t17 := dt3 * t1 * t11 * t2 * t3 * 3 in
  let t18 := dt3 * t3 * t9 in
  let t19 := dt1 * t1 * t10 * t6 * 2 in
  let t20 := dt2 * t11 * t2 * t5 * 3 in
  let t21 := dt1 * t1 * t10 * t12 * t6 in
  let t22 := dt2 * t14 * t9 * 2 in
  let t23 := dt2 * t1 * t10 * t2 * t3 * 2 in
  let t24 := dt2 * t1 * t10 * t12 * t2 * t3 in
  let t25 := dt1 * t14 * t9 * 2 in
  let t26 := dt1 * t1 * t11 * t2 * t3 * 3 in
  let t27 := dt1 * t1 * t9 in
  let t28 := dt2 * t2 * t9 in
  let t29 := dt1 * t1 * t10 * t7 * 2 in
  let t30 := dt2 * t10 * t2 * t7 * 2 in
  let t31 := dt3 * t11 * t3 * t5 * 3 in
  let t32 := dt3 * t11 * t3 * t6 * 3 in
  let t33 := dt2 * t1 * t11 * t3 * t8 in
  let t34 := dt2 * t1 * t10 * t14 * t3 * 4 in
  let t35 := dt1 * t1 * t10 * t12 * t7 in
  let t36 := dt2 * t10 * t12 * t2 * t7 in
  let t0 := t15 * (t18 + t19 + t20 + t21 + t28 + t29 + t31 + t33 + t34 + t35 - dt1 * t1 * t11 * t6 * 3 - dt2 * t10 * t2 * t5 * 2 - dt1 * t1 * t11 * t7 * 3 - dt3 * t10 * t3 * t5 * 2 - dt2 * t11 * t2 * t8 - dt3 * t11 * t3 * t8 - dt3 * t1 * t10 * t14 * t2 * 4 - dt2 * t10 * t12 * t2 * t5 - dt3 * t10 * t12 * t3 * t5 - dt3 * t1 * t11 * t2 * t8) in
  m3 (t0) (t15 * (t16 + t17 + dt2 * t1 * t9 - dt1 * t2 * t9 * 2 - dt2 * t1 * t10 * t6 * 2 + dt2 * t1 * t11 * t6 * 3 - dt3 * t10 * t14 * t6 * 4 + dt1 * t10 * t2 * t6 * 2 - dt1 * t11 * t2 * t6 * 3 + dt1 * t10 * t2 * t7 * 2 - dt1 * t11 * t2 * t7 * 3 - dt2 * t1 * t11 * t8 + dt1 * t11 * t2 * t8 * 2 - dt3 * t11 * t6 * t8 - dt3 * t1 * t10 * t2 * t3 * 2 + dt2 * t10 * t14 * t2 * t3 * 4 - dt2 * t1 * t10 * t12 * t6 + dt1 * t10 * t12 * t2 * t6 + dt1 * t10 * t12 * t2 * t7 + dt2 * t11 * t2 * t3 * t8 - dt3 * t1 * t10 * t12 * t2 * t3)) (- t15 * (t22 + t23 + t24 - dt3 * t1 * t9 + dt1 * t3 * t9 * 2 + dt3 * t1 * t10 * t7 * 2 - dt3 * t1 * t11 * t7 * 3 - dt2 * t10 * t14 * t7 * 4 - dt1 * t10 * t3 * t6 * 2 + dt1 * t11 * t3 * t6 * 3 + dt3 * t1 * t11 * t8 - dt1 * t10 * t3 * t7 * 2 + dt1 * t11 * t3 * t7 * 3 - dt1 * t11 * t3 * t8 * 2 - dt2 * t11 * t7 * t8 - dt2 * t1 * t11 * t2 * t3 * 3 + dt3 * t10 * t14 * t2 * t3 * 4 + dt3 * t1 * t10 * t12 * t7 - dt1 * t10 * t12 * t3 * t6 - dt1 * t10 * t12 * t3 * t7 + dt3 * t11 * t2 * t3 * t8))
     (- t15 * (t16 - t17 + dt2 * t1 * t9 * 2 - dt1 * t2 * t9 - dt2 * t1 * t10 * t5 * 2 + dt2 * t1 * t11 * t5 * 3 - dt3 * t10 * t14 * t5 * 4 + dt1 * t10 * t2 * t5 * 2 - dt1 * t11 * t2 * t5 * 3 - dt2 * t1 * t10 * t7 * 2 + dt2 * t1 * t11 * t7 * 3 - dt2 * t1 * t11 * t8 * 2 + dt1 * t11 * t2 * t8 - dt3 * t11 * t5 * t8 + dt1 * t1 * t10 * t14 * t3 * 4 + dt3 * t1 * t10 * t2 * t3 * 2 - dt2 * t1 * t10 * t12 * t5 + dt1 * t10 * t12 * t2 * t5 - dt2 * t1 * t10 * t12 * t7 + dt1 * t1 * t11 * t3 * t8 + dt3 * t1 * t10 * t12 * t2 * t3)) (t15 * (t18 - t19 - t20 - t21 + t27 + t30 + t32 + t36 + dt1 * t1 * t11 * t6 * 3 + dt2 * t10 * t2 * t5 * 2 - dt1 * t1 * t11 * t8 - dt2 * t11 * t2 * t7 * 3 - dt3 * t10 * t3 * t6 * 2 - dt3 * t11 * t3 * t8 + dt3 * t1 * t10 * t14 * t2 * 4 - dt1 * t10 * t14 * t2 * t3 * 4 + dt2 * t10 * t12 * t2 * t5 - dt3 * t10 * t12 * t3 * t6 + dt3 * t1 * t11 * t2 * t8 - dt1 * t11 * t2 * t3 * t8)) (t15 * (t25 + t26 + dt3 * t2 * t9 - dt2 * t3 * t9 * 2 + dt2 * t10 * t3 * t5 * 2 - dt2 * t11 * t3 * t5 * 3 - dt1 * t10 * t14 * t7 * 4 - dt3 * t10 * t2 * t7 * 2 + dt3 * t11 * t2 * t7 * 3 + dt2 * t10 * t3 * t7 * 2 - dt2 * t11 * t3 * t7 * 3 - dt3 * t11 * t2 * t8 + dt2 * t11 * t3 * t8 * 2 - dt1 * t11 * t7 * t8 + dt3 * t1 * t10 * t14 * t3 * 4 - dt1 * t1 * t10 * t2 * t3 * 2 + dt2 * t10 * t12 * t3 * t5 - dt3 * t10 * t12 * t2 * t7 + dt2 * t10 * t12 * t3 * t7 + dt3 * t1 * t11 * t3 * t8 - dt1 * t1 * t10 * t12 * t2 * t3))
     (t15 * (t22 - t23 - t24 - dt3 * t1 * t9 * 2 + dt1 * t3 * t9 + dt3 * t1 * t10 * t5 * 2 - dt3 * t1 * t11 * t5 * 3 - dt2 * t10 * t14 * t5 * 4 + dt3 * t1 * t10 * t6 * 2 - dt3 * t1 * t11 * t6 * 3 - dt1 * t10 * t3 * t5 * 2 + dt1 * t11 * t3 * t5 * 3 + dt3 * t1 * t11 * t8 * 2 - dt1 * t11 * t3 * t8 - dt2 * t11 * t5 * t8 + dt1 * t1 * t10 * t14 * t2 * 4 + dt2 * t1 * t11 * t2 * t3 * 3 + dt3 * t1 * t10 * t12 * t5 + dt3 * t1 * t10 * t12 * t6 - dt1 * t10 * t12 * t3 * t5 + dt1 * t1 * t11 * t2 * t8)) (- t15 * (t25 - t26 + dt3 * t2 * t9 * 2 - dt2 * t3 * t9 - dt3 * t10 * t2 * t5 * 2 + dt3 * t11 * t2 * t5 * 3 - dt1 * t10 * t14 * t6 * 4 - dt3 * t10 * t2 * t6 * 2 + dt3 * t11 * t2 * t6 * 3 + dt2 * t10 * t3 * t6 * 2 - dt2 * t11 * t3 * t6 * 3 - dt3 * t11 * t2 * t8 * 2 + dt2 * t11 * t3 * t8 - dt1 * t11 * t6 * t8 + dt2 * t1 * t10 * t14 * t2 * 4 + dt1 * t1 * t10 * t2 * t3 * 2 - dt3 * t10 * t12 * t2 * t5 - dt3 * t10 * t12 * t2 * t6 + dt2 * t10 * t12 * t3 * t6 + dt2 * t1 * t11 * t2 * t8 + dt1 * t1 * t10 * t12 * t2 * t3)) (t15 * (t27 + t28 - t29 - t30 - t31 - t32 - t33 - t34 - t35 - t36 + dt1 * t1 * t11 * t7 * 3 + dt3 * t10 * t3 * t5 * 2 - dt1 * t1 * t11 * t8 + dt2 * t11 * t2 * t7 * 3 + dt3 * t10 * t3 * t6 * 2 - dt2 * t11 * t2 * t8 + dt1 * t10 * t14 * t2 * t3 * 4 + dt3 * t10 * t12 * t3 * t5 + dt3 * t10 * t12 * t3 * t6 + dt1 * t11 * t2 * t3 * t8)).
(** for p = 0 the code divides by zero: no number *)
Definition rv_J (p pdot : vec3) : option (mat3 * mat3) := if Req_EM_T (dot3 p p) 0 then None else Some (rv_J1 p pdot, rv_S p).
Definition rv_invS (p : vec3) : mat3 :=
  let phi := sqrt (dot3 p p) in
  if Req_EM_T phi 0 then I3
  else let cot := - sin phi / (cos phi - 1) in let a1 := 1 / (phi * phi) * (1 - 1 / 2 * phi * cot) in
       madd3 (madd3 I3 (mscale3 (1 / 2) (crossMx p))) (mm3 (mscale3 a1 (crossMx p)) (crossMx p)).
