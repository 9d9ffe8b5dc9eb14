(** Model of sm_kinematics/src/quaternion_algebra.cpp in exact real arithmetic.  A quaternion is a 4-vector (q0,q1,q2 vector part, q3
    scalar part), as in the library.  Not modelled here: rounding (see Kin_Float_Model), the SM_ASSERT_*_DBG checks (compiled out in release builds), quatRandom,
    the float instantiations. *)
From Verif Require Export LinAlg.
Open Scope R_scope.

(** isLessThenEpsilons4thRoot (10-14): pow(2^-52, 1/4) = 2^-13 *)
Definition eps4 : R := / 8192.
Definition small (x : R) : bool := if Rlt_dec x eps4 then true else false.

(** r2quat (17-75), by columns: c1 = R(0,0), c2 = R(1,0), c3 = R(2,0), c4 = R(0,1), ... *)
Definition r2quat (M : mat3) : vec4 :=
  let c1 := vx (r30 M) in let c2 := vx (r31 M) in let c3 := vx (r32 M) in
  let c4 := vy (r30 M) in let c5 := vy (r31 M) in let c6 := vy (r32 M) in
  let c7 := vz (r30 M) in let c8 := vz (r31 M) in let c9 := vz (r32 M) in
  let d0 := Rabs (1 + c1 - c5 - c9) in let d1 := Rabs (1 - c1 + c5 - c9) in
  let d2 := Rabs (1 - c1 - c5 + c9) in let d3 := Rabs (1 + c1 + c5 + c9) in
  (* 34-42: the largest of them, the first one in case of a tie *)
  let '(m1, v1) := if Rlt_dec d0 d1 then (1%nat, d1) else (0%nat, d0) in
  let '(m2, v2) := if Rlt_dec v1 d2 then (2%nat, d2) else (m1, v1) in
  let '(m3, v3) := if Rlt_dec v2 d3 then (3%nat, d3) else (m2, v2) in
  let q := match m3 with
           | O => let x := 1 / 2 * sqrt d0 in let c := 1 / 4 / x in V4 x (c * (c4 + c2)) (c * (c7 + c3)) (c * (c8 - c6))
           | S O => let x := 1 / 2 * sqrt d1 in let c := 1 / 4 / x in V4 (c * (c4 + c2)) x (c * (c6 + c8)) (c * (c3 - c7))
           | S (S O) => let x := 1 / 2 * sqrt d2 in let c := 1 / 4 / x in V4 (c * (c3 + c7)) (c * (c6 + c8)) x (c * (c4 - c2))
           | _ => let x := 1 / 2 * sqrt d3 in let c := 1 / 4 / x in V4 (c * (c8 - c6)) (c * (c3 - c7)) (c * (c4 - c2)) x
           end in
  if Rlt_dec (e3 q) 0 then opp4 q else q.
(** quat2r (77-101) *)
Definition quat2r (q : vec4) : mat3 :=
  let q0 := e0 q in let q1 := e1 q in let q2 := e2 q in let q3 := e3 q in
  m3 (q0 * q0 - q1 * q1 - q2 * q2 + q3 * q3) (q0 * q1 * 2 + q2 * q3 * 2) (q0 * q2 * 2 - q1 * q3 * 2)
     (q0 * q1 * 2 - q2 * q3 * 2) (- q0 * q0 + q1 * q1 - q2 * q2 + q3 * q3) (q0 * q3 * 2 + q1 * q2 * 2)
     (q0 * q2 * 2 + q1 * q3 * 2) (q0 * q3 * (-2) + q1 * q2 * 2) (- q0 * q0 - q1 * q1 + q2 * q2 + q3 * q3).
(** quatPlus (104-117), quatOPlus (119-134) *)
Definition quatPlus (q : vec4) : mat4 :=
  M4 (V4 (e3 q) (e2 q) (- e1 q) (e0 q)) (V4 (- e2 q) (e3 q) (e0 q) (e1 q)) (V4 (e1 q) (- e0 q) (e3 q) (e2 q)) (V4 (- e0 q) (- e1 q) (- e2 q) (e3 q)).
Definition quatOPlus (q : vec4) : mat4 :=
  M4 (V4 (e3 q) (- e2 q) (e1 q) (e0 q)) (V4 (e2 q) (e3 q) (- e0 q) (e1 q)) (V4 (- e1 q) (e0 q) (e3 q) (e2 q)) (V4 (- e0 q) (- e1 q) (- e2 q) (e3 q)).
(** qplus (136-149), qoplus (151-164) *)
Definition qplus (q p : vec4) : vec4 :=
  V4 (e0 p * e3 q + e1 p * e2 q - e2 p * e1 q + e3 p * e0 q)
     (e2 p * e0 q - e0 p * e2 q + e1 p * e3 q + e3 p * e1 q)
     (e0 p * e1 q - e1 p * e0 q + e2 p * e3 q + e3 p * e2 q)
     (e3 p * e3 q - e1 p * e1 q - e2 p * e2 q - e0 p * e0 q).
Definition qoplus (q p : vec4) : vec4 :=
  V4 (e0 p * e3 q - e1 p * e2 q + e2 p * e1 q + e3 p * e0 q)
     (e0 p * e2 q - e2 p * e0 q + e1 p * e3 q + e3 p * e1 q)
     (e1 p * e0 q - e0 p * e1 q + e2 p * e3 q + e3 p * e2 q)
     (e3 p * e3 q - e1 p * e1 q - e2 p * e2 q - e0 p * e0 q).
(** quatInv, invertQuat (166-176), qeps (179-187), qeta (189-197), quatIdentity (334-337) *)
Definition quatInv (q : vec4) : vec4 := V4 (- e0 q) (- e1 q) (- e2 q) (e3 q).
Definition qeps (q : vec4) : vec3 := head3 q.
Definition qeta (q : vec4) : R := e3 q.
Definition quatIdentity : vec4 := V4 0 0 0 1.
(** axisAngle2quat (200-221) *)
Definition axisAngle2quat (a : vec3) : vec4 :=
  let theta := norm3 a in
  let na := if small theta then 1 / 2 + theta * theta * (1 / 48) else sin (theta * (1 / 2)) / theta in
  cons4 (scale3 na a) (cos (theta * (1 / 2))).
(** arcSinXOverX (228-234): Scalar_(1/6) is an integer division, hence 0 *)
Definition arcSinXOverX (x : R) : R := if small (Rabs x) then 1 + x * x * 0 else asin x / x.
(** quat2AxisAngle (236-274); None where the code divides by zero (the result is not a number) *)
Definition quat2AxisAngle (q : vec4) : option vec3 :=
  let a := qeps q in let na := norm3 a in let eta := qeta q in
  if Rlt_dec (Rabs eta) na then Some (scale3 (2 * (acos eta / na)) a)
  else if Rlt_dec 0 eta then Some (scale3 (2 * arcSinXOverX na) a)
  else if Req_EM_T na 0 then None
  else Some (scale3 (2 * ((PI - asin na) / na)) a).
(** qlog, qexp (quaternion_algebra.hpp:46-47) *)
Definition qlog := quat2AxisAngle.
Definition qexp := axisAngle2quat.
(** updateQuat (302-318) *)
Definition updateQuat (q : vec4) (dq : vec3) : vec4 :=
  let d := axisAngle2quat dq in let ca := e3 d in
  V4 (e0 q * ca + e0 d * e3 q - e1 d * e2 q + e2 d * e1 q)
     (e1 q * ca + e0 d * e2 q + e1 d * e3 q - e2 d * e0 q)
     (e2 q * ca - e0 d * e1 q + e1 d * e0 q + e2 d * e3 q)
     (e3 q * ca - e0 d * e0 q - e1 d * e1 q - e2 d * e2 q).
(** quatRotate (320-323) *)
Definition quatRotate (q : vec4) (v : vec3) : vec3 :=
  add3 v (scale3 2 (cross (head3 q) (sub3 (cross (head3 q) v) (scale3 (e3 q) v)))).
(** quatJacobian (278-300), quatS (339-353), quatInvS (355-372): 4x3 matrices by their rows, 3x4 by their rows *)
Record mat43 := M43 { s0 : vec3; s1 : vec3; s2 : vec3; s3 : vec3 }.
Record mat34 := M34 { u0 : vec4; u1 : vec4; u2 : vec4 }.
Definition mv43 (M : mat43) (v : vec3) : vec4 := V4 (dot3 (s0 M) v) (dot3 (s1 M) v) (dot3 (s2 M) v) (dot3 (s3 M) v).
Definition mv34 (M : mat34) (v : vec4) : vec3 := V3 (dot4 (u0 M) v) (dot4 (u1 M) v) (dot4 (u2 M) v).
Definition quatJacobian (p : vec4) : mat43 :=
  let h x := x * (1 / 2) in
  M43 (V3 (h (e3 p)) (h (- e2 p)) (h (e1 p))) (V3 (h (e2 p)) (h (e3 p)) (h (- e0 p))) (V3 (h (- e1 p)) (h (e0 p)) (h (e3 p))) (V3 (h (- e0 p)) (h (- e1 p)) (h (- e2 p))).
Definition quatS (q' : vec4) : mat34 :=
  let q := scale4 2 q' in
  M34 (V4 (e3 q) (e2 q) (- e1 q) (- e0 q)) (V4 (- e2 q) (e3 q) (e0 q) (- e1 q)) (V4 (e1 q) (- e0 q) (e3 q) (- e2 q)).
Definition quatInvS (q' : vec4) : mat43 :=
  let q := scale4 (1 / 2) q' in
  M43 (V3 (e3 q) (- e2 q) (e1 q)) (V3 (e2 q) (e3 q) (- e0 q)) (V3 (- e1 q) (e0 q) (e3 q)) (V3 (- e0 q) (- e1 q) (- e2 q)).
(** qslerp (374-395); None where qlog gives no number *)
Definition qslerp (a b : vec4) (t : R) : option vec4 :=
  if Rle_dec t 0 then Some a
  else if Rle_dec 1 t then Some b
  else let target := if Rlt_dec (dot4 (add4 a b) (add4 a b)) (dot4 (sub4 a b) (sub4 a b)) then opp4 b else b in
       match qlog (qplus (quatInv a) target) with
       | Some w => Some (qplus a (qexp (scale3 t w)))
       | None => None
       end.
(** lerp (399-414) for 3-vectors *)
Definition lerp (a b : vec3) (t : R) : vec3 :=
  if Rle_dec t 0 then a else if Rle_dec 1 t then b else add3 (scale3 (1 - t) a) (scale3 t b).
