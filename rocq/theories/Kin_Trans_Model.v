(** Model of sm_kinematics/src/transformations.cpp, Transformation.cpp, homogeneous_coordinates.cpp and HomogeneousPoint.cpp in exact real
    arithmetic.  Not modelled here: rounding (see Kin_Float_Model), setRandom, the SM_ASSERT_*_DBG checks (compiled out in release builds), serialization. *)
From Verif Require Export Kin_Rot_Model Kin_Quat_Model.
Import ListNotations.
Open Scope R_scope.

(** ** transformations.cpp *)
(** rt2Transform (6-17), transform2C (19-22), transform2rho (24-27), transform2rhoHomogeneous (29-32) *)
Definition rt2Transform (C : mat3) (t : vec3) : mat4 :=
  M4 (V4 (vx (r30 C)) (vy (r30 C)) (vz (r30 C)) (vx t)) (V4 (vx (r31 C)) (vy (r31 C)) (vz (r31 C)) (vy t)) (V4 (vx (r32 C)) (vy (r32 C)) (vz (r32 C)) (vz t)) (V4 0 0 0 1).
Definition transform2C (T : mat4) : mat3 := topLeft T.
Definition transform2rho (T : mat4) : vec3 := topRight T.
Definition transform2rhoHomogeneous (T : mat4) : vec4 := col4 T 3.
(** 4x6 matrices: the left and the right 4x3 half *)
Record mat46 := M46 { l46 : mat43; h46 : mat43 }.
Definition mv46 (M : mat46) (v : vec6) : vec4 := add4 (mv43 (l46 M) (hi6 v)) (mv43 (h46 M) (lo6 v)).
(** boxPlus (34-42), boxMinus (45-53) *)
Definition boxPlus (d : vec6) : mat4 :=
  let d0 := vx (hi6 d) in let d1 := vy (hi6 d) in let d2 := vz (hi6 d) in let d3 := vx (lo6 d) in let d4 := vy (lo6 d) in let d5 := vz (lo6 d) in
  M4 (V4 0 (- d5) d4 (- d0)) (V4 d5 0 (- d3) (- d1)) (V4 (- d4) d3 0 (- d2)) (V4 0 0 0 0).
Definition boxMinus (p : vec4) : mat46 :=
  M46 (M43 (V3 (e3 p) 0 0) (V3 0 (e3 p) 0) (V3 0 0 (e3 p)) (V3 0 0 0))
      (M43 (V3 0 (- e2 p) (e1 p)) (V3 (e2 p) 0 (- e0 p)) (V3 (- e1 p) (e0 p) 0) (V3 0 0 0)).
(** inverseTransform (55-66): the bottom row of T is not read *)
Definition inverseTransform (T : mat4) : mat4 := let Ci := tr3 (topLeft T) in rt Ci (mv3 (mopp3 Ci) (topRight T)).
(** fromTEuler (68-74), toTEuler (76-86 and, with six arguments, 88-101) *)
Definition fromTEuler (T : mat4) : vec6 := V6 (topRight T) (opp3 (R2rph (topLeft T))).
Definition toTEuler (d : vec6) : mat4 := rt (rph2R (- vx (lo6 d)) (- vy (lo6 d)) (- vz (lo6 d))) (hi6 d).
Definition toTEuler6 (x y z r p h : R) : mat4 := rt (rph2R (- r) (- p) (- h)) (V3 x y z).
(** transformationAndJacobian (103-112), inverseTransformationAndJacobian (114-130) *)
Definition transformationAndJacobian (T : mat4) (v : vec4) : vec4 * mat46 := let o := mv4 T v in (o, boxMinus o).
Definition inverseTransformationAndJacobian (T_ba : mat4) (v : vec4) : vec4 * mat46 :=
  let T_ab := inverseTransform T_ba in
  let L := mscale3 (- e3 v) (topLeft T_ab) in
  let H := mm3 (mopp3 (topLeft T_ab)) (crossMx (V3 (e0 v) (e1 v) (e2 v))) in
  (mv4 T_ab v, M46 (M43 (r30 L) (r31 L) (r32 L) (V3 0 0 0)) (M43 (r30 H) (r31 H) (r32 H) (V3 0 0 0))).
(** boxTimes (132-142) *)
Definition boxTimes (T : mat4) : mat6 :=
  let C := topLeft T in M6 C (mm3 (mopp3 (crossMx (V3 (e3 (r40 T)) (e3 (r41 T)) (e3 (r42 T))))) C) Z3 C.

(** ** Transformation.cpp: a quaternion and a translation *)
Record trafo := TQ { tq : vec4; tt : vec3 }.
(** Eigen's normalize(): divides by the norm if it is positive (Eigen 3.3 and later; earlier versions give NaN for the zero vector) *)
Definition normalize4 (q : vec4) : vec4 := if Rlt_dec 0 (norm4 q) then scale4 (1 / norm4 q) q else q.
(** constructors (17-35), set (57-61), setIdentity (151-155) *)
Definition tf_identity : trafo := TQ quatIdentity (V3 0 0 0).
Definition tf_of_matrix (T : mat4) : trafo := TQ (r2quat (topLeft T)) (topRight T).
Definition tf_make (q : vec4) (t : vec3) : trafo := TQ (normalize4 q) t.
(** C (40-43), T (63-72), T3x4 (74-81) *)
Definition tf_C (x : trafo) : mat3 := quat2r (tq x).
Definition tf_T (x : trafo) : mat4 := rt (quat2r (tq x)) (tt x).
Definition tf_T3x4 (x : trafo) : mat34 := let C := quat2r (tq x) in M34 (cons4 (r30 C) (vx (tt x))) (cons4 (r31 C) (vy (tt x))) (cons4 (r32 C) (vz (tt x))).
(** inverse (83-87) *)
Definition tf_inverse (x : trafo) : trafo := tf_make (quatInv (tq x)) (quatRotate (quatInv (tq x)) (opp3 (tt x))).
(** operator* (95-98; points 100-122) *)
Definition tf_mul (x y : trafo) : trafo := tf_make (qplus (tq x) (tq y)) (add3 (quatRotate (tq x) (tt y)) (tt x)).
Definition tf_act3 (x : trafo) (p : vec3) : vec3 := add3 (quatRotate (tq x) p) (tt x).
Definition tf_act4 (x : trafo) (p : vec4) : vec4 := cons4 (add3 (quatRotate (tq x) (head3 p)) (scale3 (e3 p) (tt x))) (e3 p).
(** a HomogeneousPoint is its 4-vector; operator*(HomogeneousPoint) (115-121) *)
Definition tf_actH (x : trafo) (p : vec4) : vec4 := cons4 (add3 (quatRotate (tq x) (head3 p)) (scale3 (e3 p) (tt x))) (e3 p).
(** oplus (137-141), S (143-149) *)
Definition tf_oplus (x : trafo) (d : vec6) : trafo := TQ (updateQuat (tq x) (lo6 d)) (add3 (tt x) (hi6 d)).
Definition tf_S (x : trafo) : mat6 := M6 I3 (mopp3 (crossMx (tt x))) Z3 I3.
(** rotate (208-219) *)
Definition tf_rotate3 (x : trafo) (p : vec3) : vec3 := quatRotate (tq x) p.
Definition tf_rotate4 (x : trafo) (p : vec4) : vec4 := cons4 (quatRotate (tq x) (head3 p)) (e3 p).
(** slerpTransformations (251-257), interpolateTransformations (233-248); the recursive call is made once, with the arguments exchanged *)
Definition slerpTransformations (x y : trafo) (s : R) : option trafo :=
  match qslerp (tq x) (tq y) s with Some q => Some (tf_make q (lerp (tt x) (tt y) s)) | None => None end.
Definition interpolate_ordered (x : trafo) (s0 : R) (y : trafo) (s1 si : R) : option trafo :=
  let ds := Rmax (/ 10 ^ 14) (s1 - s0) in slerpTransformations x y ((si - s0) / ds).
Definition interpolateTransformations (x : trafo) (s0 : R) (y : trafo) (s1 si : R) : option trafo :=
  if Rlt_dec s1 s0 then interpolate_ordered y s1 x s0 si else interpolate_ordered x s0 y s1 si.

(** ** homogeneous_coordinates.cpp *)
(** toHomogeneousJacobian (6-9), toHomogeneous (11-18), fromHomogeneous (29-43), fromHomogeneousJacobian (20-27).  Division by zero is
    None: the C++ result is not finite. *)
Definition toHomogeneousJacobian : mat43 := M43 (V3 1 0 0) (V3 0 1 0) (V3 0 0 1) (V3 0 0 0).
Definition toHomogeneous (v : vec3) : vec4 := V4 (vx v) (vy v) (vz v) 1.
Definition fromHomogeneous (v : vec4) : option vec3 := if Req_EM_T (e3 v) 0 then None else Some (scale3 (1 / e3 v) (head3 v)).
Definition fromHomogeneousJacobian (v : vec4) : option mat34 :=
  if Req_EM_T (e3 v) 0 then None
  else let r := 1 / e3 v in let w := scale3 r (head3 v) in
       Some (M34 (V4 r 0 0 (- vx w * r)) (V4 0 r 0 (- vy w * r)) (V4 0 0 r (- vz w * r))).
(** toHomogeneousPlus (71-82), toHomogeneousMinus (86-96) *)
Definition toHomogeneousPlus (p : vec4) : mat4 := M4 (V4 (e3 p) 0 0 (e0 p)) (V4 0 (e3 p) 0 (e1 p)) (V4 0 0 (e3 p) (e2 p)) (V4 0 0 0 (e3 p)).
Definition toHomogeneousMinus (p : vec4) : mat4 := M4 (V4 (e3 p) 0 0 (- e0 p)) (V4 0 (e3 p) 0 (- e1 p)) (V4 0 0 (e3 p) (- e2 p)) (V4 0 0 0 (e3 p)).
(** normalizeAndJacobian<4>, <3> (homogeneous_coordinates.hpp 25-33) *)
Definition outer4 (a b : vec4) : mat4 := M4 (scale4 (e0 a) b) (scale4 (e1 a) b) (scale4 (e2 a) b) (scale4 (e3 a) b).
Definition msub4 (M N : mat4) : mat4 := madd4 M (mopp4 N).
Definition normalizeAndJacobian4 (v : vec4) : option (vec4 * mat4) :=
  if Req_EM_T (norm4 v) 0 then None
  else let r := 1 / norm4 v in Some (scale4 r v, msub4 (mscale4 r I4) (mscale4 (r * r * r) (outer4 v v))).
Definition normalizeAndJacobian3 (v : vec3) : option (vec3 * mat3) :=
  if Req_EM_T (norm3 v) 0 then None
  else let r := 1 / norm3 v in Some (scale3 r v, msub3 (mscale3 r I3) (mscale3 (r * r * r) (outer3 v v))).
(** toHomogeneousColumns (46-51), fromHomogeneousColumns (53-67) for matrices of any size, as lists of rows.  hM starts as ones; its top
    rows are overwritten.  The loop multiplies each of the first rows by the reciprocals of the last row. *)
Definition toHomogeneousColumns (cols : nat) (M : list (list R)) : list (list R) := M ++ [repeat 1 cols].
Definition fromHomogeneousColumns (hM : list (list R)) : option (list (list R)) :=
  let top := removelast hM in let w := last hM [] in
  if in_dec Req_EM_T 0 w then None
  else let denom := map (fun x => 1 / x) w in Some (map (fun row => map (fun xd => fst xd * snd xd) (combine row denom)) top).

(** ** HomogeneousPoint.cpp *)
(** constructors (10-28), operator+ (39-46), operator- (91-98) *)
Definition hp_zero : vec4 := V4 0 0 0 1.
Definition hp_of_euclidean (p : vec3) : vec4 := V4 (vx p) (vy p) (vz p) 1.
Definition hp_add (p q : vec4) : vec4 := cons4 (add3 (scale3 (e3 q) (head3 p)) (scale3 (e3 p) (head3 q))) (e3 p * e3 q).
Definition hp_sub (p q : vec4) : vec4 := cons4 (sub3 (scale3 (e3 q) (head3 p)) (scale3 (e3 p) (head3 q))) (e3 p * e3 q).
(** oplus (104-107), convertToVector (110-113), scale (124-129), toEuclidean (132-138), normalize (198-201) *)
Definition hp_oplus (p : vec4) (d : vec3) : vec4 := updateQuat p d.
Definition hp_convertToVector (p : vec4) : vec4 := cons4 (head3 p) 0.
Definition hp_scale (p : vec4) (s : R) : vec4 := V4 (e0 p * s) (e1 p * s) (e2 p * s) (e3 p).
Definition hp_toEuclidean (p : vec4) : option vec3 :=
  if Req_EM_T (e3 p) 0 then None else let r := 1 / e3 p in Some (V3 (e0 p * r) (e1 p * r) (e2 p * r)).
Definition hp_normalize (p : vec4) : option vec4 := if Req_EM_T (norm4 p) 0 then None else Some (scale4 (1 / norm4 p) p).
(** convertToPoint (116-121): normalize, then the homogeneous coordinate is set to one *)
Definition hp_convertToPoint (p : vec4) : option vec4 := match hp_normalize p with Some n => Some (cons4 (head3 n) 1) | None => None end.
(** toHomogeneousAndJacobian (164-188) *)
Definition hp_toHomogeneousJ (p : vec4) : mat43 :=
  let h x := x * (1 / 2) in
  M43 (V3 (h (e3 p)) (h (- e2 p)) (h (e1 p))) (V3 (h (e2 p)) (h (e3 p)) (h (- e0 p))) (V3 (h (- e1 p)) (h (e0 p)) (h (e3 p))) (V3 (h (- e0 p)) (h (- e1 p)) (h (- e2 p))).
(** products of small rectangular matrices *)
Definition col43 (M : mat43) (j : nat) : vec4 := V4 (at3 (s0 M) j) (at3 (s1 M) j) (at3 (s2 M) j) (at3 (s3 M) j).
Definition mm34_43 (M : mat34) (N : mat43) : mat3 :=
  let row u := V3 (dot4 u (col43 N 0)) (dot4 u (col43 N 1)) (dot4 u (col43 N 2)) in M3 (row (u0 M)) (row (u1 M)) (row (u2 M)).
(** toEuclideanAndJacobian (141-155) *)
Definition hp_toEuclideanAndJacobian (p : vec4) : option (vec3 * mat3) :=
  if Req_EM_T (e3 p) 0 then None
  else let r := 1 / e3 p in let v := V3 (e0 p * r) (e1 p * r) (e2 p * r) in
       let Je := M34 (V4 (1 * r) 0 0 (- vx v * r)) (V4 0 (1 * r) 0 (- vy v * r)) (V4 0 0 (1 * r) (- vz v * r)) in
       Some (v, mm34_43 Je (hp_toHomogeneousJ p)).
