(** Model of sm_kinematics/src/UncertainHomogeneousPoint.cpp, UncertainTransformation.cpp, the uncertain operators of Transformation.cpp and
    HomogeneousPoint.cpp, and UncertainVector.hpp for every dimension, in exact real arithmetic.  Not modelled: setRandom, serialization,
    isBinaryEqual (see CheckSame_Model.v), rounding. *)
From Verif Require Export Kin_Trans_Model DenseN.
Open Scope R_scope.

(** ** products of rectangular matrices used by the Eigen expressions J * U * J.transpose() *)
Definition mm43_3 (M : mat43) (N : mat3) : mat43 := M43 (rowmul3 (s0 M) N) (rowmul3 (s1 M) N) (rowmul3 (s2 M) N) (rowmul3 (s3 M) N).
Definition madd43 (M N : mat43) : mat43 := M43 (add3 (s0 M) (s0 N)) (add3 (s1 M) (s1 N)) (add3 (s2 M) (s2 N)) (add3 (s3 M) (s3 N)).
(** A * B.transpose() *)
Definition mm43t (A B : mat43) : mat4 :=
  let row v := V4 (dot3 v (s0 B)) (dot3 v (s1 B)) (dot3 v (s2 B)) (dot3 v (s3 B)) in M4 (row (s0 A)) (row (s1 A)) (row (s2 A)) (row (s3 A)).
Definition mm34_4 (M : mat34) (N : mat4) : mat34 := M34 (rowmul4 (u0 M) N) (rowmul4 (u1 M) N) (rowmul4 (u2 M) N).
Definition mm34t (A B : mat34) : mat3 := let row v := V3 (dot4 v (u0 B)) (dot4 v (u1 B)) (dot4 v (u2 B)) in M3 (row (u0 A)) (row (u1 A)) (row (u2 A)).
Definition mm46_6 (M : mat46) (N : mat6) : mat46 :=
  M46 (madd43 (mm43_3 (l46 M) (b11 N)) (mm43_3 (h46 M) (b21 N))) (madd43 (mm43_3 (l46 M) (b12 N)) (mm43_3 (h46 M) (b22 N))).
Definition mm46t (A B : mat46) : mat4 := madd4 (mm43t (l46 A) (l46 B)) (mm43t (h46 A) (h46 B)).
(** topLeftCorner<3,3>() = U3 on a zero matrix *)
Definition embed3 (U : mat3) : mat4 := M4 (cons4 (r30 U) 0) (cons4 (r31 U) 0) (cons4 (r32 U) 0) zero4.

(** ** UncertainHomogeneousPoint.cpp *)
Record uhp := UH { uh_p : vec4; uh_U : mat4 }.
(** constructors: default (10-14), from a Euclidean point (17-21), from a homogeneous point (24-35), with a Euclidean covariance (39-44),
    with a homogeneous one (48-57) *)
Definition uh_zero : uhp := UH hp_zero Z4.
Definition uh_of_euclidean (p : vec3) : uhp := UH (hp_of_euclidean p) Z4.
Definition uh_certain (p : vec4) : uhp := UH p Z4.
Definition uh_of_euclideanU (p : vec3) (U : mat3) : uhp := UH (hp_of_euclidean p) (embed3 U).
Definition uh_make (p : vec4) (U : mat4) : uhp := UH p U.
(** U3 (103-108); None where fromHomogeneousJacobian divides by zero *)
Definition uh_U3 (x : uhp) : option mat3 :=
  match fromHomogeneousJacobian (uh_p x) with Some J => Some (mm34t (mm34_4 J (uh_U x)) J) | None => None end.
(** SM_ASSERT_NEAR(norm, 1.0, 1e-6) (113, 131); None: the exception *)
Definition near_unit (p : vec4) : bool := if Rle_dec (Rabs (1 - norm4 p)) (Rabs (/ 10 ^ 6)) then true else false.
(** U_av_form (111-117) *)
Definition uh_U_av_form (x : uhp) : option mat3 := if near_unit (uh_p x) then let S := quatS (uh_p x) in Some (mm34t (mm34_4 S (uh_U x)) S) else None.
(** setUOplus (129-134) and the constructors that call it (62-77) *)
Definition uh_setUOplus (x : uhp) (U : mat3) : option uhp :=
  if near_unit (uh_p x) then let iS := quatInvS (uh_p x) in Some (UH (uh_p x) (mm43t (mm43_3 iS U) iS)) else None.
(** normalize (145-151) *)
Definition uh_normalize (x : uhp) : option uhp :=
  match normalizeAndJacobian4 (uh_p x) with Some (p, J) => Some (UH p (mm4 (mm4 J (uh_U x)) (tr4 J))) | None => None end.
(** operator+ and operator- with a certain point on the right (157-180), on the left (HomogeneousPoint.cpp 48-69), between two uncertain
    points (185-211: both use toHomogeneousPlus) *)
Definition uh_add_hp (x : uhp) (q : vec4) : uhp := UH (hp_add (uh_p x) q) (uh_U x).
Definition uh_sub_hp (x : uhp) (q : vec4) : uhp := UH (hp_sub (uh_p x) q) (uh_U x).
Definition hp_add_uh (p : vec4) (y : uhp) : uhp := UH (hp_add p (uh_p y)) (uh_U y).
Definition hp_sub_uh (p : vec4) (y : uhp) : uhp := UH (hp_sub p (uh_p y)) (uh_U y).
Definition uh_plus_cov (x y : uhp) : mat4 :=
  let PL := toHomogeneousPlus (uh_p x) in let PR := toHomogeneousPlus (uh_p y) in
  madd4 (mm4 (mm4 PR (uh_U x)) (tr4 PR)) (mm4 (mm4 PL (uh_U y)) (tr4 PL)).
Definition uh_add (x y : uhp) : uhp := UH (hp_add (uh_p x) (uh_p y)) (uh_plus_cov x y).
Definition uh_sub (x y : uhp) : uhp := UH (hp_sub (uh_p x) (uh_p y)) (uh_plus_cov x y).

(** ** UncertainTransformation.cpp *)
Record utf := UT { ut_T : trafo; ut_U : mat6 }.
(** the diagonal matrix written by the constructors taking two variances (21-32, 41-54, 62-72) *)
Definition diag_cov (a b : R) : mat6 := M6 (m3 a 0 0 0 a 0 0 0 a) Z3 Z3 (m3 b 0 0 0 b 0 0 0 b).
Definition ut_certain (x : trafo) : utf := UT x Z6.
Definition ut_diag (x : trafo) (a b : R) : utf := UT x (diag_cov a b).
(** operator* (122-133), inverse (136-148) *)
Definition ut_mul (x y : utf) : utf :=
  let B := boxTimes (tf_T (ut_T x)) in UT (tf_mul (ut_T x) (ut_T y)) (madd6 (ut_U x) (mm6 (mm6 B (ut_U y)) (tr6 B))).
Definition ut_inverse (x : utf) : utf :=
  let T := tf_inverse (ut_T x) in let B := boxTimes (tf_T T) in UT T (mm6 (mm6 B (ut_U x)) (tr6 B)).
(** operator* with a transformation on the right (204-212), on the left (Transformation.cpp 181-193) *)
Definition ut_mul_tf (x : utf) (y : trafo) : utf := UT (tf_mul (ut_T x) y) (ut_U x).
Definition tf_mul_ut (x : trafo) (y : utf) : utf := let B := boxTimes (tf_T x) in UT (tf_mul x (ut_T y)) (mm6 (mm6 B (ut_U y)) (tr6 B)).
(** operator* on points: uncertain (191-202), certain (214-224), certain transformation and uncertain point (Transformation.cpp 195-205) *)
Definition ut_act_uh (x : utf) (p : uhp) : uhp :=
  let p0 := tf_act4 (ut_T x) (uh_p p) in let T := tf_T (ut_T x) in let J := boxMinus p0 in
  UH p0 (madd4 (mm46t (mm46_6 J (ut_U x)) J) (mm4 (mm4 T (uh_U p)) (tr4 T))).
Definition ut_act_hp (x : utf) (p : vec4) : uhp := let p0 := tf_act4 (ut_T x) p in let J := boxMinus p0 in UH p0 (mm46t (mm46_6 J (ut_U x)) J).
Definition tf_act_uh (x : trafo) (p : uhp) : uhp := let T := tf_T x in UH (tf_act4 x (uh_p p)) (mm4 (mm4 T (uh_U p)) (tr4 T)).
(** UOplus (114-120): S.inverse() is Eigen's 6x6 inverse, a parameter here; Kin_Unc_Props shows which matrices qualify.  setUOplus (180-188) *)
Definition ut_UOplus (inverse : mat6 -> mat6) (x : utf) : mat6 := let S := tf_S (ut_T x) in mm6 (mm6 (inverse S) (ut_U x)) (inverse (tr6 S)).
Definition ut_setUOplus (x : utf) (U : mat6) : utf := let S := M6 I3 (mopp3 (crossMx (tt (ut_T x)))) Z3 I3 in UT (ut_T x) (mm6 (mm6 S U) (tr6 S)).

(** ** UncertainVector.hpp, any dimension n; and the specialisation for dimension 1 *)
Record uvec := UV { uv_v : vecn; uv_E : matn }.
Record uscal := US { us_v : R; us_E : R }.
Section UncertainVector.
  Variable n : nat.
  (** constructors (15-33), setZero (66-71) *)
  Definition uv_zero : uvec := UV (fun _ => 0) Zn.
  Definition uv_certain (v : vecn) : uvec := UV v Zn.
  (** linear operator * vector (3-7) *)
  Definition uv_linear (M : matn) (x : uvec) : uvec := UV (mvn n M (uv_v x)) (mmn n (mmn n M (uv_E x)) (trn M)).
  (** + and - (101-127) *)
  Definition uv_add (x y : uvec) : uvec := UV (addn (uv_v x) (uv_v y)) (maddn (uv_E x) (uv_E y)).
  Definition uv_addv (x : uvec) (v : vecn) : uvec := UV (addn (uv_v x) v) (uv_E x).
  Definition uv_sub (x y : uvec) : uvec := UV (subn (uv_v x) (uv_v y)) (maddn (uv_E x) (uv_E y)).
  Definition uv_subv (x : uvec) (v : vecn) : uvec := UV (subn (uv_v x) v) (uv_E x).
  (** times an uncertain scalar (130-134) and a number (136-140); UncertainVector<1>::operator* with a vector (367-377) *)
  Definition uv_mul (x : uvec) (s : uscal) : uvec := UV (scalen (us_v s) (uv_v x)) (fun i j => uv_v x i * uv_v x j * us_E s + uv_E x i j * us_v s * us_v s).
  Definition uv_scale (x : uvec) (s : R) : uvec := UV (scalen s (uv_v x)) (fun i j => uv_E x i j * s * s).
  Definition us_mulv (s : uscal) (v : vecn) : uvec := UV (scalen (us_v s) v) (fun i j => v i * v j * us_E s).
  (** normalizeAndJacobian<N> (homogeneous_coordinates.hpp 25-33); normalized and normalize (142-160) *)
  Definition normalizeAndJacobianN (v : vecn) : option (vecn * matn) :=
    if Req_EM_T (normn n v) 0 then None
    else let r := 1 / normn n v in Some (scalen r v, msubn (mscalen r In_) (mscalen (r * r * r) (outern v v))).
  Definition uv_normalized (x : uvec) : option uvec :=
    match normalizeAndJacobianN (uv_v x) with Some (v, J) => Some (UV v (mmn n (mmn n J (uv_E x)) (trn J))) | None => None end.
  (** dot (162-173) *)
  Definition uv_dot (x y : uvec) : uscal :=
    US (dotn n (uv_v x) (uv_v y)) (dotn n (uv_v x) (mvn n (uv_E y) (uv_v x)) + dotn n (uv_v y) (mvn n (uv_E x) (uv_v y))).
  Definition uv_dotv (x : uvec) (v : vecn) : uscal := US (dotn n (uv_v x) v) (dotn n v (mvn n (uv_E x) v)).
End UncertainVector.
(** UncertainVector<1> (284-360); None: division by zero *)
Definition us_dot (x y : uscal) : uscal := US (us_v x * us_v y) (us_v y * us_E x * us_v y + us_v x * us_E y * us_v x).
Definition us_dotv (x : uscal) (r : R) : uscal := US (us_v x * r) (r * us_E x * r).
Definition us_mul := us_dot.
Definition us_mulr := us_dotv.
Definition us_add (x y : uscal) : uscal := US (us_v x + us_v y) (us_E x + us_E y).
Definition us_addv (x : uscal) (r : R) : uscal := US (us_v x + r) (us_E x).
Definition us_sub (x y : uscal) : uscal := US (us_v x - us_v y) (us_E x + us_E y).
Definition us_subv (x : uscal) (r : R) : uscal := US (us_v x - r) (us_E x).
Definition us_div (x y : uscal) : option uscal :=
  if Req_EM_T (us_v y) 0 then None
  else let dfda := 1 / us_v y in let dfdb := - us_v x / (us_v y * us_v y) in Some (US (us_v x / us_v y) (dfda * us_E x * dfda + dfdb * us_E y * dfdb)).
Definition us_divv (x : uscal) (r : R) : option uscal := if Req_EM_T r 0 then None else let dfda := 1 / r in Some (US (us_v x / r) (dfda * us_E x * dfda)).
(** Transformation::rotate(UncertainVector3) (Transformation.cpp 221-229), with the 3-vectors of LinAlg *)
Definition tf_rotate_uv (x : trafo) (v : vec3) (P : mat3) : vec3 * mat3 := let R := tf_C x in (tf_rotate3 x v, mm3 (mm3 R P) (tr3 R)).
