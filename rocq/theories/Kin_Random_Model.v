(** Model of the functions that fill the kinematics types with random values: quatRandom (quaternion_algebra.cpp 325-332), setRandom of Transformation
    (Transformation.cpp 125-129 and 158-180), UncertainTransformation (UncertainTransformation.cpp 152-165), HomogeneousPoint (HomogeneousPoint.cpp 191-195),
    UncertainHomogeneousPoint (UncertainHomogeneousPoint.cpp 87-93), UncertainVector<D> and UncertainVector<1> (UncertainVector.hpp), in exact real arithmetic.
    There are two sources: the coefficients of Eigen's Random/setRandom come from the C library's rand(), scaled to [-1, 1]; sm::random::rand and randLU come from
    the generator of sm_random (Random_Model), uniform in [0, 1).  Both are represented by what they will still deliver.  Eigen fills a matrix column by column.
    Not modelled: rounding; how likely a value is. *)
From Verif Require Export Kin_Unc_Model.
Open Scope R_scope.

Record rng := Rng { eig : nat -> R; uni : nat -> R }.
(** n coefficients from Eigen; one number from sm::random *)
Definition take_e (n : nat) (g : rng) : (nat -> R) * rng := (eig g, Rng (fun k => eig g (n + k)%nat) (uni g)).
Definition take_u (g : rng) : R * rng := (uni g 0%nat, Rng (eig g) (fun k => uni g (S k))).
(** randLU (random.cpp 83-86) *)
Definition rand_lu (lo hi : R) (g : rng) : R * rng := let (u, g) := take_u g in (u * (hi - lo) + lo, g).
(** Vector3d::Random().array() - 0.5; the same for a Vector4d *)
Definition centred3 (c : nat -> R) : vec3 := V3 (c 0%nat - 1 / 2) (c 1%nat - 1 / 2) (c 2%nat - 1 / 2).
Definition centred4 (c : nat -> R) : vec4 := V4 (c 0%nat - 1 / 2) (c 1%nat - 1 / 2) (c 2%nat - 1 / 2) (c 3%nat - 1 / 2).

(** quatRandom; None: division by zero *)
Definition quatRandom (g : rng) : option vec4 * rng :=
  let (c, g) := take_e 4 g in let q := centred4 c in
  (if Req_EM_T (norm4 q) 0 then None else Some (scale4 (1 / norm4 q) q), g).
(** Transformation::setRandom() *)
Definition tf_setRandom (g : rng) : option trafo * rng :=
  let (q, g) := quatRandom g in let (c, g) := take_e 3 g in
  (match q with Some q => Some (TQ q (scale3 100 (centred3 c))) | None => None end, g).
(** Transformation::setRandom(translationMaxMeters, rotationMaxRadians) *)
Definition tf_setRandom_max (tmax rmax : R) (g : rng) : option trafo * rng :=
  let (c, g) := take_e 3 g in let axis := centred3 c in
  let (angle, g) := rand_lu 0 rmax g in
  let axis' := if Req_EM_T (norm3 axis) 0 then None else Some (scale3 (angle / norm3 axis) axis) in
  let (c, g) := take_e 3 g in let t := centred3 c in
  let (d, g) := rand_lu 0 tmax g in
  let t' := if Req_EM_T (norm3 t) 0 then None else Some (scale3 (d / norm3 t) t) in
  (match axis', t' with Some a, Some t => Some (TQ (axisAngle2quat a) t) | _, _ => None end, g).
(** a 6x6 and a 4x4 matrix filled column by column *)
Definition entry6 (c : nat -> R) (i j : nat) : R := c (6 * j + i)%nat.
Definition block (c : nat -> R) (i j : nat) : mat3 :=
  m3 (entry6 c i j) (entry6 c i (1 + j)) (entry6 c i (2 + j)) (entry6 c (1 + i) j) (entry6 c (1 + i) (1 + j)) (entry6 c (1 + i) (2 + j))
     (entry6 c (2 + i) j) (entry6 c (2 + i) (1 + j)) (entry6 c (2 + i) (2 + j)).
Definition fill6 (c : nat -> R) : mat6 := M6 (block c 0 0) (block c 0 3) (block c 3 0) (block c 3 3).
Definition fill4 (c : nat -> R) : mat4 :=
  let row i := V4 (c i) (c (4 + i)%nat) (c (8 + i)%nat) (c (12 + i)%nat) in M4 (row 0%nat) (row 1%nat) (row 2%nat) (row 3%nat).
(** UncertainTransformation::setRandom, after the draw of the transformation *)
Definition ut_random (r : option trafo * rng) : option utf * rng :=
  let (x, g) := r in let (c, g) := take_e 36 g in let U := fill6 c in
  (match x with Some x => Some (UT x (mm6 (mm6 U (tr6 U)) I6)) | None => None end, g).
Definition ut_setRandom (g : rng) := ut_random (tf_setRandom g).
Definition ut_setRandom_max (tmax rmax : R) (g : rng) := ut_random (tf_setRandom_max tmax rmax g).
(** HomogeneousPoint::setRandom, UncertainHomogeneousPoint::setRandom *)
Definition hp_setRandom (g : rng) : option vec4 * rng :=
  let (c, g) := take_e 4 g in (hp_normalize (V4 (c 0%nat) (c 1%nat) (c 2%nat) (c 3%nat)), g).
Definition uh_setRandom (g : rng) : option uhp * rng :=
  let (p, g) := hp_setRandom g in let (c, g) := take_e 16 g in let U := fill4 c in
  (match p with Some p => Some (UH p (madd4 (mm4 (tr4 U) U) I4)) | None => None end, g).
(** UncertainVector<D>::setRandom, UncertainVector<1>::setRandom *)
Definition uv_setRandom (n : nat) (g : rng) : uvec * rng :=
  let (c, g) := take_e n g in let (d, g) := take_e (n * n) g in
  let E : matn := fun i j => d (n * j + i)%nat in
  (UV c (maddn (mmn n E (trn E)) In_), g).
Definition us_setRandom (g : rng) : uscal * rng :=
  let (v, g) := take_u g in let (s, g) := take_u g in (US v (s * s), g).
