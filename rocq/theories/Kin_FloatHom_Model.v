(** Model of HomogeneousPoint (sm_kinematics/src/HomogeneousPoint.cpp), of fromHomogeneous / toHomogeneous (src/homogeneous_coordinates.cpp 11-41) and of
    Transformation times a homogeneous point (src/Transformation.cpp 105-122) in binary64, operation by operation.  Same simplifications as in Kin_Float_Model;
    the SM_ASSERT_..._DBG of the constructors and of toEuclidean are compiled out as in release builds. *)
From Verif Require Export Kin_Float_Model.
Open Scope Z_scope.

(** HomogeneousPoint() (10-14), HomogeneousPoint(Vector3d) (17-21), operator=(Vector3d) (80-85); toHomogeneous (homogeneous_coordinates.cpp 11-18) *)
Definition fhp_zero : F4 := mkF4 fzero fzero fzero (fofZ 1).
Definition fhp_of (p : F3) : F4 := mkF4 (fx p) (fy p) (fz p) (fofZ 1).
(** operator+ (39-46), operator- (91-98): coefficient by coefficient  a * w' + a' * w *)
Definition fhp_add (p q : F4) : F4 :=
  let c x y := fadd (fmul x (f3 q)) (fmul y (f3 p)) in mkF4 (c (f0 p) (f0 q)) (c (f1 p) (f1 q)) (c (f2 p) (f2 q)) (fmul (f3 p) (f3 q)).
Definition fhp_sub (p q : F4) : F4 :=
  let c x y := fsub (fmul x (f3 q)) (fmul y (f3 p)) in mkF4 (c (f0 p) (f0 q)) (c (f1 p) (f1 q)) (c (f2 p) (f2 q)) (fmul (f3 p) (f3 q)).
(** convertToVector (110-113), scale (124-129) *)
Definition fhp_convertToVector (p : F4) : F4 := mkF4 (f0 p) (f1 p) (f2 p) fzero.
Definition fhp_scale (p : F4) (s : f64) : F4 := mkF4 (fmul (f0 p) s) (fmul (f1 p) s) (fmul (f2 p) s) (f3 p).
(** toEuclidean (132-138); fromHomogeneous (homogeneous_coordinates.cpp 29-41) *)
Definition fhp_toEuclidean (p : F4) : F3 := let r := fdiv (fofZ 1) (f3 p) in mkF3 (fmul (f0 p) r) (fmul (f1 p) r) (fmul (f2 p) r).
(** normalize (198-201): _ph / _ph.norm(), without a test *)
Definition fhp_normalize (E : eigen) (p : F4) : F4 :=
  let s := fsqrt (fsquaredNorm E p) in
  if reciprocal E then let r := fdiv (fofZ 1) s in mkF4 (fmul (f0 p) r) (fmul (f1 p) r) (fmul (f2 p) r) (fmul (f3 p) r)
  else mkF4 (fdiv (f0 p) s) (fdiv (f1 p) s) (fdiv (f2 p) s) (fdiv (f3 p) s).
(** convertToPoint (116-121) *)
Definition fhp_convertToPoint (E : eigen) (p : F4) : F4 := let n := fhp_normalize E p in mkF4 (f0 n) (f1 n) (f2 n) (fofZ 1).
(** atInfinity, isVector (209-217): _ph[3] == 0.0 *)
Definition fhp_atInfinity (p : F4) : bool := feqb (f3 p) fzero.
(** Transformation * Vector4d (105-114), Transformation * HomogeneousPoint (116-122) *)
Definition ft_act4 (x : ftrafo) (p : F4) : F4 :=
  let v := fadd3 (fquatRotate (fq x) (fhead3 p)) (fscale3 (f3 p) (ft x)) in mkF4 (fx v) (fy v) (fz v) (f3 p).
