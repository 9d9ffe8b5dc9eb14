(** Model of arcSinXOverX, quat2AxisAngle (qlog), qslerp and lerp (sm_kinematics/src/quaternion_algebra.cpp 227-274, 374-414), slerpTransformations and
    interpolateTransformations (Transformation.cpp 233-257) in binary64, operation by operation (the double instances of the templates).  Same simplifications as
    in Kin_Float_Model; sin, cos, asin, acos of the C library and Eigen's orders of summation are parameters.  lerp is modelled for 3-vectors. *)
From Verif Require Export Kin_FloatParam_Model Kin_FloatExp_Model.
Open Scope Z_scope.

(** M_PI *)
Definition fM_PI : f64 := flit 884279719003555 (-48).
Definition ftwo : f64 := fofZ 2.
(** arcSinXOverX (227-234): Scalar_(1/6) is an integer division, hence 0.0; isLessThenEpsilons4thRoot (9-14) *)
Definition farcSinXOverX (L : lib2) (x : f64) : f64 :=
  if fltb (fabs x) feps4 then fadd fone (fmul (fmul x x) fzero) else fdiv (m_asin L x) x.
(** quat2AxisAngle (236-274); qlog (quaternion_algebra.hpp 46) *)
Definition fqlog (L : lib2) (q : F4) : F3 :=
  let a := fhead3 q in let na := fnorm3 (base L) a in let eta := f3 q in
  let scale :=
    if fltb (fabs eta) na then fdiv (m_acos L eta) na
    else if fltb fzero eta then farcSinXOverX L na
    else fdiv (fsub fM_PI (m_asin L na)) na in
  let s := fmul ftwo scale in mkF3 (fmul (fx a) s) (fmul (fy a) s) (fmul (fz a) s).
(** the Vector4d operations of qslerp *)
Definition fsub4 (a b : F4) : F4 := mkF4 (fsub (f0 a) (f0 b)) (fsub (f1 a) (f1 b)) (fsub (f2 a) (f2 b)) (fsub (f3 a) (f3 b)).
Definition fadd4 (a b : F4) : F4 := mkF4 (fadd (f0 a) (f0 b)) (fadd (f1 a) (f1 b)) (fadd (f2 a) (f2 b)) (fadd (f3 a) (f3 b)).
Definition fneg4 (a : F4) : F4 := mkF4 (fneg (f0 a)) (fneg (f1 a)) (fneg (f2 a)) (fneg (f3 a)).
(** qslerp (374-395); t <= 0.0 and t >= 1.0 are false of a NaN *)
Definition fqslerp (E : eigen) (L : lib2) (a b : F4) (t : f64) : F4 :=
  if fleb t fzero then a
  else if fleb fone t then b
  else
    let target := if fltb (fsquaredNorm E (fadd4 a b)) (fsquaredNorm E (fsub4 a b)) then fneg4 b else b in
    fqplus a (faxisAngle2quat (base L) (fscale3 t (fqlog L (fqplus (fquatInv a) target)))).
(** lerp (399-414) *)
Definition flerp (a b : F3) (t : f64) : F3 :=
  if fleb t fzero then a else if fleb fone t then b else fadd3 (fscale3 (fsub fone t) a) (fscale3 t b).
(** slerpTransformations (251-257) *)
Definition ft_slerp (E : eigen) (L : lib2) (x y : ftrafo) (s : f64) : ftrafo := ft_make E (fqslerp E L (fq x) (fq y) s) (flerp (ft x) (ft y) s).
(** interpolateTransformations (233-248); the recursive call is made at most once *)
Definition ft_interpolate_ordered (E : eigen) (L : lib2) (x : ftrafo) (s0 : f64) (y : ftrafo) (s1 si : f64) : ftrafo :=
  let ds := fmax f1em14 (fsub s1 s0) in let di := fdiv (fsub si s0) ds in ft_slerp E L x y di.
Definition ft_interpolate (E : eigen) (L : lib2) (x : ftrafo) (s0 : f64) (y : ftrafo) (s1 si : f64) : ftrafo :=
  if fltb s1 s0 then ft_interpolate_ordered E L y s1 x s0 si else ft_interpolate_ordered E L x s0 y s1 si.
