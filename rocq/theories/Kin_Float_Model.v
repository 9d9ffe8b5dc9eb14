(** Model of the rigid transformations of sm_kinematics in binary64 (IEEE-754 double, round to nearest even), operation by operation in
    the order in which the C++ expressions are evaluated.  Kin_Quat_Model and Kin_Trans_Model model the same functions in exact arithmetic.
    Simplified: no fused multiply-add (the build sets no -ffp-contract and no -march with FMA; x86-64 SSE2 arithmetic); a NaN carries no payload;
    the SM_ASSERT_NEAR_DBG of quat2r is compiled out as in release builds.  What Eigen leaves open is a parameter: in which order the four
    squares of squaredNorm() are added, and whether  v /= s  divides or multiplies by 1/s (Eigen 3.2 and before). *)
From Verif Require Export Float64.
From Coq Require Import List Permutation.
Import ListNotations.

Record F3 := mkF3 { fx : f64; fy : f64; fz : f64 }.
Record F4 := mkF4 { f0 : f64; f1 : f64; f2 : f64; f3 : f64 }.
Record FM3 := mkFM3 { fr0 : F3; fr1 : F3; fr2 : F3 }.

(** ** What Eigen leaves open *)
Inductive stree := SLeaf (i : nat) | SAdd (l r : stree).
Fixpoint leaves (t : stree) : list nat := match t with SLeaf i => [i] | SAdd l r => leaves l ++ leaves r end.
Fixpoint fsum_tree (x : nat -> f64) (t : stree) : f64 := match t with SLeaf i => x i | SAdd l r => fadd (fsum_tree x l) (fsum_tree x r) end.
Record eigen := mkEigen { order : stree; reciprocal : bool }.
(** every coefficient is added once *)
Definition eigen_ok (E : eigen) : Prop := Permutation (leaves (order E)) [0; 1; 2; 3]%nat.
(** the three orders in use: DefaultTraversal unrolled by halves; two packets of two doubles; a plain loop *)
Definition by_halves : stree := SAdd (SAdd (SLeaf 0) (SLeaf 1)) (SAdd (SLeaf 2) (SLeaf 3)).
Definition by_packets : stree := SAdd (SAdd (SLeaf 0) (SLeaf 2)) (SAdd (SLeaf 1) (SLeaf 3)).
Definition by_loop : stree := SAdd (SAdd (SAdd (SLeaf 0) (SLeaf 1)) (SLeaf 2)) (SLeaf 3).

Definition fat4 (q : F4) (i : nat) : f64 := match i with O => f0 q | S O => f1 q | S (S O) => f2 q | _ => f3 q end.
(** Eigen's squaredNorm() of a Vector4d *)
Definition fsquaredNorm (E : eigen) (q : F4) : f64 := fsum_tree (fun i => fmul (fat4 q i) (fat4 q i)) (order E).
(** Eigen's normalize(): z = squaredNorm(); if (z > 0) *this /= sqrt(z)   (the test since 3.3) *)
Definition fnormalize (E : eigen) (q : F4) : F4 :=
  let z := fsquaredNorm E q in
  if fltb fzero z then
    let s := fsqrt z in
    if reciprocal E then let r := fdiv (fofZ 1) s in mkF4 (fmul (f0 q) r) (fmul (f1 q) r) (fmul (f2 q) r) (fmul (f3 q) r)
    else mkF4 (fdiv (f0 q) s) (fdiv (f1 q) s) (fdiv (f2 q) s) (fdiv (f3 q) s)
  else q.

(** ** quaternion_algebra.cpp *)
(** qplus (136-149) *)
Definition fqplus (q p : F4) : F4 :=
  mkF4 (fadd (fsub (fadd (fmul (f0 p) (f3 q)) (fmul (f1 p) (f2 q))) (fmul (f2 p) (f1 q))) (fmul (f3 p) (f0 q)))
       (fadd (fadd (fsub (fmul (f2 p) (f0 q)) (fmul (f0 p) (f2 q))) (fmul (f1 p) (f3 q))) (fmul (f3 p) (f1 q)))
       (fadd (fadd (fsub (fmul (f0 p) (f1 q)) (fmul (f1 p) (f0 q))) (fmul (f2 p) (f3 q))) (fmul (f3 p) (f2 q)))
       (fsub (fsub (fsub (fmul (f3 p) (f3 q)) (fmul (f1 p) (f1 q))) (fmul (f2 p) (f2 q))) (fmul (f0 p) (f0 q))).
(** quatInv (166-170) *)
Definition fquatInv (q : F4) : F4 := mkF4 (fneg (f0 q)) (fneg (f1 q)) (fneg (f2 q)) (f3 q).
(** Eigen's cross(), vector sum, vector difference, scalar times vector, negation *)
Definition fcross (a b : F3) : F3 :=
  mkF3 (fsub (fmul (fy a) (fz b)) (fmul (fz a) (fy b))) (fsub (fmul (fz a) (fx b)) (fmul (fx a) (fz b))) (fsub (fmul (fx a) (fy b)) (fmul (fy a) (fx b))).
Definition fadd3 (a b : F3) : F3 := mkF3 (fadd (fx a) (fx b)) (fadd (fy a) (fy b)) (fadd (fz a) (fz b)).
Definition fsub3 (a b : F3) : F3 := mkF3 (fsub (fx a) (fx b)) (fsub (fy a) (fy b)) (fsub (fz a) (fz b)).
Definition fscale3 (s : f64) (a : F3) : F3 := mkF3 (fmul s (fx a)) (fmul s (fy a)) (fmul s (fz a)).
Definition fneg3 (a : F3) : F3 := mkF3 (fneg (fx a)) (fneg (fy a)) (fneg (fz a)).
Definition fhead3 (q : F4) : F3 := mkF3 (f0 q) (f1 q) (f2 q).
(** quatRotate (320-323):  v + 2.0 * e.cross(e.cross(v) - q[3] * v) *)
Definition fquatRotate (q : F4) (v : F3) : F3 :=
  fadd3 v (fscale3 (fofZ 2) (fcross (fhead3 q) (fsub3 (fcross (fhead3 q) v) (fscale3 (f3 q) v)))).
(** quat2r (77-101) *)
Definition fquat2r (q : F4) : FM3 :=
  let q0 := f0 q in let q1 := f1 q in let q2 := f2 q in let q3 := f3 q in let two := fofZ 2 in
  mkFM3
    (mkF3 (fadd (fsub (fsub (fmul q0 q0) (fmul q1 q1)) (fmul q2 q2)) (fmul q3 q3))
          (fadd (fmul (fmul q0 q1) two) (fmul (fmul q2 q3) two))
          (fsub (fmul (fmul q0 q2) two) (fmul (fmul q1 q3) two)))
    (mkF3 (fsub (fmul (fmul q0 q1) two) (fmul (fmul q2 q3) two))
          (fadd (fsub (fadd (fmul (fneg q0) q0) (fmul q1 q1)) (fmul q2 q2)) (fmul q3 q3))
          (fadd (fmul (fmul q0 q3) two) (fmul (fmul q1 q2) two)))
    (mkF3 (fadd (fmul (fmul q0 q2) two) (fmul (fmul q1 q3) two))
          (fadd (fmul (fmul q0 q3) (fofZ (-2))) (fmul (fmul q1 q2) two))
          (fadd (fadd (fsub (fmul (fneg q0) q0) (fmul q1 q1)) (fmul q2 q2)) (fmul q3 q3))).

(** ** Transformation.cpp *)
Record ftrafo := FT { fq : F4; ft : F3 }.
(** constructor from quaternion and translation (31-35) *)
Definition ft_make (E : eigen) (q : F4) (t : F3) : ftrafo := FT (fnormalize E q) t.
(** C (40-43) *)
Definition ft_C (x : ftrafo) : FM3 := fquat2r (fq x).
(** inverse (83-87):  Transformation(quatInv(q), quatRotate(quatInv(q), -t)) *)
Definition ft_inverse (E : eigen) (x : ftrafo) : ftrafo := ft_make E (fquatInv (fq x)) (fquatRotate (fquatInv (fq x)) (fneg3 (ft x))).
(** operator* (95-98) *)
Definition ft_mul (E : eigen) (x y : ftrafo) : ftrafo := ft_make E (fqplus (fq x) (fq y)) (fadd3 (fquatRotate (fq x) (ft y)) (ft x)).
(** operator* on a point (100-103) *)
Definition ft_act3 (x : ftrafo) (p : F3) : F3 := fadd3 (fquatRotate (fq x) p) (ft x).
