(** Model of normalizeAndJacobian<N> (sm_kinematics/include/sm/kinematics/homogeneous_coordinates.hpp 25-33) in binary64, operation by operation, for vectors of any
    dimension.  [t] is the order in which Eigen adds the squares of norm().  Simplification: the outer product (r*r*r)*v*v.transpose() is taken coefficient by
    coefficient from the left, as written. *)
From Coq Require Import Arith.
From Verif Require Export Kin_Float_Model Kin_FloatMat_Model.
Open Scope Z_scope.

(** v.norm() *)
Definition fnormN (t : stree) (v : nat -> f64) : f64 := fsqrt (fsum_tree (fun i => fmul (v i) (v i)) t).
(** the returned vector and outJacobian (27-31) *)
Definition fnormalizeAndJacobian (t : stree) (v : nat -> f64) : (nat -> f64) * (nat -> nat -> f64) :=
  let r := fdiv fone (fnormN t v) in
  let rrr := fmul (fmul r r) r in
  (fun i => fmul (v i) r, fun i j => fsub (fmul (if Nat.eqb i j then fone else fzero) r) (fmul (fmul rrr (v i)) (v j))).
