(** Model of sm_eigen/include/sm/eigen/gtest.hpp: the comparisons the tests of the other packages rest on. Doubles are
    IEEE binary64 ([f64]). *)
From Verif Require Import Float64 Round_Model.
From Coq Require Import List ZArith Bool.
Import ListNotations.
Open Scope nat_scope.

(** compareRelative (123-143). The result, and what is written to *percentError ([None]: not written).
    The literals are the doubles nearest to 1e-15, 1e-6 and 1e-2; std::max(x, y) is (x < y) ? y : x. *)
Definition lit_1em15 : f64 := fdec 1 15.
Definition lit_1em6 : f64 := fdec 1 6.
Definition lit_1em2 : f64 := fdec 1 2.
Definition compareRelative (a b percentTolerance : f64) : bool * option f64 :=
  let fa := fabs a in
  let fb := fabs b in
  if (fltb fa lit_1em15 && fltb fb lit_1em15) || (feqb fa fzero && fltb fb lit_1em6) || (feqb fb fzero && fltb fa lit_1em6)
  then (true, None)
  else
    let diff := fdiv (fabs (fsub a b)) (fmax fa fb) in
    if fltb (fmul percentTolerance lit_1em2) diff then (false, Some (fmul diff (fofZ 100))) else (true, None).

(** ** Matrices: rows, columns, coefficients. A coefficient outside of the matrix is undefined behaviour (Eigen asserts,
    or reads outside of the storage). *)
Record mat := Mat { mrows : nat; mcols : nat; mcoef : nat -> nat -> f64 }.
Definition coeff (A : mat) (r c : nat) : option f64 :=
  if (r <? mrows A) && (c <? mcols A) then Some (mcoef A r c) else None.
(** What a check does: no failure, a failure reported, or undefined behaviour. *)
Inductive outcome := Passed | Failed | UB.

(** The double loop over the coefficients (r outer, c inner); [chk] is the ASSERT of the loop body: a fatal failure
    returns from the function at once. *)
Fixpoint each (n : nat) (f : nat -> outcome) : outcome :=
  match n with
  | O => Passed
  | S m => match each m f with Passed => f m | o => o end
  end.
Definition each_coeff (rows cols : nat) (chk : nat -> nat -> outcome) : outcome := each rows (fun r => each cols (chk r)).
(** ... of an EXPECT: a failure is recorded and the loop goes on; undefined behaviour wins. *)
Definition also (o1 o2 : outcome) : outcome :=
  match o1, o2 with UB, _ => UB | _, UB => UB | Failed, _ => Failed | _, Failed => Failed | _, _ => Passed end.
Fixpoint every (n : nat) (f : nat -> outcome) : outcome := match n with O => Passed | S m => also (every m f) (f m) end.
Definition every_coeff (rows cols : nat) (chk : nat -> nat -> outcome) : outcome := every rows (fun r => every cols (chk r)).

Definition same_size (A B : mat) : bool := (mrows A =? mrows B) && (mcols A =? mcols B).
Definition on2 (A B : mat) (test : f64 -> f64 -> bool) (r c : nat) : outcome :=
  match coeff A r c, coeff B r c with
  | Some x, Some y => if test x y then Passed else Failed
  | _, _ => UB
  end.
(** googletest: ASSERT_EQ on doubles is ==; ASSERT_NEAR is DoubleNearPredFormat: |x - y| <= tolerance
    (since 1.10: or x == y; older releases do without). *)
Definition eq_test (x y : f64) : bool := feqb x y.
Definition near_test (tol x y : f64) : bool := feqb x y || fleb (fabs (fsub x y)) tol.
(** assertEqual (41-54) *)
Definition assertEqual (A B : mat) : outcome :=
  if same_size A B then each_coeff (mrows A) (mcols A) (on2 A B eq_test) else Failed.
(** assertNear (58-75) *)
Definition assertNear (A B : mat) (tol : f64) : outcome :=
  if same_size A B then each_coeff (mrows A) (mcols A) (on2 A B (near_test tol)) else Failed.
(** expectNear (78-92): EXPECT_EQ on the sizes does not return *)
Definition expectNear (A B : mat) (tol : f64) : outcome :=
  also (if same_size A B then Passed else Failed) (every_coeff (mrows A) (mcols A) (on2 A B (near_test tol))).
(** assertFinite (95-105) *)
Definition assertFinite (A : mat) : outcome :=
  each_coeff (mrows A) (mcols A) (fun r c => match coeff A r c with Some x => if is_finite x then Passed else Failed | None => UB end).
(** ASSERT_DOUBLE_MX_EQ (146-163) *)
Definition assert_double_mx_eq (A B : mat) (percentTolerance : f64) : outcome :=
  if same_size A B then each_coeff (mrows A) (mcols A) (on2 A B (fun x y => fst (compareRelative x y percentTolerance))) else Failed.

(** randomCovariance<N>, randomCovarianceXd (21-36), for the matrix [U] drawn by setRandom(): U^T U + 5 I; the sums run over the row index in order
    (Eigen's coefficient based product).  For every arithmetic: [FArith] are IEEE doubles (what the code runs in), [RArith] exact real numbers. *)
Fixpoint asum (A : Arith) (n : nat) (f : nat -> num A) : num A := match n with O => a_ofZ A 0 | S m => a_add A (asum A m f) (f m) end.
Definition randomCovariance (A : Arith) (n : nat) (U : nat -> nat -> num A) (i j : nat) : num A :=
  a_add A (asum A n (fun k => a_mul A (U k i) (U k j))) (a_mul A (a_ofZ A 5) (a_ofZ A (if i =? j then 1 else 0))).
