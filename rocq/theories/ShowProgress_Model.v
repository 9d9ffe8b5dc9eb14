(** Model of showProgress: sm_common/src/progress_info.cpp:15-29 and sm_common/include/sm/progress_info.hpp:11-18, in IEEE doubles.  std::cout writes a
    finite double with std::fixed and std::setprecision(2) as the decimal with two digits nearest to its exact value, ties to even (glibc, round to
    nearest).  The template is modelled for integer types: done and all are converted to double with rounding to nearest. *)
From Coq Require Import Reals ZArith Lia.
From Flocq Require Import Core IEEE754.BinarySingleNaN.
From Verif Require Export Bytes Float64.
From Verif Require Import PTree_Model.
Open Scope R_scope.

(** two digits *)
Definition two (z : Z) : bytes := [(48 + Z.to_N (z / 10))%N; (48 + Z.to_N (z mod 10))%N].
(** a double with fixed and setprecision(2) *)
Definition fixed2 (x : f64) : bytes :=
  match x with
  | B754_nan => str "nan"
  | B754_infinity s => (if s then [45%N] else []) ++ str "inf"
  | _ => let k := Z.abs (ZnearestE (B2R x * 100)) in (if Bsign x then [45%N] else []) ++ print_int (k / 100) ++ 46%N :: two (k mod 100)
  end.
(** what a call does: an exception, or the text written to std::cout *)
Inductive shown := Text (b : bytes) | Throws.
(** showProgress(double) (15-29); [debug] says whether the _DBG assertions are compiled in (assert_macros.hpp:263) *)
Definition showProgress (debug : bool) (p : f64) : shown :=
  if debug && fltb p fzero then Throws
  else if debug && fltb (fofZ 1) p then Throws
  else if fleb (fofZ 1) p then Text (13%N :: str "Complete!             " ++ [10%N])
  else Text (13%N :: fixed2 (fmul (fofZ 100) p) ++ str "% complete ").
(** showProgress(done, all) (progress_info.hpp:13-18) *)
Definition showProgress2 (debug : bool) (done all : Z) : shown :=
  if (all <=? 0)%Z then Throws else showProgress debug (fdiv (fofZ done) (fofZ all)).
