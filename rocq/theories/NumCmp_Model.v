(** Model of sm_common/include/sm/numerical_comparisons.hpp (ValueType_ = double) and of
    sm_common/include/sm/assert_macros.hpp on doubles. *)
From Verif Require Import Float64.

(** The condition under which each macro throws ([true] = throws the given exception).
    a >= b is written [fleb b a], a > b as [fltb b a], a != b as [negb (feqb a b)] (IEEE: true on NaN). *)
Definition assert_LT (value upper : f64) : bool := fleb upper value.                (* 129-130 *)
Definition assert_GE (value lower : f64) : bool := fltb value lower.                (* 137-138 *)
Definition assert_LE (value upper : f64) : bool := fltb upper value.                (* 147-148 *)
Definition assert_GT (value lower : f64) : bool := fleb value lower.                (* 155-156 *)
Definition assert_GE_LT (value lo hi : f64) : bool := fltb value lo || fleb hi value. (* 105-106 *)
Definition assert_GT_LE (value lo hi : f64) : bool := fleb value lo || fltb hi value. (* 113-114 *)
Definition assert_GE_LE (value lo hi : f64) : bool := fltb value lo || fltb hi value. (* 121-122 *)
Definition assert_POSITIVE (value : f64) : bool := fleb value fzero.                (* 163-164 *)
Definition assert_NONNEGATIVE (value : f64) : bool := fltb value fzero.             (* 171-172 *)
Definition assert_NEGATIVE (value : f64) : bool := fleb fzero value.                (* 179-180 *)
Definition assert_NONPOSITIVE (value : f64) : bool := fltb fzero value.             (* 187-188 *)
Definition assert_ZERO (value : f64) : bool := negb (feqb value fzero).             (* 195-196 *)
Definition assert_EQ (value test : f64) : bool := negb (feqb value test).           (* 219-220 *)
Definition assert_NE (value test : f64) : bool := feqb value test.                  (* 227-228 *)
Definition assert_NEAR (value test err : f64) : bool :=
  negb (fleb (fabs (fsub test value)) (fabs err)).                                  (* 235-236 *)
Definition assert_FINITE (value : f64) : bool := negb (is_finite value).            (* 243-244 *)
Definition assert_NOTNAN (value : f64) : bool := is_nan value.                      (* 251-252 *)

(** The _DBG variants (273-446) have the same conditions when NDEBUG is not defined and expand to
    nothing otherwise (452-470). *)
Definition dbg (ndebug : bool) (throws : bool) : bool := if ndebug then false else throws.

(** A call either throws std::invalid_argument ([None]) or returns. *)
Definition guard (throws : bool) {A} (x : A) : option A := if throws then None else Some x.

(** internal::maxTimesEpsilon (45-49) *)
Definition maxTimesEpsilon (ndebug : bool) (a b eps : f64) : option f64 :=
  guard (dbg ndebug (assert_GT eps fzero)) (fmul (fmax (fabs a) (fabs b)) eps).

(** approximatelyEqual (61-65) *)
Definition approximatelyEqual (ndebug : bool) (a b eps : f64) : option bool :=
  if assert_GT eps fzero then None
  else option_map (fun m => fleb (fabs (fsub a b)) m) (maxTimesEpsilon ndebug a b eps).

(** definitelyGreaterThan (75-79) *)
Definition definitelyGreaterThan (ndebug : bool) (a b eps : f64) : option bool :=
  if assert_GT eps fzero then None
  else option_map (fun m => fltb m (fsub a b)) (maxTimesEpsilon ndebug a b eps).

(** definitelyLessThan (89-93) *)
Definition definitelyLessThan (ndebug : bool) (a b eps : f64) : option bool :=
  if assert_GT eps fzero then None
  else option_map (fun m => fltb m (fsub b a)) (maxTimesEpsilon ndebug a b eps).
