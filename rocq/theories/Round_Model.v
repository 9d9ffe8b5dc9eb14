(** Model of sm_common/include/sm/round.hpp (double overloads; the float overloads are the same code on
    binary32 and are not modelled) and sm_common/include/sm/maths.hpp. *)
From Verif Require Import Float64.

(** std::floor / std::ceil: exact rounding to an integral double. *)
Definition ffloor (x : f64) : f64 := Bnearbyint mode_DN x.
Definition fceil (x : f64) : f64 := Bnearbyint mode_UP x.

(** round(double) (6-9) *)
Definition sm_round (number : f64) : f64 :=
  if fltb number fzero then fceil (fsub number fhalf) else ffloor (fadd number fhalf).

(** static_cast<intN_t>(double): truncation; undefined ([None]) for NaN, infinities and values whose
    truncation does not fit. *)
Definition cast_int (bits : Z) (x : f64) : option Z :=
  if is_finite x then
    let t := Btrunc x in
    if ((- 2 ^ (bits - 1) <=? t) && (t <? 2 ^ (bits - 1)))%Z then Some t else None
  else None.

(** rint(double) (16-19): int is 32 bits. *)
Definition sm_rint (number : f64) : option Z := cast_int 32 (sm_round number).
(** lrint(double) (26-29): returns long, but casts to int. *)
Definition sm_lrint (number : f64) : option Z := cast_int 32 (sm_round number).

(** maths.hpp, written once over an arbitrary arithmetic and instantiated with exact reals and with
    binary64. *)
Record Arith := mkArith {
  num : Type;
  a_add : num -> num -> num; a_sub : num -> num -> num; a_mul : num -> num -> num;
  a_div : num -> num -> num; a_sqrt : num -> num; a_opp : num -> num;
  a_ltb : num -> num -> bool; a_ofZ : Z -> num }.

(** solveQuadratic (maths.hpp:21-39); [None] = std::runtime_error thrown by SM_ASSERT_GE(.., 0.0). *)
Definition solveQuadratic (A : Arith) (a b c : num A) : option (num A * num A) :=
  let bb_m_4ac := a_sub A (a_mul A b b) (a_mul A (a_mul A (a_ofZ A 4) c) a) in
  if a_ltb A bb_m_4ac (a_ofZ A 0) then None
  else
    let n := if a_ltb A b (a_ofZ A 0) then a_sub A (a_sqrt A bb_m_4ac) b
             else a_sub A (a_opp A (a_sqrt A bb_m_4ac)) b in
    Some (a_div A n (a_mul A (a_ofZ A 2) a), a_div A (a_mul A (a_ofZ A 2) c) n).

(** sgn (maths.hpp:49-51) *)
Definition sgn (A : Arith) (v : num A) : Z :=
  ((if a_ltb A (a_ofZ A 0) v then 1 else 0) - (if a_ltb A v (a_ofZ A 0) then 1 else 0))%Z.

Definition RArith : Arith := mkArith R Rplus Rminus Rmult Rdiv sqrt Ropp Rlt_bool IZR.
Definition FArith : Arith := mkArith f64 fadd fsub fmul fdiv fsqrt fneg fltb fofZ.
