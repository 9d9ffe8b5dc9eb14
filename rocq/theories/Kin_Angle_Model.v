(** Model of angleMod, deg2rad and rad2deg (sm_kinematics/src/rotations.cpp 144-152, constants rotations.hpp 15-20) in binary64. *)
From Verif Require Export Float64 Round_Model.

(** SM_2PI 6.283185307179586, SM_DEG2RAD 0.017453292519943, SM_RAD2DEG 57.295779513082323 (rotations.hpp 18-20). The last one has more
    digits than 2^53: the nearest double is 1007958012753983 * 2^-44, see rad2deg_literal in the proofs. *)
Definition SM_2PI : f64 := fdec 6283185307179586 15.
Definition SM_DEG2RAD : f64 := fdec 17453292519943 15.
Definition SM_RAD2DEG : f64 := flit 1007958012753983 (-44).
(** boost::math::round: since Boost 1.55 (modern) through ceil and floor, before that through floor(v + 0.5) and ceil(v - 0.5);
    a result that is not finite throws boost::math::rounding_error ([None]) *)
Definition boost_round (modern : bool) (v : f64) : option f64 :=
  if is_finite v then
    Some (if modern then
      if fltb (fneg fhalf) v && fltb v fhalf then fzero
      else if fltb fzero v then let c := fceil v in if fltb fhalf (fsub c v) then fsub c (fofZ 1) else c
      else let f := ffloor v in if fltb fhalf (fsub v f) then fadd f (fofZ 1) else f
    else if fltb v fzero then fceil (fsub v fhalf) else ffloor (fadd v fhalf))
  else None.
(** angleMod (144-146) *)
Definition fangleMod (modern : bool) (radians : f64) : option f64 :=
  match boost_round modern (fdiv radians SM_2PI) with
  | Some k => Some (fsub radians (fmul SM_2PI k))
  | None => None
  end.
(** deg2rad (147-149), rad2deg (150-152) *)
Definition fdeg2rad (degrees : f64) : f64 := fmul degrees SM_DEG2RAD.
Definition frad2deg (radians : f64) : f64 := fmul radians SM_RAD2DEG.
