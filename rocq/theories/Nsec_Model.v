(** Model of sm_timing/src/NsecTimeUtilities.cpp. NsecTime = int64 as [Z]; [None] = undefined conversion. *)
From Verif Require Import Float64 Round_Model.
Open Scope Z_scope.

Definition int64_min : Z := - 2 ^ 63.
Definition int64_max : Z := 2 ^ 63 - 1.
Definition is_int64 (t : Z) : Prop := int64_min <= t <= int64_max.

(** The literals 1e-9 and 1e9 as doubles. *)
Definition lit_1em9 : f64 := fdec 1 9.
Definition lit_1e9 : f64 := fofZ (10 ^ 9).

(** nsecToSec (28-30) *)
Definition nsecToSec (time : Z) : f64 := fmul (fofZ time) lit_1em9.
(** secToNsec (34-36): truncating conversion, undefined outside int64. *)
Definition secToNsec (time : f64) : option Z := cast_int 64 (fmul time lit_1e9).

(** getInvalidTime (38-40) *)
Definition getInvalidTime : Z := int64_min.
(** isValid (42-44) *)
Definition isValid (time : Z) : bool := getInvalidTime =? time.

(** nsecToChrono (7-11) / chronoToNsec (15-17): duration_cast between nanoseconds and the
    system clock's duration, whose tick is [period] nanoseconds (libstdc++: 1; other standard
    libraries use coarser ticks). duration_cast truncates towards zero. *)
Definition nsecToChrono (period time : Z) : Z := Z.quot time period.
Definition chronoToNsec (period ticks : Z) : Z := ticks * period.
