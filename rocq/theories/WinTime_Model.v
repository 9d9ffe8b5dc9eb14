(** Model of sm_logging/src/gettimeofday.hpp (30-69, the WIN32 branch; elsewhere the function passes its arguments to the system's
    gettimeofday) and of sm_boost/include/sm/boost/ptime.hpp (8-19).  On Windows long has 32 bits, and the conversion to it of a larger number is
    modulo 2^32 (implementation defined; MSVC and gcc agree). *)
From Coq Require Import ZArith Lia Bool.
Open Scope Z_scope.

Definition u64 (z : Z) : Z := z mod 2 ^ 64.
Definition to_long (z : Z) : Z := (z + 2 ^ 31) mod 2 ^ 32 - 2 ^ 31.
(** DELTA_EPOCH_IN_MICROSECS (18-22) *)
Definition delta_epoch : Z := 11644473600000000.
Record timeval := mkTv { tv_sec : Z; tv_usec : Z }.
Record tzone := mkTz { minuteswest : Z; dsttime : Z }.
(** the FILETIME read from the system clock, split in two 32-bit halves *)
Record filetime := mkFt { hi : Z; lo : Z }.
(** tv->tv_sec, tv->tv_usec (37-62) *)
Definition read_tv (ft : filetime) : timeval :=
  let t0 := Z.lor 0 (hi ft) in
  let t1 := u64 (Z.shiftl t0 32) in
  let t2 := Z.lor t1 (lo ft) in
  let t3 := t2 / 10 in
  let t4 := u64 (t3 - delta_epoch) in
  mkTv (to_long (t4 / 1000000)) (to_long (t4 mod 1000000)).
(** gettimeofday: which of the two pointers are non-null decides what is written; [timezone] and [daylight] are the C runtime's
    _timezone (in seconds, quot: C division) and _daylight after _tzset (64-75) *)
Definition gettimeofday (ft : filetime) (timezone daylight : Z) (tv : option timeval) (tz : option tzone) : option timeval * option tzone * Z :=
  (match tv with None => None | Some _ => Some (read_tv ft) end,
   match tz with None => None | Some _ => Some (mkTz (Z.quot timezone 60) daylight) end, 0).

(** ptimeToTimeval (ptime.hpp:8-19): the value computed is never returned; flowing off the end of a function that returns a value is
    undefined behaviour.  [us]: microseconds since 1970; total_seconds truncates toward zero *)
Inductive called := Returned (tv : timeval) | UndefinedBehaviour.
Definition ptimeToTimeval (us : Z) : called :=
  let tv := mkTv (Z.quot us 1000000) (Z.rem us 1000000) in
  UndefinedBehaviour.
