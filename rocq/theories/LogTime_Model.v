(** Model of Logger::currentTimeSecondsUtc and Logger::currentTimeString: sm_logging/src/Logger.cpp:12-31, in IEEE doubles.  The time a log line carries
    (StdOutLogger and Formatter token ${time}) is this text.  The clock is std::chrono::system_clock, which on Linux counts nanoseconds since the epoch in
    64 bits; its reading is the parameter [ns].  A stringstream writes a finite double with fixed and precision(6) as the decimal with six digits nearest
    to its exact value, ties to even (glibc, round to nearest). *)
From Coq Require Import Reals ZArith Lia.
From Flocq Require Import Core IEEE754.BinarySingleNaN.
From Verif Require Export Bytes Float64.
From Verif Require Import PTree_Model.
Open Scope R_scope.

(** std::chrono::duration_cast<microseconds> (Logger.cpp:15): integer division, truncating toward zero *)
Definition to_micros (ns : Z) : Z := Z.quot ns 1000.
(** Logger::currentTimeSecondsUtc (Logger.cpp:12-17) *)
Definition currentTimeSecondsUtc (ns : Z) : f64 := fdiv (fofZ (to_micros ns)) (fofZ 1000000).
(** six digits, with leading zeros *)
Definition six (z : Z) : bytes :=
  [(48 + Z.to_N (z / 100000))%N; (48 + Z.to_N (z / 10000 mod 10))%N; (48 + Z.to_N (z / 1000 mod 10))%N;
   (48 + Z.to_N (z / 100 mod 10))%N; (48 + Z.to_N (z / 10 mod 10))%N; (48 + Z.to_N (z mod 10))%N].
(** a double with fixed and precision(6) (Logger.cpp:22-27) *)
Definition fixed6 (x : f64) : bytes :=
  match x with
  | B754_nan => str "nan"
  | B754_infinity s => (if s then [45%N] else []) ++ str "inf"
  | _ => let k := Z.abs (ZnearestE (B2R x * 1000000)) in (if Bsign x then [45%N] else []) ++ print_int (k / 1000000) ++ 46%N :: six (k mod 1000000)
  end.
(** Logger::currentTimeString (Logger.cpp:19-31) *)
Definition currentTimeString (ns : Z) : bytes := fixed6 (currentTimeSecondsUtc ns).
