(** Model of sm_timing/src/Timer.cpp and include/sm/timing/Timer.hpp (non-Windows branch).
    One thread at a time (m_mutex is only taken by getHandle, addTime and reset; the unlocked readers race with
    them, which is not modelled).  The accumulators are exact: durations are rationals (seconds), a duration is
    (now - m_time) in nanoseconds times 1e-9.  The tables printed by print, with the accumulators in binary64, are
    modelled in TimerTable_Model. *)
From Coq Require Export QArith.
From Verif Require Export Bytes.
From Coq Require Export Qround.
From Coq Require Import DecimalString.
From Verif Require Import Float64 Round_Model Strings_Model.
Import ListNotations.
Open Scope nat_scope.

Notation tag := bytes (only parsing).
Notation timer_id := nat (only parsing).

(** boost accumulator_set<double, lazy_variance, sum, min, max, rolling_mean, mean> with window 50 (16-30):
    the stored quantities. min/max start at the largest/lowest double; that start value is never visible once a
    sample was added, it is represented by [None]. *)
Record acc := mkAcc { a_cnt : nat; a_sum : Q; a_sum2 : Q; a_min : option Q; a_max : option Q; a_win : list Q }.
Definition window_size := 50.
Definition newAcc : acc := mkAcc 0 0 0 None None [].
Definition accAdd (a : acc) (x : Q) : acc :=
  mkAcc (S (a_cnt a)) (a_sum a + x)%Q (a_sum2 a + x * x)%Q
    (match a_min a with None => Some x | Some m => Some (if Qlt_le_dec x m then x else m) end)
    (match a_max a with None => Some x | Some m => Some (if Qlt_le_dec m x then x else m) end)
    (let w := a_win a ++ [x] in if length w <=? window_size then w else tl w).

(** Timer objects (44-61): m_timing, m_handle, m_time. *)
Record timer := mkTimer { m_timing : bool; m_handle : nat; m_time : Z }.

(** The singleton (108-114) and the live Timer objects. *)
Record state := mkSt { tagMap : list (tag * nat); timers : list acc; objs : list (timer_id * timer) }.
Definition initSt : state := mkSt [] [] [].

Fixpoint lookup_tag (m : list (tag * nat)) (t : tag) : option nat :=
  match m with
  | [] => None
  | (t', h) :: m' => if bytes_eqb t t' then Some h else lookup_tag m' t
  end.
Fixpoint lookup_handle (m : list (tag * nat)) (h : nat) : option tag :=
  match m with
  | [] => None
  | (t, h') :: m' => if Nat.eqb h' h then Some t else lookup_handle m' h
  end.
Fixpoint lookup_obj (m : list (timer_id * timer)) (i : timer_id) : option timer :=
  match m with
  | [] => None
  | (i', t) :: m' => if Nat.eqb i' i then Some t else lookup_obj m' i
  end.
Definition remove_obj (m : list (timer_id * timer)) (i : timer_id) : list (timer_id * timer) :=
  filter (fun p => negb (Nat.eqb (fst p) i)) m.
Definition set_obj (m : list (timer_id * timer)) (i : timer_id) (t : timer) := (i, t) :: remove_obj m i.
Fixpoint update {A} (l : list A) (i : nat) (f : A -> A) : list A :=
  match l, i with
  | [], _ => []
  | x :: l', 0 => f x :: l'
  | x :: l', S i' => x :: update l' i' f
  end.

(** Results visible to the caller. *)
Inductive result := RUnit | RHandle (h : nat) | RTag (t : tag) | RBool (b : bool) | RStats (a : acc)
  | RThrow            (* TimerException *)
  | RBadObject.       (* no such Timer object: the program is ill-formed, nothing happens *)

(** getHandle (57-72): new tags get the handle m_timers.size(). *)
Definition getHandle (s : state) (t : tag) : state * nat :=
  match lookup_tag (tagMap s) t with
  | Some h => (s, h)
  | None => let h := length (timers s) in
            (mkSt (tagMap s ++ [(t, h)]) (timers s ++ [newAcc]) (objs s), h)
  end.
(** getTag (75-91) *)
Definition getTag (s : state) (h : nat) : result :=
  match lookup_handle (tagMap s) h with Some t => RTag t | None => RThrow end.

(** Timer::start (118-126) *)
Definition timer_start (s : state) (i : timer_id) (now : Z) : state * result :=
  match lookup_obj (objs s) i with
  | None => (s, RBadObject)
  | Some t => if m_timing t then (s, RThrow)
              else (mkSt (tagMap s) (timers s) (set_obj (objs s) i (mkTimer true (m_handle t) now)), RUnit)
  end.
(** addTime (151-154) *)
Definition addTime (s : state) (h : nat) (dt : Q) : state :=
  mkSt (tagMap s) (update (timers s) h (fun a => accAdd a dt)) (objs s).
Definition seconds_between (t0 t1 : Z) : Q := ((t1 - t0) # 1000000000)%Q.
(** Timer::stop (128-143) *)
Definition timer_stop (s : state) (i : timer_id) (now : Z) : state * result :=
  match lookup_obj (objs s) i with
  | None => (s, RBadObject)
  | Some t => if negb (m_timing t) then (s, RThrow)
              else let s' := addTime s (m_handle t) (seconds_between (m_time t) now) in
                   (mkSt (tagMap s') (timers s') (set_obj (objs s') i (mkTimer false (m_handle t) (m_time t))), RUnit)
  end.

Inductive op :=
  | OGetHandle (t : tag)
  | OGetTag (h : nat)
  | ONewHandle (i : timer_id) (h : nat) (constructStopped : bool) (now : Z)    (* 95-103 *)
  | ONewTag (i : timer_id) (t : tag) (constructStopped : bool) (now : Z)       (* 105-111 *)
  | OStart (i : timer_id) (now : Z)
  | OStop (i : timer_id) (now : Z)
  | OIsTiming (i : timer_id)                                                   (* 145-148 *)
  | ODestroy (i : timer_id) (now : Z)                                          (* 113-116 *)
  | OStats (h : nat)                                                           (* 156-203, by handle *)
  | OStatsTag (t : tag)                                                        (* the overloads by tag *)
  | OReset (h : nat)                                                           (* 210-214 *)
  | OResetTag (t : tag).                                                       (* 216-219 *)

Definition get_stats (s : state) (h : nat) : result :=
  match nth_error (timers s) h with Some a => RStats a | None => RThrow end.
Definition do_reset (s : state) (h : nat) : state * result :=
  if h <? length (timers s)
  then (mkSt (tagMap s) (update (timers s) h (fun _ => newAcc)) (objs s), RUnit)
  else (s, RThrow).
(** A constructor that throws leaves no object behind. *)
Definition new_obj (s : state) (i : timer_id) (h : nat) (stopped : bool) (now : Z) : state * result :=
  let s' := mkSt (tagMap s) (timers s) (set_obj (objs s) i (mkTimer false h 0)) in
  if stopped then (s', RUnit) else timer_start s' i now.

Definition step (s : state) (o : op) : state * result :=
  match o with
  | OGetHandle t => let '(s', h) := getHandle s t in (s', RHandle h)
  | OGetTag h => (s, getTag s h)
  | ONewHandle i h st now =>
      match lookup_obj (objs s) i with
      | Some _ => (s, RBadObject)
      | None => if h <? length (timers s) then new_obj s i h st now else (s, RThrow)
      end
  | ONewTag i t st now =>
      match lookup_obj (objs s) i with
      | Some _ => (s, RBadObject)
      | None => let '(s', h) := getHandle s t in new_obj s' i h st now
      end
  | OStart i now => timer_start s i now
  | OStop i now => timer_stop s i now
  | OIsTiming i => (s, match lookup_obj (objs s) i with Some t => RBool (m_timing t) | None => RBadObject end)
  | ODestroy i now =>
      match lookup_obj (objs s) i with
      | None => (s, RBadObject)
      | Some t => let s' := if m_timing t then fst (timer_stop s i now) else s in
                  (mkSt (tagMap s') (timers s') (remove_obj (objs s') i), RUnit)
      end
  | OStats h => (s, get_stats s h)
  | OStatsTag t => let '(s', h) := getHandle s t in (s', get_stats s' h)
  | OReset h => do_reset s h
  | OResetTag t => let '(s', h) := getHandle s t in do_reset s' h
  end.
Fixpoint run (s : state) (ops : list op) : state * list result :=
  match ops with
  | [] => (s, [])
  | o :: ops' => let '(s1, r) := step s o in let '(s2, rs) := run s1 ops' in (s2, r :: rs)
  end.

(** The extractors (158-202), undefined/NaN without samples. variance(lazy) = E[x^2] - mean^2. *)
Definition getNumSamples (a : acc) : nat := a_cnt a.
Definition getTotalSeconds (a : acc) : Q := a_sum a.
Definition nQ (n : nat) : Q := inject_Z (Z.of_nat n).
Definition getMeanSeconds (a : acc) : option Q := if a_cnt a =? 0 then None else Some (a_sum a / nQ (a_cnt a))%Q.
Definition getVarianceSeconds (a : acc) : option Q :=
  match getMeanSeconds a with
  | None => None
  | Some m => Some (a_sum2 a / nQ (a_cnt a) - m * m)%Q
  end.
Definition getMinSeconds (a : acc) : option Q := a_min a.
Definition getMaxSeconds (a : acc) : option Q := a_max a.
Definition Qsum (l : list Q) : Q := fold_right Qplus 0%Q l.
(** getHz (199-203): 1 / rolling_mean; [None] if there is no sample or the mean is zero (inf/NaN). *)
Definition getHz (a : acc) : option Q :=
  if (length (a_win a) =? 0) || Qeq_bool (Qsum (a_win a)) 0 then None
  else Some (1 / (Qsum (a_win a) / nQ (length (a_win a))))%Q.

(** * secondsToTimeString (221-235) *)
(** The exact rational value of a finite double. *)
Definition f2q (x : f64) : Q :=
  match x with
  | B754_finite s m e _ =>
      let z := if s then Z.neg m else Z.pos m in
      if (0 <=? e)%Z then inject_Z (z * 2 ^ e) else (z # Z.to_pos (2 ^ (- e)))%Q
  | _ => 0%Q
  end.
(** fmod(x, 60) is exact: x - 60 * trunc(x / 60). *)
Definition Qtrunc (q : Q) : Z := Z.quot (Qnum q) (Zpos (Qden q)).
Definition fmod60 (q : Q) : Q := (q - inject_Z (60 * Qtrunc (q / 60)))%Q.
(** conversion long -> int: modulo 2^32 (implementation defined, gcc) *)
Definition to_int32 (z : Z) : Z := ((z + 2 ^ 31) mod 2 ^ 32 - 2 ^ 31)%Z.
Definition dec (z : Z) : bytes := str (NilZero.string_of_int (Z.to_int z)).
(** "%02d" *)
Definition fmt02d (z : Z) : bytes :=
  if (z <? 0)%Z then (let d := dec (- z) in str "-" ++ (leading_pad d 1 48%N)) else leading_pad (dec z) 2 48%N.
(** "%09.6f" of the value with sign bit neg and exact magnitude q >= 0: the decimal with 6 digits nearest to q (ties to
    even), padded with zeros to 9 characters including the sign. *)
Definition Qround_even (q : Q) : Z :=
  let f := Qfloor q in
  let r := (q - inject_Z f)%Q in
  match Qcompare r (1 # 2) with
  | Lt => f | Gt => (f + 1)%Z | Eq => if Z.even f then f else (f + 1)%Z
  end.
(** the last k decimal digits of z >= 0 *)
Fixpoint digs (k : nat) (z : Z) : bytes :=
  match k with 0 => [] | S k' => digs k' (z / 10) ++ [Z.to_N (48 + z mod 10)] end.
Definition fmt096f (neg : bool) (q : Q) : bytes :=
  let us := Qround_even (q * inject_Z 1000000) in
  let d := dec (us / 1000000) ++ str "." ++ digs 6 (us mod 1000000) in
  if neg then str "-" ++ leading_pad d 8 48%N else leading_pad d 9 48%N.

(** [None] = undefined: the double to long conversions out of range. fmod has the sign of its first argument. *)
Definition secondsToTimeString (seconds : f64) : option bytes :=
  let secs := fmod60 (f2q seconds) in
  match cast_int 64 (fdiv seconds (fofZ 60)), cast_int 64 (fdiv seconds (fofZ 3600)) with
  | Some m0, Some h0 =>
      let minutes := to_int32 m0 in
      let hours := to_int32 h0 in
      let minutes := (minutes - hours * 60)%Z in
      Some (fmt02d hours ++ str ":" ++ fmt02d minutes ++ str ":" ++ 
            fmt096f (Bsign seconds) (if Bsign seconds then - secs else secs)%Q)
  | _, _ => None
  end.
