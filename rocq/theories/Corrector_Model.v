(** Model of sm_timing/include/sm/timing/TimestampCorrector.hpp and
    sm_timing/include/sm/timing/implementation/TimestampCorrector.hpp ("impl" below).

    The class is a template over time_t; the model is written once over a record of the operations the
    code applies to time_t ([None] = undefined behaviour: signed overflow or an out of range
    conversion) and instantiated with exact rationals ([QTime]), with int64 ([I64Time], exported to
    Python as LongTimestampCorrector) and with double ([F64Time]).  Not modelled: printHullPoints, the text of
    exceptions, and the _DBG assertions of impl:42-51 (compiled out with NDEBUG; without it they throw
    exactly in cases the theorems exclude). *)
From Coq Require Export List ZArith QArith Lia Bool.
From Verif Require Import Float64 Round_Model.
Export ListNotations.
Open Scope Z_scope.

Record TimeType := mkTime {
  time_t : Type;
  dbl_t : Type;                                     (* the result type of getSlope/getOffset *)
  t_sub : time_t -> time_t -> option time_t;
  t_mul : time_t -> time_t -> option time_t;
  t_le : time_t -> time_t -> bool;
  t_lt : time_t -> time_t -> bool;
  t_zero : time_t;                                  (* static_cast<T>(0.0) *)
  t_half : time_t -> option time_t;                 (* switchingPeriod / 2 *)
  t_mid : time_t -> time_t -> option time_t;        (* static_cast<T>((a + b) / 2.0) *)
  t_line : time_t -> time_t -> time_t -> time_t -> time_t -> option time_t;  (* impl:141-143: x1 y1 x2 y2 remote *)
  t_slope : time_t -> time_t -> time_t -> time_t -> option dbl_t;            (* impl:111 : x1 y1 x2 y2 *)
  t_offset : time_t -> time_t -> time_t -> time_t -> option dbl_t            (* impl:124 *)
}.

Definition obind {A B} (x : option A) (f : A -> option B) : option B :=
  match x with Some a => f a | None => None end.
Notation "'do' x <- e ; f" := (obind e (fun x => f)) (at level 60, x name, e at level 59, right associativity).

(** The outcome of a member function: it returns, throws (with the state it leaves behind), or has
    undefined behaviour. *)
Inductive exn := TimeWentBackwards | NotInitialized.
Inductive outcome (V S : Type) := Ret (v : V) (s : S) | Throw (e : exn) (s : S) | Undef.
Arguments Ret {V S} v s. Arguments Throw {V S} e s. Arguments Undef {V S}.

Section Code.
  Variable T : TimeType.
  Notation TT := (time_t T).

  (** class Point (TimestampCorrector.hpp:114-126) *)
  Record Point := mkP { px : TT; py : TT }.

  (** The data members (149-153). [hull] is _convexHull with its back() first; the vector itself is
      [points] below. The pending corrector's own _pendingCorrector is always null after a member
      function returns (impl:80), so it is a plain hull and index. *)
  Record core := mkCore { hull : list Point; mid : nat }.
  Record corrector := mkC { main : core; pending : option core }.
  Definition points (c : core) : list Point := rev (hull c).

  (** impl:5 *)
  Definition emptyCore : core := mkCore [] 0.
  Definition newCorrector : corrector := mkC emptyCore None.

  (** isAboveLine (impl:159-166) with Point::operator- (122) *)
  Definition isAboveLine (l1 l2 p : Point) : option bool :=
    do v1x <- t_sub T (px l2) (px l1); do v1y <- t_sub T (py l2) (py l1);
    do v2x <- t_sub T (px p) (px l1); do v2y <- t_sub T (py p) (py l1);
    do a <- t_mul T v1x v2y; do b <- t_mul T v1y v2x;
    do det <- t_sub T a b;
    Some (t_le T (t_zero T) det).

  (** isAboveTopLine (impl:148-156) *)
  Definition isAboveTopLine (h : list Point) (p : Point) : option bool :=
    match h with
    | top :: second :: _ => isAboveLine second top p
    | _ => Some true
    end.

  (** The loop of impl:26-29 *)
  Fixpoint popWhile (p : Point) (h : list Point) : option (list Point) :=
    match h with
    | top :: ((second :: _) as rest) =>
        do b <- isAboveLine second p top; if b then popWhile p rest else Some h
    | _ => Some h
    end.

  (** impl:23-33: the hull after the new point has been pushed. *)
  Definition pushPoint (h : list Point) (p : Point) : option (list Point) :=
    do above <- isAboveTopLine h p;
    do h' <- (if above then Some h else popWhile p h);
    Some (p :: h').

  (** std::lower_bound over the vector, ordered by Point::operator<(time_t) (125): the number of leading
      points with x < t. (Equal to the standard's result when the vector is sorted by x, which is a theorem.) *)
  Fixpoint lowerBound (v : list Point) (t : TT) : nat :=
    match v with
    | [] => 0
    | p :: v' => if t_lt T (px p) t then S (lowerBound v' t) else 0
    end.

  (** The two points used by getSlope, getOffset and getLocalTime (impl:107-108, 120-121, 137-138);
      [None] = index past the end. A _midpointSegmentIndex of size_t(-1) is represented by [lb = 0] in
      [correctCore], which is undefined as soon as it is used. *)
  Definition segment (c : core) : option (Point * Point) :=
    match nth_error (points c) (mid c), nth_error (points c) (S (mid c)) with
    | Some l1, Some l2 => Some (l1, l2)
    | _, _ => None
    end.

  (** getLocalTime (impl:129-145); SM_ASSERT_GE(NotInitializedException, size, 2) *)
  Definition getLocalTime (c : core) (remote : TT) : outcome TT unit :=
    if Nat.ltb (length (hull c)) 2 then Throw NotInitialized tt
    else match (do s <- segment c; t_line T (px (fst s)) (py (fst s)) (px (snd s)) (py (snd s)) remote) with
         | Some t => Ret t tt
         | None => Undef
         end.
  (** getSlope (impl:100-112), getOffset (impl:114-125) *)
  Definition getSlope (c : core) : outcome (dbl_t T) unit :=
    if Nat.ltb (length (hull c)) 2 then Throw NotInitialized tt
    else match (do s <- segment c; t_slope T (px (fst s)) (py (fst s)) (px (snd s)) (py (snd s))) with
         | Some t => Ret t tt
         | None => Undef
         end.
  Definition getOffset (c : core) : outcome (dbl_t T) unit :=
    if Nat.ltb (length (hull c)) 2 then Throw NotInitialized tt
    else match (do s <- segment c; t_offset T (px (fst s)) (py (fst s)) (px (snd s)) (py (snd s))) with
         | Some t => Ret t tt
         | None => Undef
         end.

  (** correctTimestamp(remote, local) (impl:10-60) on the members _convexHull and _midpointSegmentIndex.
      SM_ASSERT_GT throws when remote <= last.x. *)
  Definition correctCore (c : core) (remote loc : TT) : outcome TT core :=
    if match hull c with top :: _ => t_le T remote (px top) | [] => false end
    then Throw TimeWentBackwards c
    else
      let p := mkP remote loc in
      match pushPoint (hull c) p with
      | None => Undef
      | Some h =>
          if Nat.ltb (length h) 3 then Ret loc (mkCore h (mid c))            (* 53-56 *)
          else match t_mid T (px (last h p)) remote with                     (* 37: _convexHull[0].x *)
               | None => Undef
               | Some m =>
                   match lowerBound (rev h) m with                           (* 39-41 *)
                   | O => Undef                                              (* index -1 *)
                   | S i =>
                       let c' := mkCore h i in
                       match getLocalTime c' remote with                     (* 58 *)
                       | Ret t _ => Ret t c' | Throw e _ => Throw e c' | Undef => Undef
                       end
                   end
               end
      end.

  Definition correctTimestamp (c : corrector) (remote loc : TT) : outcome TT corrector :=
    match correctCore (main c) remote loc with
    | Ret t m => Ret t (mkC m (pending c))
    | Throw e m => Throw e (mkC m (pending c))
    | Undef => Undef
    end.

  (** span (impl:87-98) *)
  Definition span (c : core) : option TT :=
    match hull c with
    | back :: _ :: _ :: _ => t_sub T (py back) (py (last (hull c) back))
    | _ => Some (t_zero T)
    end.

  (** correctTimestamp(remote, local, switchingPeriod) (impl:62-84). The shared_ptr dance of 77-80 (reset the
      own hull, let the pending corrector point at itself, swap the two objects, cut the cycle)
      leaves the pending hull in *this and an empty pending corrector. Dereferencing a null
      _pendingCorrector in line 78 is undefined. *)
  Definition correctPeriodic (c : corrector) (remote loc period : TT) : outcome TT corrector :=
    match correctCore (main c) remote loc with
    | Undef => Undef
    | Throw e m => Throw e (mkC m (pending c))
    | Ret t m =>
        match (do s <- span m; do half <- t_half T period; Some (s, half)) with
        | None => Undef
        | Some (s, half) =>
            let pend0 := match pending c with
                         | Some q => Some q
                         | None => if t_lt T half s then Some emptyCore else None
                         end in
            match pend0 with
            | None => if t_lt T period s then Undef else Ret t (mkC m None)
            | Some q =>
                match correctCore q remote loc with
                | Undef => Undef
                | Throw e q' => Throw e (mkC m (Some q'))
                | Ret _ q' => if t_lt T period s then Ret t (mkC q' (Some emptyCore))
                              else Ret t (mkC m (Some q'))
                end
            end
        end
    end.

  (** reset (TimestampCorrector.hpp:97) *)
  Definition reset (c : corrector) : corrector := mkC emptyCore (pending c).
End Code.

Arguments px {T}. Arguments py {T}. Arguments mkP {T}. Arguments hull {T}. Arguments mid {T}. Arguments mkCore {T}.
Arguments main {T}. Arguments pending {T}. Arguments mkC {T}. Arguments points {T}. Arguments segment {T}.
Arguments isAboveLine {T}. Arguments isAboveTopLine {T}. Arguments popWhile {T}. Arguments pushPoint {T}.
Arguments lowerBound {T}. Arguments getLocalTime {T}. Arguments getSlope {T}. Arguments getOffset {T}.
Arguments correctCore {T}. Arguments correctTimestamp {T}. Arguments span {T}. Arguments correctPeriodic {T}.
Arguments reset {T}.

(** Exact arithmetic. *)
Definition Qlt_bool (a b : Q) : bool := negb (Qle_bool b a).
Definition QTime : TimeType := {|
  time_t := Q; dbl_t := Q;
  t_sub := fun a b => Some (a - b)%Q; t_mul := fun a b => Some (a * b)%Q;
  t_le := Qle_bool; t_lt := Qlt_bool; t_zero := 0%Q;
  t_half := fun a => Some (a / 2)%Q; t_mid := fun a b => Some ((a + b) / 2)%Q;
  t_line := fun x1 y1 x2 y2 r => Some (y1 + (y2 - y1) / (x2 - x1) * (r - x1))%Q;
  t_slope := fun x1 y1 x2 y2 => Some ((y2 - y1) / (x2 - x1))%Q;
  t_offset := fun x1 y1 x2 y2 => Some (y1 + (- x1 * (y2 - y1) / (x2 - x1)))%Q |}.

(** int64: overflow of +, -, * is undefined; /2 truncates; the rest goes through double. *)
Definition chk64 (z : Z) : option Z := if (- 2 ^ 63 <=? z) && (z <? 2 ^ 63) then Some z else None.
Definition I64Time : TimeType := {|
  time_t := Z; dbl_t := f64;
  t_sub := fun a b => chk64 (a - b); t_mul := fun a b => chk64 (a * b);
  t_le := Z.leb; t_lt := Z.ltb; t_zero := 0;
  t_half := fun a => Some (Z.quot a 2);
  t_mid := fun a b => do s <- chk64 (a + b); cast_int 64 (fdiv (fofZ s) (fofZ 2));
  t_line := fun x1 y1 x2 y2 r =>
    do dy <- chk64 (y2 - y1); do dx <- chk64 (x2 - x1); do dr <- chk64 (r - x1);
    cast_int 64 (fadd (fofZ y1) (fmul (fdiv (fofZ dy) (fofZ dx)) (fofZ dr)));
  t_slope := fun x1 y1 x2 y2 =>
    do dy <- chk64 (y2 - y1); do dx <- chk64 (x2 - x1); Some (fdiv (fofZ dy) (fofZ dx));
  t_offset := fun x1 y1 x2 y2 =>
    do nx <- chk64 (- x1); do dy <- chk64 (y2 - y1); do dx <- chk64 (x2 - x1);
    Some (fadd (fofZ y1) (fdiv (fmul (fofZ nx) (fofZ dy)) (fofZ dx))) |}.

(** double: IEEE arithmetic, nothing undefined. *)
Definition F64Time : TimeType := {|
  time_t := f64; dbl_t := f64;
  t_sub := fun a b => Some (fsub a b); t_mul := fun a b => Some (fmul a b);
  t_le := fleb; t_lt := fltb; t_zero := fzero;
  t_half := fun a => Some (fdiv a (fofZ 2)); t_mid := fun a b => Some (fdiv (fadd a b) (fofZ 2));
  t_line := fun x1 y1 x2 y2 r => Some (fadd y1 (fmul (fdiv (fsub y2 y1) (fsub x2 x1)) (fsub r x1)));
  t_slope := fun x1 y1 x2 y2 => Some (fdiv (fsub y2 y1) (fsub x2 x1));
  t_offset := fun x1 y1 x2 y2 => Some (fadd y1 (fdiv (fmul (fneg x1) (fsub y2 y1)) (fsub x2 x1))) |}.
