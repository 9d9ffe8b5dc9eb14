(** Model of the tables printed by Timing::print (sm_timing/src/Timer.cpp 237-342), with the accumulators of
    Timer.cpp 16-30 in binary64 arithmetic and the tag registry of getHandle (57-72).
    One thread at a time.  The start / stop protocol of the Timer objects is in Timer_Model: here a completed interval is
    one operation.  The output stream is fresh (as in the overloads that return a std::string) or has the default
    formatting flags.  std::unordered_map iterates in an unspecified order: that order is a parameter. *)
From Verif Require Import Bytes Float64 Timer_Model Nsec_Model.
Import ListNotations.
Open Scope nat_scope.

(** accumulator_set<double, lazy_variance, sum, min, max, mean> (Timer.cpp 19-29): count, sum, the sum of the squares
    (moment<2>), min and max; min and max start at numeric_limits<double>::max() and ::lowest(). (rolling_mean is not
    printed.) *)
Record facc := mkF { f_cnt : nat; f_sum : f64; f_sum2 : f64; f_min : f64; f_max : f64 }.
Definition dbl_max : f64 := flit 9007199254740991 971.
Definition newF : facc := mkF 0 fzero fzero dbl_max (fneg dbl_max).
(** m_acc(seconds): boost::accumulators sum_impl, moment_impl, min_impl (if x < min), max_impl (if max < x). *)
Definition faccAdd (a : facc) (x : f64) : facc :=
  mkF (S (f_cnt a)) (fadd (f_sum a) x) (fadd (f_sum2 a) (fmul x x))
    (if fltb x (f_min a) then x else f_min a) (if fltb (f_max a) x then x else f_max a).

(** The registry: m_tagMap as the list of the tags by handle, m_timers, m_maxTagLength (Timer.hpp 103-111). *)
Record tstate := mkT { t_tags : list tag; t_accs : list facc; t_maxlen : nat }.
Definition t_init : tstate := mkT [] [] 0.
Fixpoint tag_index (t : tag) (l : list tag) : option nat :=
  match l with
  | [] => None
  | t' :: l' => if bytes_eqb t t' then Some 0 else option_map S (tag_index t l')
  end.

(** getHandle (57-72); Timer::stop on a timer with this handle (128-143) after ns nanoseconds: addTime(handle,
    (double)ns * 1e-9) - the literal and the product as in nsecToSec; reset (210-214). An invalid handle throws
    (reset, and the constructor of Timer) and changes nothing. *)
Inductive top := TGetHandle (t : tag) | TSample (h : nat) (ns : Z) | TReset (h : nat).
Definition tstep (s : tstate) (o : top) : tstate :=
  match o with
  | TGetHandle t =>
      match tag_index t (t_tags s) with
      | Some _ => s
      | None => mkT (t_tags s ++ [t]) (t_accs s ++ [newF]) (Nat.max (t_maxlen s) (length t))
      end
  | TSample h ns => mkT (t_tags s) (update (t_accs s) h (fun a => faccAdd a (nsecToSec ns))) (t_maxlen s)
  | TReset h => mkT (t_tags s) (update (t_accs s) h (fun _ => newF)) (t_maxlen s)
  end.
Definition trun (ops : list top) : tstate := fold_left tstep ops t_init.

(** The extractors (158-195); mean = sum / count, lazy_variance = moment<2> - mean * mean, moment<2> = sum2 / count. *)
Definition fcnt (a : facc) : f64 := fofZ (Z.of_nat (f_cnt a)).
Definition fMean (a : facc) : f64 := fdiv (f_sum a) (fcnt a).
Definition fVariance (a : facc) : f64 := fsub (fdiv (f_sum2 a) (fcnt a)) (fmul (fMean a) (fMean a)).
Definition fStd (a : facc) : f64 := fsqrt (fVariance a).

(** out.width(w); left adjusted / right adjusted (246-251), fill character blank. *)
Definition pad_right (w : nat) (s : bytes) : bytes := s ++ repeat 32%N (w - length s).
Definition pad_left (w : nat) (s : bytes) : bytes := repeat 32%N (w - length s) ++ s.
Definition TAB : bytes := [9%N].
Definition NL : bytes := [10%N].

(** One line (243-267); [None]: undefined behaviour in secondsToTimeString. *)
Definition trow (w : nat) (t : tag) (a : facc) : option bytes :=
  let head := pad_right w t ++ TAB ++ pad_left 7 (dec (Z.of_nat (f_cnt a))) ++ TAB in
  if 0 <? f_cnt a then
    match secondsToTimeString (f_sum a), secondsToTimeString (fMean a), secondsToTimeString (fStd a),
          secondsToTimeString (f_min a), secondsToTimeString (f_max a) with
    | Some total, Some meansec, Some stddev, Some minsec, Some maxsec =>
        Some (head ++ total ++ TAB ++ str "(" ++ meansec ++ str " +- " ++ stddev ++ str ")" ++ TAB ++
              str "[" ++ minsec ++ str "," ++ maxsec ++ str "]" ++ NL)
    | _, _, _, _, _ => None
    end
  else Some (head ++ NL).
(** The accessors: getIndex looks the tag up (273-280, 325-335); the handle is valid. *)
Definition acc_of (s : tstate) (t : tag) : facc :=
  match tag_index t (t_tags s) with Some h => nth h (t_accs s) newF | None => newF end.
Fixpoint trows (s : tstate) (l : list tag) : option bytes :=
  match l with
  | [] => Some []
  | t :: l' =>
      match trow (t_maxlen s) t (acc_of s t), trows s l' with
      | Some r, Some rs => Some (r ++ rs)
      | _, _ => None
      end
  end.
(** print(TMap, Accessor, out) (237-269) *)
Definition print_rows (s : tstate) (l : list tag) : option bytes :=
  match trows s l with
  | Some rs => Some (str "SM Timing" ++ NL ++ str "-----------" ++ NL ++ rs)
  | None => None
  end.
(** print(out) (271-284): the iteration order of the hash map. *)
Definition print_plain (s : tstate) (order : list tag) : option bytes := print_rows s order.

(** print(out, sort) (286-338) *)
Inductive sort_type := BY_TOTAL | BY_MEAN | BY_STD | BY_MIN | BY_MAX | BY_NUM_SAMPLES.
Definition sort_key (k : sort_type) (a : facc) : f64 :=
  if 0 <? f_cnt a then
    match k with
    | BY_TOTAL => f_sum a | BY_MEAN => fMean a | BY_STD => fStd a
    | BY_MAX => f_max a | BY_MIN => f_min a | BY_NUM_SAMPLES => fcnt a
    end
  else dbl_max.
(** multimap<double, string, greater<double>>::insert: at the upper bound of the keys equivalent to the new one. *)
Fixpoint mm_insert (kv : f64 * tag) (l : list (f64 * tag)) : list (f64 * tag) :=
  match l with
  | [] => [kv]
  | p :: l' => if fltb (fst p) (fst kv) then kv :: p :: l' else p :: mm_insert kv l'
  end.
(** [None]: greater<double> is no strict weak order on keys with a NaN, using the multimap is undefined. *)
Definition sorted_order (s : tstate) (k : sort_type) (order : list tag) : option (list tag) :=
  let keys := map (fun t => (sort_key k (acc_of s t), t)) order in
  if existsb (fun p => is_nan (fst p)) keys then None
  else Some (map snd (fold_left (fun l p => mm_insert p l) keys [])).
Definition print_sorted (s : tstate) (k : sort_type) (order : list tag) : option bytes :=
  match sorted_order s k order with
  | Some l => print_rows s l
  | None => None
  end.
