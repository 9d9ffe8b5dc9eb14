(** Doubles as text: what setDouble/getDouble of a property tree
    (sm_property_tree/src/BoostPropertyTreeImplementation.cpp:32-47, 220-223: get<double>, set<double>), and the text
    archives behind the Python pickles (sm_python/include/sm/python/boost_serialization_pickle.hpp), do to a value.

    Both print with operator<< of std::ostream in its default format at a fixed precision p and read with operator>>.
    The libraries are outside /repo and are modelled from their documentation:
    - Boost.PropertyTree's stream_translator prints with precision max_digits10 = 17 (releases before 1.50: digits10 + 1
      = 16); Boost.Serialization's text_oarchive prints with digits10 + 2 = 17; a plain stream prints with 6. The
      precision is a parameter [p] here.
    - operator<< in the default format is printf %.pg; operator>> is libstdc++'s num_get (which reads neither inf nor nan,
      and fails on overflow but not on underflow), with strtod rounding correctly (ties to even). *)
From Verif Require Import Float64 Timer_Model PTree_Model.
From Coq Require Import QArith.
Import ListNotations.
Open Scope nat_scope.

(** 10^X *)
Definition tenq (X : Z) : Q := if (0 <=? X)%Z then inject_Z (10 ^ X) else (1 # Z.to_pos (10 ^ (- X)))%Q.
(** The decimal exponent of q: the largest X <= X0 with 10^X <= q. *)
Fixpoint find_exp (fuel : nat) (X0 : Z) (q : Q) : Z :=
  if Qle_bool (tenq X0) q then X0 else match fuel with O => X0 | S f => find_exp f (X0 - 1) q end.
Definition decexp (q : Q) : Z := find_exp 700 330 q.
(** The p significant decimal digits D and the exponent X of q > 0: q is about D * 10^(X - p + 1), rounded to nearest,
    ties to even. *)
Definition sci (p : nat) (q : Q) : Z * Z :=
  let X := decexp q in
  let D := Qround_even (q * tenq (Z.of_nat p - 1 - X)) in
  if (D =? 10 ^ Z.of_nat p)%Z then ((10 ^ (Z.of_nat p - 1))%Z, (X + 1)%Z) else (D, X).

(** %g drops the trailing zeros of the fraction, and the point if nothing is left. *)
Fixpoint drop_zeros (s : bytes) : bytes := match s with c :: r => if N.eqb c 48 then drop_zeros r else s | [] => [] end.
Definition strip_zeros (s : bytes) : bytes := rev (drop_zeros (rev s)).
Definition with_point (ip fp : bytes) : bytes := ip ++ match strip_zeros fp with [] => [] | f => 46%N :: f end.
(** at least two digits *)
Definition dec2 (z : Z) : bytes := if (z <? 10)%Z then 48%N :: dec z else dec z.
Definition layout (p : nat) (D X : Z) : bytes :=
  let ds := digs p D in
  if ((-4 <=? X) && (X <? Z.of_nat p))%Z%bool then
    if (X <? 0)%Z then with_point (str "0") (repeat 48%N (Z.to_nat (- X - 1)) ++ ds)
    else with_point (firstn (Z.to_nat X + 1) ds) (skipn (Z.to_nat X + 1) ds)
  else with_point (firstn 1 ds) (skipn 1 ds) ++ [101%N] ++ (if (X <? 0)%Z then 45%N :: dec2 (- X) else 43%N :: dec2 X).

Definition print_double (p : nat) (x : f64) : bytes :=
  match x with
  | B754_nan => str "nan"
  | B754_infinity s => if s then str "-inf" else str "inf"
  | B754_zero s => if s then str "-0" else str "0"
  | B754_finite s _ _ _ =>
      let '(D, X) := sci p (f2q (fabs x)) in (if s then [45%N] else []) ++ layout p D X
  end.

(** ** Reading *)
Fixpoint span_digits (s : bytes) : bytes * bytes :=
  match s with
  | c :: r => if is_digit c then (let '(d, t) := span_digits r in (c :: d, t)) else ([], s)
  | [] => ([], [])
  end.
(** The number written with the digits ds: TimeString's reading, restated here for the model. *)
Definition number (ds : bytes) : Z := fold_left (fun v b => (10 * v + (Z.of_N b - 48))%Z) ds 0%Z.
(** What num_get accepts: sign, digits with at most one point, exponent. The sign, the digits as a number, the decimal
    exponent, and the rest of the text; None: failbit. *)
Definition scan_double (s : bytes) : option (bool * Z * Z * bytes) :=
  let '(neg, s1) := take_sign (skip_ws s) in
  let '(ip, s2) := span_digits s1 in
  let '(fp, s3) := match s2 with c :: r => if N.eqb c 46 then span_digits r else ([], s2) | [] => ([], s2) end in
  match ip ++ fp with
  | [] => None
  | m =>
      let e0 := (- Z.of_nat (length fp))%Z in
      match s3 with
      | c :: r =>
          if (N.eqb c 101 || N.eqb c 69)%bool then
            let '(eneg, r1) := take_sign r in
            let '(es, r2) := span_digits r1 in
            match es with
            | [] => None
            | _ => Some (neg, number m, (e0 + (if eneg then - number es else number es))%Z, r2)
            end
          else Some (neg, number m, e0, s3)
      | [] => Some (neg, number m, e0, s3)
      end
  end.
(** The double nearest to m * 10^e (m >= 0), ties to even: m * 10^e is first cut at 2^-1080 with a sticky bit (round to
    odd), which does not change the final rounding. None: overflow (failbit). *)
Definition round_odd (v : Q) : Z :=
  let f := Qfloor v in
  if Qeq_bool (inject_Z f) v then f else if Z.even f then (f + 1)%Z else f.
Definition of_dec (neg : bool) (m e : Z) : option f64 :=
  let z := round_odd (inject_Z m * tenq e * inject_Z (2 ^ 1080)) in
  let x := binary_normalize 53 1024 eq_refl eq_refl mode_NE (if neg then - z else z)%Z (-1080) neg in
  if is_finite x then Some x else None.
(** stream_translator<double>::get_value: extract, skip blanks, require the end of the text *)
Definition parse_double (s : bytes) : option f64 :=
  match scan_double s with
  | Some (neg, m, e, r) => match skip_ws r with [] => of_dec neg m e | _ => None end
  | None => None
  end.

(** BoostPropertyTreeImplementation::setDouble, getDouble; [p] is the precision of the Boost release *)
Definition setDouble (p : nat) := setX (print_double p).
Definition getDouble := getX parse_double.
Definition getDouble_default := getX_default parse_double.
Definition getDouble_or_set (p : nat) := getX_or_set parse_double (print_double p).
