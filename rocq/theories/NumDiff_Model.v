(** Model of sm_eigen/include/sm/eigen/NumericalDiff.hpp in exact real arithmetic, for dynamic vectors and matrices (lists).  The function is
    called at a list of points; the model returns that list too.  Not modelled: rounding, fixed-size Jacobian types. *)
From Coq Require Export Reals List Lra Lia.
Export ListNotations.
Open Scope R_scope.

Definition vec := list R.
(** NumericalDiffFunctor::update (23): a copy with one coefficient changed *)
Fixpoint update (x : vec) (c : nat) (delta : R) : vec :=
  match x, c with [], _ => [] | a :: r, O => a + delta :: r | a :: r, S k => a :: update r k delta end.
(** fxp - fxm; None: vectors of different size (Eigen asserts, otherwise undefined) *)
Fixpoint minus_vec (a b : vec) : option vec :=
  match a, b with [], [] => Some [] | x :: a, y :: b => match minus_vec a b with Some l => Some (x - y :: l) | None => None end | _, _ => None end.
(** rcEps (56) *)
Definition rcEps (eps : R) (x0 : vec) (c : nat) : R := Rmax (Rabs (nth c x0 0) * eps) eps.
(** the body of the loop (53-61): column c of J; None: size mismatch or division by zero *)
Definition column (f : vec -> vec) (eps : R) (x0 : vec) (M c : nat) : option vec :=
  let h := rcEps eps x0 c in
  let fxp := f (update x0 c h) in let fxm := f (update x0 c (- h)) in
  match minus_vec fxp fxm with
  | Some d => if Nat.eqb (length d) M then (if Req_EM_T (h * 2) 0 then None else Some (map (fun v => v / (h * 2)) d)) else None
  | None => None
  end.
Definition column_calls (eps : R) (x0 : vec) (c : nat) : list vec := let h := rcEps eps x0 c in [update x0 c h; update x0 c (- h)].
Fixpoint all_some {T} (l : list (option T)) : option (list T) :=
  match l with [] => Some [] | Some a :: r => match all_some r with Some l => Some (a :: l) | None => None end | None :: _ => None end.
(** estimateJacobian (42-64): J by its columns, and the points at which f was evaluated *)
Definition estimateJacobian (f : vec -> vec) (eps : R) (x0 : vec) : option (list vec) * list vec :=
  let fx0 := f x0 in let N := length x0 in let M := length fx0 in
  (all_some (map (column f eps x0 M) (seq 0 N)), x0 :: flat_map (column_calls eps x0) (seq 0 N)).
