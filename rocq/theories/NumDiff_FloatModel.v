(** Model of sm_eigen/include/sm/eigen/NumericalDiff.hpp for doubles, in IEEE binary64 (Flocq): every operation rounded to nearest even in the order of the
    C++ expressions.  Vectors and matrices are lists (dynamic Eigen types); [recip] says whether Eigen divides a vector by a number directly or multiplies by
    the reciprocal (both exist in Eigen 3).  Not modelled: other scalar types, fixed-size Jacobians, functions with side effects. *)
From Coq Require Export List.
From Verif Require Export Float64.
Export ListNotations.

(** NumericalDiffFunctor::update (23): a copy with delta added to one coefficient *)
Fixpoint fupdate (x : list f64) (c : nat) (delta : f64) : list f64 :=
  match x, c with [], _ => [] | a :: r, O => fadd a delta :: r | a :: r, S k => a :: fupdate r k delta end.
(** fxp - fxm (60); None: different sizes (Eigen asserts, otherwise undefined) *)
Fixpoint fminus (a b : list f64) : option (list f64) :=
  match a, b with [], [] => Some [] | x :: a, y :: b => match fminus a b with Some l => Some (fsub x y :: l) | None => None end | _, _ => None end.
(** rcEps (56): max(fabs(x0(c)) * eps, eps) *)
Definition frcEps (eps : f64) (x0 : list f64) (c : nat) : f64 := fmax (fmul (fabs (nth c x0 fzero)) eps) eps.
(** division of a vector by a number (60) *)
Definition fover (recip : bool) (d : list f64) (s : f64) : list f64 :=
  if recip then let r := fdiv (fofZ 1) s in map (fun v => fmul v r) d else map (fun v => fdiv v s) d.
(** the body of the loop (53-61): column c of J *)
Definition fcolumn (recip : bool) (f : list f64 -> list f64) (eps : f64) (x0 : list f64) (M c : nat) : option (list f64) :=
  let h := frcEps eps x0 c in
  let fxp := f (fupdate x0 c h) in let fxm := f (fupdate x0 c (fneg h)) in
  match fminus fxp fxm with Some d => if Nat.eqb (length d) M then Some (fover recip d (fmul h (fofZ 2))) else None | None => None end.
Fixpoint fall_some {T} (l : list (option T)) : option (list T) :=
  match l with [] => Some [] | Some a :: r => match fall_some r with Some l => Some (a :: l) | None => None end | None :: _ => None end.
(** estimateJacobian (42-64): J by its columns, and the points at which f was evaluated *)
Definition festimateJacobian (recip : bool) (f : list f64 -> list f64) (eps : f64) (x0 : list f64) : option (list (list f64)) * list (list f64) :=
  let fx0 := f x0 in let N := length x0 in let M := length fx0 in
  (fall_some (map (fcolumn recip f eps x0 M) (seq 0 N)),
   x0 :: flat_map (fun c => let h := frcEps eps x0 c in [fupdate x0 c h; fupdate x0 c (fneg h)]) (seq 0 N)).
(** the default step: sqrt(std::numeric_limits<double>::epsilon()) (40) *)
Definition default_eps : f64 := fsqrt (flit 1 (-52)).
