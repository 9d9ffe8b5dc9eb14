(** Model of sm_kinematics/include/sm/kinematics/implementation/UncertainVector.hpp and of the covariance arithmetic of
    sm_kinematics/src/UncertainTransformation.cpp in IEEE binary64 (Flocq), for every dimension: every operation rounded to nearest even.
    Vectors and matrices are functions of the indices; only entries below the dimension matter.  What Eigen leaves open is a parameter: in which
    order each entry of each product is summed (a sum tree per entry, stree of Kin_Float_Model).  Products associate to the left as the C++ expressions
    do and intermediate products are stored as doubles (Eigen evaluates nested products into temporaries).  Not modelled: fused multiply-add, the
    association Eigen picks for v * v.transpose() * s, isBinaryEqual (see CheckSame_Model.v), setRandom, serialization. *)
From Coq Require Export List Permutation.
From Verif Require Export Float64 Kin_Float_Model.
Export ListNotations.

Definition fvecn := nat -> f64.
Definition fmatn := nat -> nat -> f64.
(** the summation orders of the entries of a product with inner dimension n *)
Definition orders := nat -> nat -> stree.
Definition orders_ok (n : nat) (o : orders) : Prop := forall i j, Permutation (leaves (o i j)) (seq 0 n).
(** Eigen: a.dot(b), M * v, A * B, A.transpose(), A + B, a + b, a - b, A * s *)
Definition fdotn (t : stree) (a b : fvecn) : f64 := fsum_tree (fun k => fmul (a k) (b k)) t.
Definition fmvn (o : orders) (M : fmatn) (v : fvecn) : fvecn := fun i => fdotn (o i 0%nat) (M i) v.
Definition fmmn (o : orders) (A B : fmatn) : fmatn := fun i j => fdotn (o i j) (A i) (fun k => B k j).
Definition ftrn (A : fmatn) : fmatn := fun i j => A j i.
Definition fmaddn (A B : fmatn) : fmatn := fun i j => fadd (A i j) (B i j).
Definition faddn (a b : fvecn) : fvecn := fun i => fadd (a i) (b i).
Definition fsubn (a b : fvecn) : fvecn := fun i => fsub (a i) (b i).
Definition fscalen (a : fvecn) (s : f64) : fvecn := fun i => fmul (a i) s.
Definition fmscalen (A : fmatn) (s : f64) : fmatn := fun i j => fmul (A i j) s.

(** J * U * J.transpose(), two products *)
Definition fsandwich (o1 o2 : orders) (J U : fmatn) : fmatn := fmmn o2 (fmmn o1 J U) (ftrn J).

(** ** UncertainVector.hpp *)
Record fuvec := FUV { fuv_v : fvecn; fuv_E : fmatn }.
Record fuscal := FUS { fus_v : f64; fus_E : f64 }.
(** linear operator * vector (3-7) *)
Definition fuv_linear (o o1 o2 : orders) (M : fmatn) (x : fuvec) : fuvec := FUV (fmvn o M (fuv_v x)) (fsandwich o1 o2 M (fuv_E x)).
(** + and - (101-127) *)
Definition fuv_add (x y : fuvec) : fuvec := FUV (faddn (fuv_v x) (fuv_v y)) (fmaddn (fuv_E x) (fuv_E y)).
Definition fuv_addv (x : fuvec) (v : fvecn) : fuvec := FUV (faddn (fuv_v x) v) (fuv_E x).
Definition fuv_sub (x y : fuvec) : fuvec := FUV (fsubn (fuv_v x) (fuv_v y)) (fmaddn (fuv_E x) (fuv_E y)).
Definition fuv_subv (x : fuvec) (v : fvecn) : fuvec := FUV (fsubn (fuv_v x) v) (fuv_E x).
(** times a number (136-140): _E * s * s *)
Definition fuv_scale (x : fuvec) (s : f64) : fuvec := FUV (fscalen (fuv_v x) s) (fmscalen (fmscalen (fuv_E x) s) s).
(** dot (162-173): the orders are those of the two inner products, and of the matrix-vector products inside them *)
Definition fuv_dot (t tv1 tv2 : stree) (o1 o2 : orders) (x y : fuvec) : fuscal :=
  FUS (fdotn t (fuv_v x) (fuv_v y))
      (fadd (fdotn tv1 (fuv_v x) (fmvn o1 (fuv_E y) (fuv_v x))) (fdotn tv2 (fuv_v y) (fmvn o2 (fuv_E x) (fuv_v y)))).
Definition fuv_dotv (t tv : stree) (o : orders) (x : fuvec) (v : fvecn) : fuscal := FUS (fdotn t (fuv_v x) v) (fdotn tv v (fmvn o (fuv_E x) v)).

(** ** UncertainVector<1> (284-360) *)
Definition fus_dot (x y : fuscal) : fuscal :=
  FUS (fmul (fus_v x) (fus_v y)) (fadd (fmul (fmul (fus_v y) (fus_E x)) (fus_v y)) (fmul (fmul (fus_v x) (fus_E y)) (fus_v x))).
Definition fus_dotv (x : fuscal) (r : f64) : fuscal := FUS (fmul (fus_v x) r) (fmul (fmul r (fus_E x)) r).
Definition fus_mul := fus_dot.
Definition fus_mulr := fus_dotv.
Definition fus_add (x y : fuscal) : fuscal := FUS (fadd (fus_v x) (fus_v y)) (fadd (fus_E x) (fus_E y)).
Definition fus_addv (x : fuscal) (r : f64) : fuscal := FUS (fadd (fus_v x) r) (fus_E x).
Definition fus_sub (x y : fuscal) : fuscal := FUS (fsub (fus_v x) (fus_v y)) (fadd (fus_E x) (fus_E y)).
Definition fus_subv (x : fuscal) (r : f64) : fuscal := FUS (fsub (fus_v x) r) (fus_E x).
Definition fus_div (x y : fuscal) : fuscal :=
  let dfda := fdiv (fofZ 1) (fus_v y) in let dfdb := fdiv (fneg (fus_v x)) (fmul (fus_v y) (fus_v y)) in
  FUS (fdiv (fus_v x) (fus_v y)) (fadd (fmul (fmul dfda (fus_E x)) dfda) (fmul (fmul dfdb (fus_E y)) dfdb)).
Definition fus_divv (x : fuscal) (r : f64) : fuscal := let dfda := fdiv (fofZ 1) r in FUS (fdiv (fus_v x) r) (fmul (fmul dfda (fus_E x)) dfda).

(** ** UncertainTransformation.cpp: the covariance of a composition (122-133), of an inverse (136-148), and of a certain transformation times an uncertain
    one (Transformation.cpp 181-193), for the 6x6 matrix B = boxTimes(T) actually computed *)
Definition fut_cov_mul (o1 o2 : orders) (B U1 U2 : fmatn) : fmatn := fmaddn U1 (fsandwich o1 o2 B U2).

(** crossMx(x, y, z) (rotations.cpp 79-86) *)
Definition fcrossMx (t : fvecn) : fmatn := fun i j =>
  match i, j with
  | 0, 1 => fneg (t 2) | 0, 2 => t 1 | 1, 0 => t 2 | 1, 2 => fneg (t 0) | 2, 0 => fneg (t 1) | 2, 1 => t 0
  | _, _ => fzero end%nat.
(** boxTimes (transformations.cpp 132-142) of the matrix with upper blocks C and t: -crossMx(t) * C above the diagonal blocks; o gives the orders of that product *)
Definition fbox (o : orders) (C : fmatn) (t : fvecn) : fmatn := fun i j =>
  if (i <? 3)%nat then (if (j <? 3)%nat then C i j else fmmn o (fun i k => fneg (fcrossMx t i k)) C i (j - 3)%nat)
  else if (j <? 3)%nat then fzero else C (i - 3)%nat (j - 3)%nat.
(** boxMinus (transformations.cpp 45-53) *)
Definition fboxMinus (p : fvecn) : fmatn := fun i j =>
  match i, j with
  | 0, 0 => p 3 | 1, 1 => p 3 | 2, 2 => p 3
  | 0, 4 => fneg (p 2) | 0, 5 => p 1 | 1, 3 => p 2 | 1, 5 => fneg (p 0) | 2, 3 => fneg (p 1) | 2, 4 => p 0
  | _, _ => fzero end%nat.
(** UncertainTransformation times an uncertain point (191-202): J U J' + T U4 T'; times a certain point (214-224): J U J' *)
Definition fut_cov_act (o1 o2 o3 o4 : orders) (J U T P : fmatn) : fmatn := fmaddn (fsandwich o1 o2 J U) (fsandwich o3 o4 T P).
