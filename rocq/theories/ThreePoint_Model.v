(** Model of sm_kinematics/src/three_point_methods.cpp in exact real arithmetic.  A 3xK matrix is the list of its columns (so the checks that the
    matrices have three rows hold by construction).  Eigen's JacobiSVD and SelfAdjointEigenSolver are parameters: any functions; what they have to
    guarantee is a hypothesis of the theorems.  None: an assertion of the debug build, a division by zero columns, or the root of a negative weight. *)
From Coq Require Import List Reals Bool.
From Verif Require Import LinAlg Kin_Rot_Model.
Import ListNotations.
Open Scope R_scope.

(** p.rowwise().mean() (21-22) *)
Definition mean (p : list vec3) : vec3 := scale3 (/ INR (length p)) (fold_left add3 p zero3).
(** the loop of lines 36-39 *)
Definition covLoop (c0 c1 : vec3) (l : list (vec3 * vec3)) : mat3 :=
  fold_left (fun H ab => madd3 H (outer3 (sub3 (fst ab) c0) (sub3 (snd ab) c1))) l Z3.
(** V.col(2) = V.col(2) * -1.0 (50) *)
Definition negCol2 (V : mat3) : mat3 :=
  let f r := V3 (vx r) (vy r) (vz r * -1) in M3 (f (r30 V)) (f (r31 V)) (f (r32 V)).
(** threePointSvd (13-65); svd H = (U, V) *)
Definition threePointSvd (svd : mat3 -> mat3 * mat3) (p0 p1 : list vec3) : option mat4 :=
  if negb (Nat.eqb (length p0) (length p1)) then None
  else if Nat.eqb (length p0) 0 then None
  else
    let c0 := mean p0 in
    let c1 := mean p1 in
    let '(U, V) := svd (covLoop c0 c1 (combine p0 p1)) in
    let R := mm3 V (tr3 U) in
    let R := if Rlt_dec (det3 R) 0 then mm3 (negCol2 V) (tr3 U) else R in
    let tr := sub3 c0 (mv3 (tr3 R) c1) in
    Some (rt (tr3 R) tr).

(** SM_ASSERT_NEAR_DBG(norm, 1.0, 1e-4) (81-82) *)
Definition nearOne (a : vec3) : bool := if Rle_dec (Rabs (norm3 a - 1)) (/ 10000) then true else false.
(** the weighted columns and B = W * V^T (74-88): None when a weight has no root, or (debug build) a column is not of unit length *)
Fixpoint weighted (dbg : bool) (w : list R) (l : list (vec3 * vec3)) : option mat3 :=
  match w, l with
  | wi :: w, (a, b) :: l =>
      if Rlt_dec wi 0 then None
      else if dbg && negb (nearOne a && nearOne b) then None
      else match weighted dbg w l with
           | Some B => Some (madd3 (outer3 (scale3 (sqrt wi) a) (scale3 (sqrt wi) b)) B)
           | None => None
           end
  | _, _ => Some Z3
  end.
(** K (89-101) *)
Definition davenport (B : mat3) : mat4 :=
  let Q := madd3 B (tr3 B) in
  let Z := V3 (vz (r31 B) - vy (r32 B)) (vx (r32 B) - vz (r30 B)) (vy (r30 B) - vx (r31 B)) in
  let sigma := vx (r30 B) + vy (r31 B) + vz (r32 B) in
  let T := msub3 Q (mscale3 sigma I3) in
  M4 (cons4 (r30 T) (vx Z)) (cons4 (r31 T) (vy Z)) (cons4 (r32 T) (vz Z)) (cons4 Z sigma).
(** the search for the largest eigenvalue (108-117) *)
Definition maxIdx (l : vec4) : nat :=
  let upd i '(v, k) := if Rlt_dec v (at4 l i) then (at4 l i, i) else (v, k) in
  snd (upd 3%nat (upd 2%nat (upd 1%nat (at4 l 0, 0%nat)))).
(** qMethod (67-128); eig K = (eigenvalues, matrix whose columns are the eigenvectors) *)
Definition qMethod (dbg : bool) (eig : mat4 -> vec4 * mat4) (p0 p1 : list vec3) (w : list R) : option mat3 :=
  if negb (Nat.eqb (length p0) (length p1)) then None
  else if negb (Nat.eqb (length w) (length p0)) then None
  else match weighted dbg w (combine p0 p1) with
       | None => None
       | Some B =>
           let '(lam, E) := eig (davenport B) in
           let q := col4 E (maxIdx lam) in
           let n := norm4 q in
           if Req_EM_T n 0 then None
           else
             let q := V4 (e0 q / n) (e1 q / n) (e2 q / n) (e3 q / n) in
             let qv := head3 q in
             let qs := e3 q in
             Some (msub3 (madd3 (mscale3 (qs * qs - dot3 qv qv) I3) (mscale3 2 (outer3 qv qv))) (mscale3 (2 * qs) (crossMx qv)))
       end.
(** qMethod without weights (130-133) *)
Definition qMethod1 (dbg : bool) (eig : mat4 -> vec4 * mat4) (p0 p1 : list vec3) : option mat3 := qMethod dbg eig p0 p1 (repeat 1 (length p1)).
