(** Model of sm_eigen/include/sm/eigen/property_tree.hpp and sm_kinematics/include/sm/kinematics/property_tree.hpp over the property trees of
    PTree_Model, in exact real arithmetic; tr is the translation of text to numbers (getDouble). *)
From Coq Require Import Reals.
From Verif Require Import Bytes PTree_Model LinAlg.

Definition bindr {A B} (r : res A) (f : A -> res B) : res B :=
  match r with Ok a => f a | InvalidValue => InvalidValue | InvalidKey => InvalidKey | KeyNotFound => KeyNotFound | BadPath => BadPath | ParseError => ParseError | Undefined => Undefined end.
Section KinTree.
  Variable tr : bytes -> option R.
  (** vector3FromPropertyTree (eigen 10-18) *)
  Definition vector3FromPropertyTree (t : ptree) (ns : bytes) : res vec3 :=
    bindr (getX tr t ns (str "x")) (fun x => bindr (getX tr t ns (str "y")) (fun y => bindr (getX tr t ns (str "z")) (fun z => Ok (V3 x y z)))).
  (** quaternionFromPropertyTree (eigen 21-29) *)
  Definition quaternionFromPropertyTree (t : ptree) (ns : bytes) : res vec4 :=
    bindr (getX tr t ns (str "x")) (fun x => bindr (getX tr t ns (str "y")) (fun y => bindr (getX tr t ns (str "z")) (fun z =>
    bindr (getX tr t ns (str "w")) (fun w => Ok (V4 x y z w))))).
  (** transformationFromPropertyTree (kinematics 10-16): the quaternion and the translation of the result; None for the quaternion of NaNs that
      dividing by a zero norm gives *)
  Definition transformationFromPropertyTree (t : ptree) (ns : bytes) : res (option vec4 * vec3) :=
    bindr (quaternionFromPropertyTree t (view_child ns (str "q_a_b"))) (fun q =>
    let n := sqrt (dot4 q q) in
    let q := if Req_EM_T n 0 then None else Some (scale4 (/ n) q) in
    bindr (vector3FromPropertyTree t (view_child ns (str "t_a_b_a"))) (fun v => Ok (q, v))).
End KinTree.
