(** Model of the Python bindings of the kinematics classes: sm_python/src/exportTransformation.cpp and exportHomogeneousPoint.cpp, over the exact real model
    of the classes (Kin_Trans_Model, Kin_Unc_Model), and of the way Boost.Python chooses among overloads: a def puts the new function in front of those of
    the same name in the same class (boost/libs/python/src/object/function.cpp, add_to_namespace), a call tries them from the front and takes the first one
    whose arguments convert; a class that defines a name hides the definitions of its bases.  Not modelled: setRandom, the
    constructors from matrices, reference counting, pickling of the text itself. *)
From Coq Require Import Reals List Bool.
From Verif Require Export Kin_Unc_Model.
Import ListNotations.
Open Scope R_scope.

(** ** Classes and values *)
Inductive cls := CT | CUT | CHP | CUHP | CV3 | CV4.
(** bases<...> (exportTransformation.cpp:63, exportHomogeneousPoint.cpp:27) *)
Definition base (c : cls) : option cls := match c with CUT => Some CT | CUHP => Some CHP | _ => None end.
Definition cls_eqb (a b : cls) : bool :=
  match a, b with CT, CT | CUT, CUT | CHP, CHP | CUHP, CUHP | CV3, CV3 | CV4, CV4 => true | _, _ => false end.
(** c is d or derived from it *)
Definition is_a (c d : cls) : bool := cls_eqb c d || match base c with Some b => cls_eqb b d | None => false end.
(** objects: Transformation, UncertainTransformation, HomogeneousPoint, UncertainHomogeneousPoint, numpy vectors of length 3 and 4 *)
Inductive obj := OT (x : trafo) | OUT (x : utf) | OHP (p : vec4) | OUHP (p : uhp) | OV3 (v : vec3) | OV4 (v : vec4).
Definition cls_of (o : obj) : cls := match o with OT _ => CT | OUT _ => CUT | OHP _ => CHP | OUHP _ => CUHP | OV3 _ => CV3 | OV4 _ => CV4 end.
(** what a C++ function sees of an argument through a reference to the base class *)
Definition part (o : obj) : obj := match o with OUT x => OT (ut_T x) | OUHP p => OHP (uh_p p) | _ => o end.
Definition convert (c : cls) (o : obj) : option obj :=
  if cls_eqb c (cls_of o) then Some o else if is_a (cls_of o) c then Some (part o) else None.

(** ** The C++ operators, by the types of the parameters *)
(** operator* (Transformation.cpp:149-205, UncertainTransformation.cpp:122-224) *)
Definition cpp_mul_fn (l r : obj) : option obj :=
  match l, r with
  | OT x, OT y => Some (OT (tf_mul x y)) | OT x, OUT y => Some (OUT (tf_mul_ut x y))
  | OT x, OHP p => Some (OHP (tf_act4 x p)) | OT x, OUHP p => Some (OUHP (tf_act_uh x p))
  | OT x, OV3 v => Some (OV3 (tf_act3 x v)) | OT x, OV4 v => Some (OV4 (tf_act4 x v))
  | OUT x, OT y => Some (OUT (ut_mul_tf x y)) | OUT x, OUT y => Some (OUT (ut_mul x y))
  | OUT x, OHP p => Some (OUHP (ut_act_hp x p)) | OUT x, OUHP p => Some (OUHP (ut_act_uh x p))
  | OUT x, OV3 v => Some (OV3 (tf_act3 (ut_T x) v)) | OUT x, OV4 v => Some (OV4 (tf_act4 (ut_T x) v))
  | _, _ => None
  end.
(** operator+ and operator- of the points (HomogeneousPoint.cpp, UncertainHomogeneousPoint.cpp) *)
Definition cpp_add_fn (l r : obj) : option obj :=
  match l, r with
  | OHP p, OHP q => Some (OHP (hp_add p q)) | OHP p, OUHP q => Some (OUHP (hp_add_uh p q))
  | OUHP p, OHP q => Some (OUHP (uh_add_hp p q)) | OUHP p, OUHP q => Some (OUHP (uh_add p q))
  | _, _ => None
  end.
Definition cpp_sub_fn (l r : obj) : option obj :=
  match l, r with
  | OHP p, OHP q => Some (OHP (hp_sub p q)) | OHP p, OUHP q => Some (OUHP (hp_sub_uh p q))
  | OUHP p, OHP q => Some (OUHP (uh_sub_hp p q)) | OUHP p, OUHP q => Some (OUHP (uh_sub p q))
  | _, _ => None
  end.
Definition cpp_inverse_fn (l : obj) : option obj :=
  match l with OT x => Some (OT (tf_inverse x)) | OUT x => Some (OUT (ut_inverse x)) | _ => None end.

(** ** Registration, in the order of the .def calls: the class of the right operand *)
(** Transformation (exportTransformation.cpp:50-54) *)
Definition mul_T : list cls := [CUT; CT; CUHP; CHP; CV3].
(** UncertainTransformation (75-78) *)
Definition mul_UT : list cls := [CUT; CUHP; CHP; CT].
(** HomogeneousPoint (exportHomogeneousPoint.cpp:18-21), UncertainHomogeneousPoint (37-40); the same for + and - *)
Definition add_HP : list cls := [CHP; CUHP].
Definition add_UHP : list cls := [CHP; CUHP].
(** inverse: Transformation (38); UncertainTransformation (81, 90): the class whose member is bound *)
Definition inverse_T : list cls := [CT].
Definition inverse_UT : list cls := [CUT; CT].
(** constructors with one argument: UncertainTransformation (63-72), UncertainHomogeneousPoint (28-30); constructors from matrices left out *)
Definition init_UT : list cls := [CT].
Definition init_UHP : list cls := [CV3; CV4; CHP].

(** ** The call *)
Fixpoint first_match (l : list cls) (o : obj) : option obj :=
  match l with [] => None | c :: r => match convert c o with Some x => Some x | None => first_match r o end end.
(** the argument as the chosen overload sees it; None: TypeError *)
Definition choose (registered : list cls) (o : obj) : option obj := first_match (rev registered) o.
Definition bind {A B} (x : option A) (f : A -> option B) : option B := match x with Some a => f a | None => None end.
(** l * r *)
Definition py_mul (l r : obj) : option obj :=
  match cls_of l with
  | CT => bind (choose mul_T r) (cpp_mul_fn l)
  | CUT => bind (choose mul_UT r) (cpp_mul_fn l)
  | _ => None
  end.
Definition py_add (l r : obj) : option obj :=
  match cls_of l with CHP => bind (choose add_HP r) (cpp_add_fn l) | CUHP => bind (choose add_UHP r) (cpp_add_fn l) | _ => None end.
Definition py_sub (l r : obj) : option obj :=
  match cls_of l with CHP => bind (choose add_HP r) (cpp_sub_fn l) | CUHP => bind (choose add_UHP r) (cpp_sub_fn l) | _ => None end.
Definition py_inverse (l : obj) : option obj :=
  match cls_of l with CT => bind (choose inverse_T l) cpp_inverse_fn | CUT => bind (choose inverse_UT l) cpp_inverse_fn | _ => None end.
(** UncertainTransformation(x) and UncertainHomogeneousPoint(x) (UncertainTransformation.cpp:76-81, UncertainHomogeneousPoint.cpp) *)
Definition py_UT (o : obj) : option obj := bind (choose init_UT o) (fun x => match x with OT t => Some (OUT (ut_certain t)) | OUT u => Some (OUT u) | _ => None end).
Definition py_UHP (o : obj) : option obj :=
  bind (choose init_UHP o) (fun x => match x with OHP p => Some (OUHP (uh_certain p)) | OV3 v => Some (OUHP (uh_of_euclidean v)) | OV4 v => Some (OUHP (uh_certain v))
                                     | OUHP u => Some (OUHP u) | _ => None end).
(** pickling (boost_serialization_pickle.hpp): only Transformation has def_pickle (exportTransformation.cpp:58), UncertainTransformation inherits its
    __getstate__ and __setstate__, which see a Transformation; unpickling makes an object of the same class with the default constructor
    (UncertainTransformation.cpp:8-12: zero covariance) and sets its state *)
Definition getstate (o : obj) : option trafo := match convert CT o with Some (OT x) => Some x | _ => None end.
Definition py_unpickle (c : cls) (s : trafo) : option obj := match c with CT => Some (OT s) | CUT => Some (OUT (UT s Z6)) | _ => None end.
Definition py_copy (o : obj) : option obj := bind (getstate o) (py_unpickle (cls_of o)).
