(** Model of the boost serialization members of the kinematics classes and of the file helpers of sm_boost/include/sm/boost/serialization.hpp.
    Archives are the item sequences of EigenSer_Model.  boost writes the version of a class in front of an object (in front of the first object of
    the class in an archive; here in front of every object: a simplification).  The state of an object is the sequence of its scalars, in the
    order of the members and, inside a matrix, in memory order; loading writes them one by one, so that an exception leaves the scalars read so
    far in the object. *)
From Verif Require Export EigenSer_Model.

(** how a load ends: normally; sm::eigen::SerializationException; boost's archive_exception; std::runtime_error of SM_ASSERT_LE on the version *)
Inductive outcome := Done | SizeE | StreamE | VersionE.

(** the body of save/load: fixed-size Eigen matrices, doubles and sub-objects (base classes), in this order *)
Inductive schema := SNil | SMat (r c : nat) (k : schema) | SVal (k : schema) | SObj (inner k : schema).
Fixpoint ssize (s : schema) : nat := match s with SNil => O | SMat r c k => r * c + ssize k | SVal k => S (ssize k) | SObj i k => ssize i + ssize k end.

(** the classes.  Transformation (Transformation.hpp:151-163): _q_a_b, _t_a_b_a.  UncertainTransformation (UncertainTransformation.hpp:91-107): the
    base, _U.  HomogeneousPoint (HomogeneousPoint.hpp:115-125): _ph.  UncertainHomogeneousPoint (UncertainHomogeneousPoint.hpp:90-102): the base, _U.
    UncertainVector<D> (UncertainVector.hpp:83-97): _v, _E; UncertainVector<1> (182-196): _v, _sigma2. *)
Definition transformation := SObj (SMat 4 1 (SMat 3 1 SNil)) SNil.
Definition uncertainTransformation := SObj (SObj (SMat 4 1 (SMat 3 1 SNil)) (SMat 6 6 SNil)) SNil.
Definition homogeneousPoint := SObj (SMat 4 1 SNil) SNil.
Definition uncertainHomogeneousPoint := SObj (SObj (SMat 4 1 SNil) (SMat 4 4 SNil)) SNil.
Definition uncertainVector (D : nat) := SObj (SMat D 1 (SMat D D SNil)) SNil.
Definition uncertainScalar := SObj (SVal (SVal SNil)) SNil.

Section KinSer.
  Variable A : Type.
  Notation ar := (list (item A)).
  Fixpoint ssave (s : schema) (v : list A) : ar :=
    match s with
    | SNil => []
    | SMat r c k => save (Mx (Z.of_nat r) (Z.of_nat c) (firstn (r * c) v)) ++ ssave k (skipn (r * c) v)
    | SVal k => match v with a :: v' => IVal a :: ssave k v' | [] => [] end
    | SObj i k => INum 0 :: ssave i (firstn (ssize i) v) ++ ssave k (skipn (ssize i) v)
    end.
  (** read n scalars over the scalars old: true if all were there *)
  Fixpoint load_scalars (n : nat) (old : list A) (a : ar) : bool * list A * ar :=
    match n with
    | O => (true, old, a)
    | S n' => match a with
              | IVal x :: a' => let '(b, rest, a'') := load_scalars n' (tl old) a' in (b, x :: rest, a'')
              | _ => (false, old, a)
              end
    end.
  (** load of a fixed-size matrix (sm_eigen serialization.hpp:73-90) *)
  Definition load_matrix (r c : nat) (old : list A) (a : ar) : outcome * list A * ar :=
    match a with
    | INum r' :: INum c' :: a' =>
        if negb (Z.of_nat r =? r') then (SizeE, old, a') else if negb (Z.of_nat c =? c') then (SizeE, old, a')
        else let '(b, v, a'') := load_scalars (r * c) old a' in ((if b then Done else StreamE), v, a'')
    | INum _ :: a' => (StreamE, old, a')
    | _ => (StreamE, old, a)
    end.
  Fixpoint sload (s : schema) (old : list A) (a : ar) : outcome * list A * ar :=
    match s with
    | SNil => (Done, [], a)
    | SMat r c k =>
        match load_matrix r c (firstn (r * c) old) a with
        | (Done, v, a') => let '(o, v', a'') := sload k (skipn (r * c) old) a' in (o, v ++ v', a'')
        | (o, v, a') => (o, v ++ skipn (r * c) old, a')
        end
    | SVal k => match a with IVal x :: a' => let '(o, v', a'') := sload k (tl old) a' in (o, x :: v', a'') | _ => (StreamE, old, a) end
    | SObj i k =>
        match a with
        | INum v :: a0 =>
            if 0 <? v then (VersionE, old, a0)
            else match sload i (firstn (ssize i) old) a0 with
                 | (Done, v1, a1) => let '(o, v2, a2) := sload k (skipn (ssize i) old) a1 in (o, v1 ++ v2, a2)
                 | (o, v1, a1) => (o, v1 ++ skipn (ssize i) old, a1)
                 end
        | _ => (StreamE, old, a)
        end
    end.
End KinSer.
Arguments ssave {A}. Arguments sload {A}. Arguments load_scalars {A}. Arguments load_matrix {A}.
