(** Model of sm_eigen/include/sm/eigen/serialization.hpp.  An archive is the sequence of primitive items written to it (an index, or one
    scalar of an array: boost's make_array writes the elements one after the other without a count); what the archive format does with an item
    (text, binary, XML) is not modelled.  A matrix is its shape and its elements in memory order. *)
From Coq Require Export ZArith List Bool Lia.
Export ListNotations.
Open Scope Z_scope.

Section EigenSerialization.
  Variable A : Type.   (* Scalar *)
  (** items of the archive *)
  Inductive item := INum (z : Z) | IVal (a : A).
  (** what a call can end in: a value, sm::eigen::SerializationException, boost's archive_exception (stream ended, or an item of the wrong
      kind), std::bad_alloc from Eigen's overflow check, undefined behaviour *)
  Inductive res (T : Type) := Ok (t : T) | SizeError | StreamError | BadAlloc | UB.
  Arguments Ok {T}. Arguments SizeError {T}. Arguments StreamError {T}. Arguments BadAlloc {T}. Arguments UB {T}.
  Definition bind {T V} (r : res T) (f : T -> res V) : res V :=
    match r with Ok t => f t | SizeError => SizeError | StreamError => StreamError | BadAlloc => BadAlloc | UB => UB end.

  (** Eigen::Matrix<Scalar,A,B,C,D,E>: compile-time rows and columns (None = Dynamic) and storage order; D and E are not modelled *)
  Record mtype := MT { ty_rows : option Z; ty_cols : option Z; row_major : bool }.
  (** the object: its shape and its elements in memory order *)
  Record matrix := Mx { rows : Z; cols : Z; data : list A }.
  (** M(i,j) *)
  Definition elem (t : mtype) (m : matrix) (i j : Z) : option A :=
    if (0 <=? i) && (i <? rows m) && (0 <=? j) && (j <? cols m)
    then nth_error (data m) (Z.to_nat (if row_major t then i * cols m + j else i + j * rows m)) else None.

  (** save (43-57) *)
  Definition save (m : matrix) : list item :=
    [INum (rows m); INum (cols m)] ++ (if (0 <? rows m) && (0 <? cols m) then map IVal (data m) else []).

  (** ar >> index *)
  Definition read_index (ar : list item) : res (Z * list item) := match ar with INum z :: r => Ok (z, r) | _ => StreamError end.
  (** ar >> make_array(p, n) *)
  Fixpoint read_array (n : nat) (ar : list item) : res (list A * list item) :=
    match n with
    | O => Ok ([], ar)
    | S k => match ar with IVal a :: r => bind (read_array k r) (fun '(l, r') => Ok (a :: l, r')) | _ => StreamError end
    end.
  (** &M(0,0): undefined for a matrix without elements (Eigen asserts in debug builds) *)
  Definition addr00 (r c : Z) : res unit := if (0 <? r) && (0 <? c) then Ok tt else UB.
  (** resize: a negative size is undefined, Eigen throws bad_alloc if rows*cols does not fit the index type *)
  Definition resize (r c : Z) : res unit := if (r <? 0) || (c <? 0) then UB else if r * c <? 2 ^ 63 then Ok tt else BadAlloc.
  Definition read_data (r c : Z) (ar : list item) : res (matrix * list item) :=
    bind (addr00 r c) (fun _ => bind (read_array (Z.to_nat (r * c)) ar) (fun '(l, rest) => Ok (Mx r c l, rest))).

  (** load, fixed size (73-90); x is the object loaded into *)
  Definition load_fixed (a b : Z) (x : matrix) (ar : list item) : res (matrix * list item) :=
    bind (read_index ar) (fun '(r, ar) => bind (read_index ar) (fun '(c, ar) =>
    if negb (r =? a) then SizeError else if negb (c =? b) then SizeError
    else if (0 <? r) && (0 <? c) then read_data a b ar else Ok (x, ar))).
  (** load, dynamic rows and fixed columns (106-123) *)
  Definition load_dyn_rows (b : Z) (ar : list item) : res (matrix * list item) :=
    bind (read_index ar) (fun '(r, ar) => bind (read_index ar) (fun '(c, ar) =>
    if negb (c =? b) then SizeError
    else bind (resize r b) (fun _ => if (0 <? r) && (0 <? c) then read_data r b ar else Ok (Mx r b [], ar)))).
  (** load, fixed rows and dynamic columns (138-152): no test before reading the data *)
  Definition load_dyn_cols (a : Z) (ar : list item) : res (matrix * list item) :=
    bind (read_index ar) (fun '(r, ar) => bind (read_index ar) (fun '(c, ar) =>
    if negb (r =? a) then SizeError else bind (resize a c) (fun _ => read_data a c ar))).
  (** load, both dynamic (167-182) *)
  Definition load_dyn (ar : list item) : res (matrix * list item) :=
    bind (read_index ar) (fun '(r, ar) => bind (read_index ar) (fun '(c, ar) =>
    bind (resize r c) (fun _ => if (0 <? r) && (0 <? c) then read_data r c ar else Ok (Mx r c [], ar)))).
  (** the overload C++ selects; Transform is serialized through its matrix (213-223) *)
  Definition load (t : mtype) (x : matrix) (ar : list item) : res (matrix * list item) :=
    match ty_rows t, ty_cols t with
    | Some a, Some b => load_fixed a b x ar
    | None, Some b => load_dyn_rows b ar
    | Some a, None => load_dyn_cols a ar
    | None, None => load_dyn ar
    end.
End EigenSerialization.
Arguments Ok {T}. Arguments SizeError {T}. Arguments StreamError {T}. Arguments BadAlloc {T}. Arguments UB {T}.
Arguments INum {A}. Arguments IVal {A}. Arguments Mx {A}. Arguments rows {A}. Arguments cols {A}. Arguments data {A}. Arguments save {A}. Arguments load {A}. Arguments elem {A}.
