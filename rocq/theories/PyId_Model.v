(** Model of the conversion of ids between C++ and Python, sm_python/include/sm/python/Id.hpp:17-60, under Python 2 (the PyInt functions), with a long of 64
    bits.  An int holds a C long, a long any integer. *)
From Coq Require Import ZArith NArith Bool.
From Verif Require Export Id_Model.
Open Scope Z_scope.

Inductive pyint := PyI (z : Z) | PyL (z : Z).
Definition py_value (p : pyint) : Z := match p with PyI z | PyL z => z end.
(** conversion of a uint64 to long, and of an integer to uint64 *)
Definition to_long (v : Z) : Z := (v + 2 ^ 63) mod 2 ^ 64 - 2 ^ 63.
(** convert (19-24): PyInt_FromLong(id.getId()) *)
Definition id_to_python (i : Id) : pyint := PyI (to_long (Z.of_N (getId i))).
(** construct (35-58): PyInt_AsUnsignedLongLongMask; PyLong_AsUnsignedLongLong, which answers -1 and leaves an exception pending if the value does not
    fit, and the answer is used all the same.  The second component: is an exception pending? *)
Definition id_from_python (p : pyint) : Id * bool :=
  match p with
  | PyI z => (Id_of (Z.to_N (z mod 2 ^ 64)), false)
  | PyL z => if (0 <=? z) && (z <? 2 ^ 64) then (Id_of (Z.to_N z), false) else (Id_of (Z.to_N (2 ^ 64 - 1)), true)
  end.
