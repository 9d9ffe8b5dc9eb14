(** Model of value stores as Python sees them: the accessors of sm_python/src/exportValueStoreRef.cpp:44-66, 100-106 and
    setExtendableValueStoreValue of sm_python/python/sm/__init__.py:88-109 (ExtendibleValueStoreRef.set), over the stores of ValueStore_Model and
    the texts of PTree_Model and DoubleText_Model.  Not modelled: Python strings that are not encodable, subclasses of int and float, children. *)
From Verif Require Export ValueStore_Model.
From Verif Require Import Float64 DoubleText_Model.
Open Scope nat_scope.

(** the values: str, bool, int, float, anything else *)
Inductive pyval := PyStr (s : bytes) | PyBool (b : bool) | PyInt (z : Z) | PyFloat (x : f64) | PyOther.
Inductive kind := KStr | KBool | KInt | KFloat.
(** how a call ends: it returns; it returns after logging a fatal message, without doing anything; it raises; undefined behaviour *)
Inductive pyout := PDone | PLogged | PRaised | PUndef.
Definition out_of {A} (r : vres A) : pyout := match r with VOk _ => PDone | VThrow => PRaised | VUndef => PUndef end.

Section PyStore.
  (** [junk], [ndebug]: see ValueStore_Model; [prec]: digits printed for a double (DoubleText_Model) *)
  Variables (junk ndebug : bool) (prec : nat).

  (** getX(path).get() (44-54) *)
  Definition getter {A} (tr : bytes -> option A) (V0 : A) (w : heap) (s : store) (key : bytes) : vres A :=
    match get junk tr V0 w s key None with (w', VOk h) => handle_get tr w' h | (_, VThrow) => VThrow | (_, VUndef) => VUndef end.
  Definition vmap {A B} (f : A -> B) (r : vres A) : vres B := match r with VOk a => VOk (f a) | VThrow => VThrow | VUndef => VUndef end.
  Definition py_get (k : kind) (w : heap) (s : store) (key : bytes) : vres pyval :=
    match k with
    | KStr => vmap PyStr (getter parse_string [] w s key)
    | KBool => vmap PyBool (getter parse_bool false w s key)
    | KInt => vmap PyInt (getter parse_int 0%Z w s key)
    | KFloat => vmap PyFloat (getter parse_double fzero w s key)
    end.
  (** getX(path, defaultValue).get() (45-55) *)
  Definition getter_default {A} (tr : bytes -> option A) (V0 : A) (w : heap) (s : store) (key : bytes) (d : A) : heap * vres A :=
    match get junk tr V0 w s key (Some d) with (w', VOk h) => (w', handle_get tr w' h) | (w', VThrow) => (w', VThrow) | (w', VUndef) => (w', VUndef) end.
  (** setX: getX(path).update(newVal) (56-66) *)
  Definition setter {A} (tr : bytes -> option A) (pr : A -> bytes) (V0 : A) (w : heap) (s : store) (key : bytes) (v : A) : heap * pyout :=
    match get junk tr V0 w s key None with
    | (w', VOk h) => let '(w'', r) := handle_update pr ndebug w' h v in (w'', out_of r)
    | (w', VThrow) => (w', PRaised)
    | (w', VUndef) => (w', PUndef)
    end.
  (** addX: addX(path, value).get() (100-106) *)
  Definition adder {A} (pr : A -> bytes) (w : heap) (s : store) (key : bytes) (v : A) : heap * pyout :=
    let '(w', r) := add pr w s key v in (w', out_of r).
  (** Boost.Python converts a Python int to int, or raises OverflowError *)
  Definition int_arg (z : Z) : bool := (INT_MIN <=? z)%Z && (z <=? INT_MAX)%Z.
  Definition py_hasKey (w : heap) (s : store) (key : bytes) : bool := hasKey junk w s key.

  (** setExtendableValueStoreValue(evs, key, value, add_if_missing, force_add): isinstance(value, str), bool, int, float in this order
      (a bool is an int for Python, so the order matters) *)
  Definition py_set (w : heap) (s : store) (key : bytes) (v : pyval) (add_if_missing force_add : bool) : heap * pyout :=
    let do_add := add_if_missing && (negb (py_hasKey w s key) || force_add) in
    match v with
    | PyStr x => if do_add then adder print_string w s key x else setter parse_string print_string [] w s key x
    | PyBool x => if do_add then adder print_bool w s key x else setter parse_bool print_bool false w s key x
    | PyInt x => if negb (int_arg x) then (w, PRaised) else if do_add then adder print_int w s key x else setter parse_int print_int 0%Z w s key x
    | PyFloat x => if do_add then adder (print_double prec) w s key x else setter parse_double (print_double prec) fzero w s key x
    | PyOther => (w, PLogged)
    end.
  (** a program that sets one key after the other, with the default arguments; an exception ends it *)
  Fixpoint py_sets (w : heap) (s : store) (l : list (bytes * pyval)) : heap * pyout :=
    match l with
    | [] => (w, PDone)
    | (key, v) :: r => match py_set w s key v true false with (w', PDone) => py_sets w' s r | x => x end
    end.
End PyStore.
