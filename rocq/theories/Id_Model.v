(** Model of [sm::Id], sm_common/include/sm/Id.hpp:67-170. [_id] is a uint64 (44, 168). *)
From Verif Require Import Bytes.
Open Scope N_scope.

Definition M64 : N := 2^64.
Record Id := mkId { id_val : N }.
Definition wf_Id (i : Id) : Prop := id_val i < M64.

Definition Id_default : Id := mkId (M64 - 1).            (* Id() : _id(-1), line 74 *)
Definition Id_of (v : N) : Id := mkId (v mod M64).        (* explicit Id(id_type), line 71 *)
Definition getId (i : Id) : N := id_val i.                (* 112-115; value(), 143-146 *)
Definition Id_eq (a b : Id) := id_val b =? id_val a.      (* 82-85; isBinaryEqual 163-166 *)
Definition Id_ne (a b : Id) := negb (id_val b =? id_val a). (* 87-90 *)
Definition Id_lt (a b : Id) := id_val a <? id_val b.      (* 92-95 *)
Definition Id_gt (a b : Id) := id_val b <? id_val a.      (* 97-100 *)
Definition Id_le (a b : Id) := id_val a <=? id_val b.     (* 102-105 *)
Definition Id_ge (a b : Id) := id_val b <=? id_val a.     (* 107-110 *)
(** preincrement (126-130): new state, returned value (reference to *this). *)
Definition preinc (i : Id) : Id * Id :=
  let i' := mkId ((id_val i + 1) mod M64) in (i', i').
(** postincrement (118-123): new state, returned old value. *)
Definition postinc (i : Id) : Id * Id :=
  let rval := mkId (id_val i) in (mkId ((id_val i + 1) mod M64), rval).
Definition isSet (i : Id) : bool := negb (id_val i =? M64 - 1).  (* 138-141 *)
Definition clear (i : Id) : Id := mkId (M64 - 1).         (* 148-151 *)
Definition swap (a b : Id) : Id * Id := (b, a).           (* 153-156, std::swap *)
(** [n] successive preincrements. *)
Definition incs (n : N) (i : Id) : Id := N.iter n (fun j => fst (preinc j)) i.
