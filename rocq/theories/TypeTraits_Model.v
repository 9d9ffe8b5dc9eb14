(** Model of sm_common/include/sm/typetraits.hpp: class templates with partial specialisations as functions on types.  The selection
    of a specialisation is the C++ rule: among the matching ones, the one that is more specialised than all others. *)
From Coq Require Import List Bool Arith.
Import ListNotations.
Open Scope nat_scope.

(** C++ types.  Base n: class, arithmetic and other types; references and pointers are to any type; cv-qualified types.
    Well-formedness: see [wf]. *)
Inductive ty := Base (n : nat) | Const (t : ty) | Volatile (t : ty) | Ptr (t : ty) | LRef (t : ty) | RRef (t : ty).
Definition is_ref (t : ty) : bool := match t with LRef _ | RRef _ => true | _ => false end.
(** the types a program can name, each written in one way: at most one const, outside at most one volatile, neither on a
    reference; no pointer or reference to a reference *)
Fixpoint wf (t : ty) : bool :=
  match t with
  | Base _ => true
  | Const u => wf u && negb (is_ref u) && match u with Const _ => false | _ => true end
  | Volatile u => wf u && negb (is_ref u) && match u with Const _ | Volatile _ => false | _ => true end
  | Ptr u | LRef u | RRef u => wf u && negb (is_ref u)
  end.
Fixpoint ty_eqb (a b : ty) : bool :=
  match a, b with
  | Base n, Base m => n =? m
  | Const x, Const y | Volatile x, Volatile y | Ptr x, Ptr y | LRef x, LRef y | RRef x, RRef y => ty_eqb x y
  | _, _ => false
  end.

(** ** Forming types: const applied to const or to a reference changes nothing; reference to reference collapses; a pointer to a
    reference is ill-formed *)
Definition mk_const (t : ty) : ty := match t with Const _ | LRef _ | RRef _ => t | _ => Const t end.
Definition mk_lref (t : ty) : ty := match t with LRef u | RRef u => LRef u | _ => LRef t end.
Definition mk_ptr (t : ty) : option ty := if is_ref t then None else Some (Ptr t).
(** templates' argument patterns and results, over one parameter T *)
Inductive pat := PT | PConst (p : pat) | PPtr (p : pat) | PLRef (p : pat).
(** deduction of T *)
Fixpoint deduce (p : pat) (t : ty) : option ty :=
  match p, t with
  | PT, _ => Some t
  | PConst q, Const u => deduce q u
  | PPtr q, Ptr u => deduce q u
  | PLRef q, LRef u => deduce q u
  | _, _ => None
  end.
Definition obind {A B} (x : option A) (f : A -> option B) : option B := match x with Some a => f a | None => None end.
Fixpoint build (p : pat) (t : ty) : option ty :=
  match p with
  | PT => Some t
  | PConst q => option_map mk_const (build q t)
  | PPtr q => obind (build q t) mk_ptr
  | PLRef q => option_map mk_lref (build q t)
  end.
(** p is at least as specialised as q: q matches p with a unique type for p's parameter *)
Definition as_specialised (p q : pat) : bool :=
  match build p (Base 0) with Some t => match deduce q t with Some _ => true | None => false end | None => false end.
(** the selected specialisation; None: ambiguous or no match *)
Definition select {R} (specs : list (pat * R)) (t : ty) : option (pat * R) :=
  let m := filter (fun s => match deduce (fst s) t with Some _ => true | None => false end) specs in
  let best s := forallb (fun k => as_specialised (fst s) (fst k)) m in
  match filter best m with [s] => Some s | _ => None end.
(** Trait<T>::result_t; None: the program does not compile *)
Definition typed (specs : list (pat * pat)) (t : ty) : option ty :=
  obind (select specs t) (fun s => obind (deduce (fst s) t) (build (snd s))).
Definition valued (specs : list (pat * bool)) (t : ty) : option bool := option_map snd (select specs t).

(** ** The traits, primary template first *)
(** SameType (lines 40-41) *)
Definition SameType (a b : ty) : bool := ty_eqb a b.
(** StripReference (44-59) *)
Definition StripReference := typed [(PT, PT); (PLRef PT, PT); (PConst PT, PConst PT); (PLRef (PConst PT), PConst PT)].
(** StripConstReference (61-76) *)
Definition StripConstReference := typed [(PT, PT); (PLRef PT, PT); (PLRef (PConst PT), PT); (PConst PT, PT)].
(** StripConstPtr (78-93) *)
Definition StripConstPtr := typed [(PT, PT); (PPtr PT, PT); (PPtr (PConst PT), PT); (PConst PT, PT)].
(** AddReference (96-111) *)
Definition AddReference := typed [(PT, PLRef PT); (PLRef PT, PLRef PT); (PConst PT, PLRef (PConst PT)); (PLRef (PConst PT), PLRef (PConst PT))].
(** AddConstReference (113-128) *)
Definition AddConstReference := typed [(PT, PLRef (PConst PT)); (PLRef PT, PLRef (PConst PT)); (PConst PT, PLRef (PConst PT)); (PLRef (PConst PT), PLRef (PConst PT))].
(** AddPtr (130-145) *)
Definition AddPtr := typed [(PT, PPtr PT); (PPtr PT, PPtr PT); (PConst PT, PPtr (PConst PT)); (PPtr (PConst PT), PPtr (PConst PT))].
(** AddConstPtr (147-162) *)
Definition AddConstPtr := typed [(PT, PPtr (PConst PT)); (PPtr PT, PPtr (PConst PT)); (PConst PT, PPtr (PConst PT)); (PPtr (PConst PT), PPtr (PConst PT))].
(** IsReferenceType (164-181) *)
Definition IsReferenceType := valued [(PT, false); (PLRef PT, true); (PLRef (PConst PT), true)].
(** IsPointerType (184-201) *)
Definition IsPointerType := valued [(PT, false); (PPtr PT, true); (PPtr (PConst PT), true)].
