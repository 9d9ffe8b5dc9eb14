(** C133: the type traits, for every type. *)
From Coq Require Import List Bool Arith.
From Verif Require Import TypeTraits_Model.
Import ListNotations.
Open Scope nat_scope.

(** ** Specification: the operations of the C++ standard library with the same purpose *)
Definition remove_reference (t : ty) : ty := match t with LRef u | RRef u => u | _ => t end.
Definition remove_const (t : ty) : ty := match t with Const u => u | _ => t end.
(** std::is_pointer: cv-qualified pointers are pointers *)
Definition pointee (t : ty) : option ty :=
  match t with Ptr u | Const (Ptr u) | Volatile (Ptr u) | Const (Volatile (Ptr u)) => Some u | _ => None end.
Definition is_pointer (t : ty) : bool := match pointee t with Some _ => true | None => false end.
Definition const_of (t : ty) : ty := match t with Const u => Const u | _ => Const t end.
Definition rvalue_ref (t : ty) : bool := match t with RRef _ => true | _ => false end.
(** a pointer type that is itself const or volatile *)
Definition qualified_pointer (t : ty) : bool := match t with Const (Ptr _) | Volatile (Ptr _) | Const (Volatile (Ptr _)) => true | _ => false end.

Ltac dead := match goal with
  | H : ?b = true |- _ => cbn in H; rewrite ?andb_false_r in H; discriminate H
  | H : ?b = false |- _ => cbn in H; discriminate H
  end.
Ltac fin := first [reflexivity | split; reflexivity].
Ltac cases t := destruct t as [?n|t|t|t|t|t]; try dead; try fin.
Ltac traits t := cases t; cases t; cases t.
(** The types the theorems range over: every type built from a base type by pointer, const and volatile (each at most once at one place, const written outside), possibly as
    a reference. *)
Inductive object_type : ty -> Prop := OBase n : object_type (Base n) | OPtr t : object_type t -> object_type (Ptr t) | OConst t : object_type t -> unqualified t -> object_type (Const t)
  | OVolatile t : object_type t -> unqualified t -> object_type (Volatile t) | OConstVolatile t : object_type t -> unqualified t -> object_type (Const (Volatile t))
with unqualified : ty -> Prop := UBase n : unqualified (Base n) | UPtr t : unqualified (Ptr t).
Theorem wf_types t : wf t = true <-> object_type t \/ exists u, object_type u /\ (t = LRef u \/ t = RRef u).
Proof.
  assert (O : forall v, object_type v -> wf v = true /\ is_ref v = false).
  { clear. induction 1 as [n|t _ [IH R]|t _ [IH R] U|t _ [IH R] U|t _ [IH R] U]; cbn [wf is_ref]; [auto|rewrite IH, R; auto| | |]; (split; [|auto]); rewrite IH, R; destruct U; reflexivity. }
  split.
  - assert (W : forall t, wf t = true -> is_ref t = false -> object_type t).
    { clear. intros t0. induction t0 as [n|t IH|t IH|t IH|t IH|t IH]; cbn [wf is_ref]; intros H R; try discriminate R.
      - constructor.
      - apply andb_true_iff in H as [H H3]. apply andb_true_iff in H as [H1 H2]. apply negb_true_iff in H2. specialize (IH H1 H2). destruct t; try discriminate; [constructor; [exact IH|constructor]| |constructor; [exact IH|constructor]].
        inversion IH; subst. now constructor.
      - apply andb_true_iff in H as [H H3]. apply andb_true_iff in H as [H1 H2]. apply negb_true_iff in H2. specialize (IH H1 H2). destruct t; try discriminate; constructor; auto; constructor.
      - apply andb_true_iff in H as [H1 H2]. apply negb_true_iff in H2. constructor. auto. }
    intros H. destruct (is_ref t) eqn:R; [|left; auto]. right. destruct t; try discriminate R; cbn [wf] in H; apply andb_true_iff in H as [H1 H2]; apply negb_true_iff in H2; eauto.
  - intros [H|(u & H & [-> | ->])]; [apply O, H| |]; destruct (O u H) as [A B]; cbn [wf]; now rewrite A, B.
Qed.
Theorem same_type a b : SameType a b = true <-> a = b.
Proof.
  unfold SameType. split; [|intros ->; induction b; cbn; auto; apply Nat.eqb_refl].
  revert b. induction a; destruct b; cbn; intros H; try discriminate; try (f_equal; auto; fail). apply Nat.eqb_eq in H. congruence.
Qed.
Theorem strip_reference_partial t : wf t = true -> rvalue_ref t = false -> StripReference t = Some (remove_reference t).
Proof. intros W R. traits t. Qed.
Theorem strip_const_reference_partial t : wf t = true -> rvalue_ref t = false -> StripConstReference t = Some (remove_const (remove_reference t)).
Proof. intros W R. traits t. Qed.
Theorem strip_rvalue_refuted : exists t, wf t = true /\ StripReference t = Some t /\ StripConstReference t = Some t /\ IsReferenceType t = Some false /\ remove_reference t <> t.
Proof. exists (RRef (Base 0)). repeat split; discriminate. Qed.
Theorem strip_const_ptr_partial t : wf t = true -> qualified_pointer t = false ->
  StripConstPtr t = Some (remove_const (match pointee t with Some u => u | None => t end)).
Proof. intros W R. traits t. Qed.
(** const pointers are not seen as pointers: char * const is stripped to char *, not to char, and not recognised; AddPtr adds a level *)
Theorem const_pointer_refuted : forall u, wf (Ptr u) = true ->
  let t := Const (Ptr u) in is_pointer t = true /\ IsPointerType t = Some false /\ StripConstPtr t = Some (Ptr u) /\ AddPtr t = Some (Ptr t) /\ AddPtr (Ptr u) = Some (Ptr u).
Proof. intros u W. cbv zeta. cases u; try (split; [reflexivity|split; [reflexivity|split; [reflexivity|split; reflexivity]]]); cases u; (split; [reflexivity|split; [reflexivity|split; [reflexivity|split; reflexivity]]]). Qed.
Theorem add_reference t : wf t = true -> AddReference t = Some (LRef (remove_reference t)).
Proof. intros W. traits t. Qed.
Theorem add_const_reference_partial t : wf t = true -> rvalue_ref t = false -> AddConstReference t = Some (LRef (const_of (remove_reference t))).
Proof. intros W R. traits t. Qed.
(** AddConstReference of an rvalue reference to a non-const type is a reference through which one can write *)
Theorem add_const_reference_refuted : exists u, wf (RRef u) = true /\ AddConstReference (RRef u) = Some (LRef u) /\ remove_const u = u.
Proof. exists (Base 0). repeat split. Qed.
Theorem add_ptr_partial t : wf t = true -> qualified_pointer t = false ->
  AddPtr t = (if is_ref t then None else Some (if is_pointer t then t else Ptr t)) /\
  AddConstPtr t = (if is_ref t then None else Some (Ptr (const_of (match pointee t with Some u => u | None => t end)))).
Proof. intros W R. traits t. Qed.
(** A pointer to what a reference refers to cannot be asked for: the traits do not compile for references *)
Theorem add_ptr_reference_refuted u : AddPtr (LRef u) = None /\ AddConstPtr (LRef u) = None /\ AddPtr (RRef u) = None.
Proof. split; [|split]; reflexivity. Qed.
Theorem is_reference_pointer_partial t : wf t = true ->
  (rvalue_ref t = false -> IsReferenceType t = Some (is_ref t)) /\ (qualified_pointer t = false -> IsPointerType t = Some (is_pointer t)).
Proof. intros W. split; intros R; traits t. Qed.
(** Every trait that adds or strips yields a proper type, and no use is ever ambiguous: failing to compile happens for pointers to
    references only. *)
Theorem traits_defined t : wf t = true ->
  (forall tr, In tr [StripReference; StripConstReference; StripConstPtr; AddReference; AddConstReference] -> exists r, tr t = Some r /\ wf r = true) /\
  (forall tr, In tr [AddPtr; AddConstPtr] -> if is_ref t then tr t = None else exists r, tr t = Some r /\ wf r = true).
Proof.
  intros W. split; intros tr H; cbn in H; repeat (destruct H as [<-|H]); try contradiction;
  (destruct t as [n|t|t|t|t|t]; cbn [is_ref]; try dead; try reflexivity;
   try (destruct t; try dead); try (destruct t; try dead);
   eexists; (split; [reflexivity|]); cbn in *; rewrite ?andb_true_r in *; auto).
Qed.

(** Non-vacuity *)
Example ex_traits : wf (LRef (Const (Ptr (Const (Base 3))))) = true /\
  StripConstReference (LRef (Const (Ptr (Const (Base 3))))) = Some (Ptr (Const (Base 3))) /\ StripConstPtr (Ptr (Const (Base 3))) = Some (Base 3) /\
  AddConstReference (Ptr (Base 1)) = Some (LRef (Const (Ptr (Base 1)))) /\ AddConstPtr (Ptr (Base 1)) = Some (Ptr (Const (Base 1))).
Proof. repeat split. Qed.
