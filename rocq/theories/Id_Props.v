(** Property theorems for [sm::Id] (C05). *)
From Verif Require Import Bytes Id_Model.
From Coq Require Import ZifyBool ZifyNat ZifyN.
Open Scope N_scope.
Local Ltac Zify.zify_post_hook ::= Z.div_mod_to_equations.

Lemma incs_val n i : wf_Id i -> id_val (incs n i) = (id_val i + n) mod M64.
Proof.
  unfold incs. intros W. induction n as [|n IH] using N.peano_ind.
  - cbn [N.iter]. unfold wf_Id in W. rewrite N.add_0_r, N.mod_small; auto.
  - rewrite N.iter_succ. set (x := N.iter n _ i) in *. clearbody x.
    cbn [preinc fst id_val]. rewrite IH. unfold M64. lia.
Qed.

(** C05: values, unset state, increments, comparisons. *)
Theorem Id_semantics : forall a b : Id, wf_Id a -> wf_Id b ->
  (* set / unset *)
  isSet Id_default = false /\ isSet (clear a) = false /\
  (isSet a = false <-> getId a = 2^64 - 1) /\
  (* construction round trip *)
  (forall v, v < 2^64 -> getId (Id_of v) = v) /\
  (* increments *)
  (getId a < 2^64 - 1 -> getId (fst (preinc a)) = getId a + 1 /\ getId (snd (preinc a)) = getId a + 1 /\
                         getId (fst (postinc a)) = getId a + 1) /\
  getId (snd (postinc a)) = getId a /\
  (getId a = 2^64 - 1 -> getId (fst (preinc a)) = 0 /\ getId (fst (postinc a)) = 0) /\
  (* comparisons are those of the numbers *)
  (Id_eq a b = true <-> getId a = getId b) /\ (Id_ne a b = true <-> getId a <> getId b) /\
  (Id_lt a b = true <-> getId a < getId b) /\ (Id_gt a b = true <-> getId a > getId b) /\
  (Id_le a b = true <-> getId a <= getId b) /\ (Id_ge a b = true <-> getId a >= getId b) /\
  (Id_eq a b = true <-> a = b) /\
  swap a b = (b, a).
Proof.
  intros [a] [b]. unfold wf_Id, isSet, getId, Id_eq, Id_ne, Id_lt, Id_gt, Id_le, Id_ge, Id_of, preinc, postinc, clear, swap, Id_default, M64.
  cbn [id_val fst snd]. intros Ha Hb.
  repeat split; intros; try lia; try congruence.
  - f_equal; lia.
  - match goal with H : mkId _ = mkId _ |- _ => injection H as -> end. lia.
Qed.
Print Assumptions Id_semantics.

(** Fewer than 2^64 increments never produce the same id twice. *)
Theorem Id_increments_distinct : forall (i : Id) (m n : N), wf_Id i ->
  m < n -> n - m < 2^64 -> getId (incs m i) <> getId (incs n i).
Proof.
  intros i m n W Hlt Hd. unfold getId. rewrite !incs_val by exact W. unfold wf_Id in W. unfold M64 in *. lia.
Qed.
Print Assumptions Id_increments_distinct.

(** From a fresh id ([Id()] then ++) the values 0,1,2,... are produced. *)
Theorem Id_fresh_sequence : forall n : N, 0 < n -> n <= 2^64 -> getId (incs n Id_default) = n - 1.
Proof.
  intros n H0 H1. unfold getId. rewrite incs_val by reflexivity. cbn [id_val Id_default]. unfold M64. lia.
Qed.
Print Assumptions Id_fresh_sequence.

Example Id_example : wf_Id (Id_of 41) /\ getId (snd (preinc (Id_of 41))) = 42 /\
                     getId (fst (preinc Id_default)) = 0.
Proof. vm_compute. auto. Qed.
