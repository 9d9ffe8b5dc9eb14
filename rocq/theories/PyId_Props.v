(** C116: ids cross into Python and back. *)
From Coq Require Import ZArith NArith Lia Bool.
From Verif Require Import Id_Model PyId_Model.
Open Scope Z_scope.

(** a Python int that exists *)
Definition an_int (p : pyint) : Prop := match p with PyI z => - 2 ^ 63 <= z < 2 ^ 63 | PyL _ => True end.

Lemma M64_Z : Z.of_N M64 = 2 ^ 64. Proof. reflexivity. Qed.
Lemma to_long_range v : - 2 ^ 63 <= to_long v < 2 ^ 63.
Proof. unfold to_long. pose proof (Z.mod_pos_bound (v + 2 ^ 63) (2 ^ 64) ltac:(lia)). lia. Qed.
Lemma to_long_mod v : (to_long v) mod 2 ^ 64 = v mod 2 ^ 64.
Proof. unfold to_long. rewrite Zminus_mod_idemp_l. f_equal. lia. Qed.
Lemma to_long_id z : - 2 ^ 63 <= z < 2 ^ 63 -> to_long (z mod 2 ^ 64) = z.
Proof. intros H. unfold to_long. rewrite Zplus_mod_idemp_l. rewrite Z.mod_small; lia. Qed.
Lemma to_long_small v : 0 <= v < 2 ^ 63 -> to_long v = v.
Proof. intros H. unfold to_long. rewrite Z.mod_small; lia. Qed.
Lemma to_long_big v : 2 ^ 63 <= v < 2 ^ 64 -> to_long v = v - 2 ^ 64.
Proof. intros H. unfold to_long. replace (v + 2 ^ 63) with ((v - 2 ^ 63) + 1 * 2 ^ 64) by lia. rewrite Z.mod_add by lia. rewrite Z.mod_small; lia. Qed.

(** Every id comes back from Python as it was, without an error. *)
Theorem id_python_roundtrip i : wf_Id i -> an_int (id_to_python i) /\ id_from_python (id_to_python i) = (i, false).
Proof.
  intros W. split; [apply to_long_range|]. unfold id_to_python, id_from_python. rewrite to_long_mod. destruct i as [v]. cbn [getId id_val] in *. unfold wf_Id in W. cbn in W.
  assert (B : 0 <= Z.of_N v < 2 ^ 64) by (rewrite <- M64_Z; split; [apply N2Z.is_nonneg|apply N2Z.inj_lt; auto]). rewrite Z.mod_small by auto. rewrite N2Z.id. unfold Id_of. rewrite N.mod_small by auto. reflexivity.
Qed.
(** so different ids are different in Python *)
Theorem id_python_injective i j : wf_Id i -> wf_Id j -> py_value (id_to_python i) = py_value (id_to_python j) -> i = j.
Proof.
  intros W1 W2 E. destruct (id_python_roundtrip i W1) as [_ R1]. destruct (id_python_roundtrip j W2) as [_ R2].
  assert (X : id_to_python i = id_to_python j) by (unfold id_to_python in *; cbn in E; congruence). rewrite X in R1. congruence.
Qed.
(** Python sees the number of the id below 2^63, and the number minus 2^64 from there on; the unset id is -1. *)
Theorem id_python_value_partial i : wf_Id i -> py_value (id_to_python i) = (if Z.of_N (getId i) <? 2 ^ 63 then Z.of_N (getId i) else Z.of_N (getId i) - 2 ^ 64).
Proof.
  intros W. unfold id_to_python. cbn [py_value]. unfold wf_Id in W. assert (B : 0 <= Z.of_N (getId i) < 2 ^ 64) by (rewrite <- M64_Z; unfold getId; split; [apply N2Z.is_nonneg|apply N2Z.inj_lt; auto]).
  destruct (Z.ltb_spec (Z.of_N (getId i)) (2 ^ 63)); [apply to_long_small|apply to_long_big]; lia.
Qed.
Theorem id_python_unset i : wf_Id i -> isSet i = false <-> id_to_python i = PyI (-1).
Proof.
  intros W. split; intros H.
  - destruct i as [v]. unfold isSet in H. cbn in H. apply negb_false_iff, N.eqb_eq in H. subst v. reflexivity.
  - destruct (id_python_roundtrip i W) as [_ R]. rewrite H in R. injection R as <-. reflexivity.
Qed.
(** A Python number that is an id keeps its value on the way to C++ and back, up to the representation above. *)
Theorem python_id_roundtrip p : an_int p -> match p with PyI _ => True | PyL z => 0 <= z < 2 ^ 64 end ->
  let '(i, pending) := id_from_python p in pending = false /\ wf_Id i /\ Z.of_N (getId i) = py_value p mod 2 ^ 64 /\ id_to_python i = PyI (to_long (py_value p)) /\
    (- 2 ^ 63 <= py_value p < 2 ^ 63 -> py_value (id_to_python i) = py_value p).
Proof.
  intros A B.
  assert (G : forall v, 0 <= v < 2 ^ 64 -> wf_Id (Id_of (Z.to_N v)) /\ Z.of_N (getId (Id_of (Z.to_N v))) = v).
  { intros v V. unfold wf_Id, Id_of, getId. cbn [id_val]. split; [apply N.mod_lt; discriminate|]. rewrite N.mod_small; [rewrite Z2N.id; lia|]. apply N2Z.inj_lt. rewrite M64_Z, Z2N.id; lia. }
  destruct p as [z|z]; cbn [id_from_python].
  - destruct (G (z mod 2 ^ 64) (Z.mod_pos_bound z (2 ^ 64) ltac:(lia))) as [G1 G2]. split; auto. split; auto. cbn [py_value] in *. split; auto. unfold id_to_python. rewrite G2.
    assert (T : to_long (z mod 2 ^ 64) = z) by (apply to_long_id; exact A).
    assert (T2 : to_long z = z) by (rewrite <- T at 2; unfold to_long; rewrite Zplus_mod_idemp_l; reflexivity).
    rewrite T, T2. auto.
  - replace ((0 <=? z) && (z <? 2 ^ 64)) with true by (symmetry; apply andb_true_intro; split; [apply Z.leb_le|apply Z.ltb_lt]; lia).
    destruct (G z B) as [G1 G2]. split; auto. split; auto. cbn [py_value] in *. rewrite Z.mod_small by auto. split; auto. unfold id_to_python. rewrite G2. split; auto. intros H. cbn. apply to_long_small. lia.
Qed.
(** Not so: the order is not the one of C++, and a number outside of the range is not refused but becomes the unset id, with an exception left pending. *)
Theorem id_python_order_refuted : exists i j, wf_Id i /\ wf_Id j /\ Id_lt i j = true /\ py_value (id_to_python j) < py_value (id_to_python i).
Proof. exists (Id_of 5), (Id_of (2 ^ 63)). repeat split; reflexivity. Qed.
Theorem python_id_range_refuted z : ~ (0 <= z < 2 ^ 64) -> id_from_python (PyL z) = (Id_default, true).
Proof.
  intros H. cbn [id_from_python]. replace ((0 <=? z) && (z <? 2 ^ 64)) with false; [reflexivity|]. symmetry. apply Bool.not_true_is_false. intros E. apply andb_true_iff in E as [E1 E2].
  apply Z.leb_le in E1. apply Z.ltb_lt in E2. apply H. lia.
Qed.
Example ex_ids : id_to_python (Id_of 7) = PyI 7 /\ id_to_python Id_default = PyI (-1) /\ id_from_python (PyI (-1)) = (Id_default, false) /\ id_from_python (PyL (2 ^ 63)) = (Id_of (2 ^ 63), false).
Proof. repeat split; reflexivity. Qed.
Print Assumptions id_python_roundtrip.
Print Assumptions python_id_roundtrip.
