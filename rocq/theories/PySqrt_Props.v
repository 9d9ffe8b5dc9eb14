(** C153: computeMatrixSqrt in Python. *)
From Coq Require Import Reals Lra Psatz Arith Lia Classical_Prop.
From Verif Require Import Timer_Model.
From Verif Require Import Bytes DoubleText_Model AssertText_Model DenseN MatSqrt_Model MatSqrt_Props PySqrt_Model.
Open Scope R_scope.

(** ** specification *)
(** S is a square root of A *)
Definition root_of (n : nat) (S A : matn) : Prop := forall i j, (i < n)%nat -> (j < n)%nat -> sumn n (fun k => S i k * S j k) = A i j.
(** the symmetric matrix with the lower triangle of A: all that LDLT reads *)
Definition of_lower (A : matn) : matn := fun i j => if Nat.leb j i then A i j else A j i.
(** what Eigen promises of this call: positive semidefinite matrices are factorized *)
Definition eigen_ok (decompose : nat -> matn -> ldlt) (n : nat) (A : matn) : Prop := covn n (of_lower A) -> factorizes n (decompose n A) (of_lower A).
Definition not_square_text (file : bytes) (rows cols : nat) : bytes :=
  str "[std::runtime_error] " ++ file ++ str ":8: matrixSqrt() assert(M.rows() == M.cols()) failed [" ++ dec (Z.of_nat rows) ++ str " == " ++ dec (Z.of_nat cols) ++
  str "]: The matrix must be square".

Lemma py_cases file dc r c M : py_sqrt file dc r c M = if Nat.eqb r c then Returned (computeMatrixSqrt r (dc r M)) else Raised (not_square_text file r c).
Proof.
  unfold py_sqrt, assertion. cbn [andb negb fails cmp size_arg ev ne c_eq]. destruct (Nat.eqb_spec r c) as [->|N].
  - unfold cmp, ne, size_arg. cbn [ev c_eq]. rewrite Z.eqb_refl. reflexivity.
  - unfold cmp, ne, size_arg. cbn [ev c_eq]. destruct (Z.eqb_spec (Z.of_nat r) (Z.of_nat c)); [lia|]. cbn [negb]. unfold explanation, two, name, lit, show. cbn [app stream src ev c_print].
    f_equal. unfold not_square_text, exception_text, sfp_text. rewrite !app_nil_r. change (dec 8) with (str "8"). rewrite <- !app_assoc. reflexivity.
Qed.
Lemma root_meqn n S A : root_of n S A <-> meqn n n (mmn n S (trn S)) A.
Proof. split; intros H i j I J; specialize (H i j I J); exact H. Qed.
Lemma sq_nonneg n (f : nat -> R) : 0 <= sumn n (fun k => f k * f k).
Proof. induction n as [|n IH]; cbn [sumn]. lra. pose proof (Rle_0_sqr (f n)) as Q. unfold Rsqr in Q. lra. Qed.
Lemma root_cov n S A : root_of n S A -> covn n A.
Proof.
  intros H. split.
  - intros i j I J. unfold trn. rewrite <- (H i j I J), <- (H j i J I). apply sum_ext. intros; ring.
  - intros x. assert (E : dotn n x (mvn n A x) = sumn n (fun k => sumn n (fun i => S i k * x i) * sumn n (fun i => S i k * x i))).
    { transitivity (sumn n (fun i => sumn n (fun k => sumn n (fun j => x i * S i k * (S j k * x j))))).
      - unfold dotn, mvn. apply sum_ext. intros i I. rewrite sum_swap, <- sum_scal. apply sum_ext. intros j J. rewrite <- (H i j I J). rewrite <- sum_scal_r, <- sum_scal. apply sum_ext. intros; ring.
      - rewrite sum_swap. apply sum_ext. intros k _. rewrite <- sum_scal_r. apply sum_ext. intros i _. rewrite <- sum_scal. apply sum_ext. intros; ring. }
    rewrite E. apply (sq_nonneg n (fun k => sumn n (fun i => S i k * x i))).
Qed.
Lemma of_lower_sym n A : covn n A -> meqn n n (of_lower A) A.
Proof. intros [H _] i j I J. unfold of_lower. destruct (Nat.leb_spec j i); auto. rewrite (H i j I J). reflexivity. Qed.
Lemma covn_ext n A B : meqn n n A B -> covn n A -> covn n B.
Proof.
  intros E [H P]. split.
  - intros i j I J. unfold trn. rewrite <- (E i j I J), <- (E j i J I). apply (H i j I J).
  - intros x. replace (dotn n x (mvn n B x)) with (dotn n x (mvn n A x)); auto. unfold dotn, mvn. apply sum_ext. intros i I. f_equal. apply sum_ext. intros j J. rewrite (E i j I J). auto.
Qed.

(** a matrix that is not square raises RuntimeError and names the two sizes; a square one never raises.  For a square matrix whose lower triangle is that of a
    positive semidefinite matrix B, the result is a root of B: a root of the argument if the argument is symmetric.  For every other argument the result, if it is
    free of NaN, is a root of something else, whatever Eigen does *)
Theorem python_matrix_sqrt_partial : forall file decompose rows cols A, eigen_ok decompose rows A ->
  (rows <> cols -> py_sqrt file decompose rows cols A = Raised (not_square_text file rows cols)) /\
  (rows = cols -> exists result, py_sqrt file decompose rows cols A = Returned result /\
     (covn rows (of_lower A) -> exists S, result = Some S /\ root_of rows S (of_lower A)) /\
     (covn rows A -> exists S, result = Some S /\ root_of rows S A) /\
     (~ covn rows A -> forall S, result = Some S -> ~ root_of rows S A)).
Proof.
  intros file dc r c A Ok. rewrite py_cases. split.
  - intros N. destruct (Nat.eqb_spec r c); [lia|reflexivity].
  - intros ->. rewrite Nat.eqb_refl. eexists. split; [reflexivity|].
    assert (L : covn c (of_lower A) -> exists S, computeMatrixSqrt c (dc c A) = Some S /\ root_of c S (of_lower A)).
    { intros C. destruct (matrix_sqrt_spec c (dc c A) (of_lower A) (Ok C) C) as (S & E & H). exists S. split; auto. }
    split; [exact L|]. split.
    + intros C. pose proof (of_lower_sym c A C) as E. destruct L as (S & H & Q). { apply (covn_ext c A); auto. intros i j I J. symmetry. apply E; auto. }
      exists S. split; auto. intros i j I J. rewrite (Q i j I J). apply E; auto.
    + intros N S _ H. apply N, (root_cov c S A H).
Qed.
Print Assumptions python_matrix_sqrt_partial.
(** the requirement can be met for every matrix *)
Theorem eigen_ok_possible : forall n A, exists decompose, eigen_ok decompose n A.
Proof.
  intros n A. destruct (classic (covn n (of_lower A))) as [C|C].
  - destruct (factorization_exists n (of_lower A) C) as [l H]. exists (fun _ _ => l). intros _. exact H.
  - exists (fun _ _ => LDLT (fun _ _ => 0) []). intros X. contradiction.
Qed.
(** failures are not reported.  For [[0,1],[1,0]] the largest pivot is 0, Eigen stops with D = 0 (L_10 = 1 as read), and the caller gets the zero matrix *)
Definition exchange : matn := fun i j => if Nat.eqb i j then 0 else 1.
Theorem python_root_failure_refuted : exists decompose S, eigen_ok decompose 2 exchange /\
  (forall file, py_sqrt file decompose 2 2 exchange = Returned (Some S)) /\ (forall i j, (i < 2)%nat -> (j < 2)%nat -> S i j = 0) /\ ~ root_of 2 S exchange.
Proof.
  set (l := LDLT (fun i j => match i, j with 1%nat, O => 1 | _, _ => 0 end) [0%nat; 1%nat]).
  assert (N : ~ covn 2 (of_lower exchange)).
  { intros [_ P]. specialize (P (fun i => match i with O => 1 | _ => -1 end)). unfold dotn, mvn, of_lower, exchange in P. cbn in P. lra. }
  assert (V : forall k, vectorD l k = 0). { intros k. unfold vectorD, l. cbn [ld_m]. destruct k as [|[|k]]; auto. }
  eexists (fun _ _ => l), _. split; [intros C; contradiction|]. split; [|split].
  - intros file. rewrite py_cases. cbn [Nat.eqb]. f_equal. unfold computeMatrixSqrt. cbn [seq forallb]. rewrite !V. destruct (Rlt_dec 0 0); [lra|]. cbn [andb]. reflexivity.
  - intros i j _ _. change (transposed_times l (matrixL l) i j * sqrt (vectorD l j) = 0). rewrite V, sqrt_0. ring.
  - intros H. pose proof (H 0%nat 1%nat ltac:(lia) ltac:(lia)) as Q. rewrite (sum_ext 2 _ (fun _ => 0)) in Q. cbn in Q. lra.
    intros k _. cbv beta. rewrite !V, sqrt_0. ring.
Qed.
Print Assumptions python_root_failure_refuted.
(** an argument that is not symmetric: [[1,5],[0,1]] is accepted and the root of the identity returned *)
Definition skewed : matn := fun i j => match i, j with O, O => 1 | O, _ => 5 | _, O => 0 | _, _ => 1 end.
Theorem python_root_asymmetric_refuted : exists decompose S, eigen_ok decompose 2 skewed /\
  (forall file, py_sqrt file decompose 2 2 skewed = Returned (Some S)) /\ root_of 2 S In_ /\ ~ root_of 2 S skewed.
Proof.
  assert (E : meqn 2 2 (of_lower skewed) In_). { intros i j I J. assert (i = 0 \/ i = 1)%nat as [-> | ->] by lia; assert (j = 0 \/ j = 1)%nat as [-> | ->] by lia; reflexivity. }
  assert (C : covn 2 (of_lower skewed)).
  { apply (covn_ext 2 In_). { intros i j I J. symmetry. apply E; auto. } apply (root_cov 2 In_). intros i j I J. assert (i = 0 \/ i = 1)%nat as [-> | ->] by lia; assert (j = 0 \/ j = 1)%nat as [-> | ->] by lia; cbn; ring. }
  destruct (eigen_ok_possible 2 skewed) as [dc Ok]. destruct (python_matrix_sqrt_partial [] dc 2 2 skewed Ok) as [_ H].
  destruct (H eq_refl) as (res & Q & L & _). destruct (L C) as (S & -> & Rt). exists dc, S. split; [exact Ok|]. split; [|split].
  - intros file. rewrite py_cases in *. exact Q.
  - intros i j I J. rewrite (Rt i j I J). apply E; auto.
  - intros X. pose proof (X 0%nat 1%nat ltac:(lia) ltac:(lia)) as X1. rewrite (Rt 0%nat 1%nat ltac:(lia) ltac:(lia)) in X1. cbn in X1. lra.
Qed.
Print Assumptions python_root_asymmetric_refuted.
(** a matrix that is not square *)
Example ex_text : py_sqrt (str "e.cpp") (fun _ _ => LDLT (fun _ _ => 0) []) 3 4 In_ =
  Raised (str "[std::runtime_error] e.cpp:8: matrixSqrt() assert(M.rows() == M.cols()) failed [3 == 4]: The matrix must be square").
Proof. reflexivity. Qed.
