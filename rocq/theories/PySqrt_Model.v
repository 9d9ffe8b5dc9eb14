(** Model of sm_python/src/exportEigen.cpp: the Python function computeMatrixSqrt, on top of MatSqrt_Model (matrix_sqrt.hpp) and AssertText_Model (SM_ASSERT_EQ).
    Eigen's LDLT is a parameter [decompose]; exact real arithmetic.  The debug assertion of matrix_sqrt.hpp (25) cannot fail here, since the matrix is square when it is
    reached.  Not modelled: the conversion of numpy arrays to MatrixXd (numpy_eigen), the translation of std::runtime_error to RuntimeError with the same text (Boost.Python). *)
From Verif Require Import Bytes DoubleText_Model AssertText_Model.
From Verif Require Export MatSqrt_Model.

Inductive py_result := Raised (text : bytes) | Returned (S : option matn).
(** M.rows(), M.cols() of a rows x cols matrix *)
Definition size_arg (src : string) (n : nat) : arg unit := mkA unit (str src) (fun e => (e, CI (Z.of_nat n))).
(** matrixSqrt (6-14); the result of computeMatrixSqrt is dropped (11) *)
Definition py_sqrt (file : bytes) (decompose : nat -> matn -> ldlt) (rows cols : nat) (M : matn) : py_result :=
  match assertion unit false false false (A_EQ unit (size_arg "M.rows()" rows) (size_arg "M.cols()" cols))
          (str "std::runtime_error") (str "matrixSqrt") file 8 (lit unit "The matrix must be square") tt with
  | Threw _ _ text => Raised text
  | Passed _ _ => Returned (computeMatrixSqrt rows (decompose rows M))
  end.
