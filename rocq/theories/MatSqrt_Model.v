(** Model of sm_eigen/include/sm/eigen/matrix_sqrt.hpp for every size, in exact real arithmetic.  Eigen::LDLT is represented by what it
    stores: one square matrix (the strict lower triangle is L's, the diagonal is D) and the sequence of row transpositions.  Not modelled: how
    Eigen computes them (MatSqrt_Props states what is required of them), rounding, the debug assertion that the input is square. *)
From Verif Require Export DenseN.
From Coq Require Export List.
Export ListNotations.
Open Scope R_scope.

Record ldlt := LDLT { ld_m : matn; ld_tr : list nat }.
(** matrixL(): the unit lower triangular view; vectorD(): the diagonal *)
Definition matrixL (l : ldlt) : matn := fun i j => if Nat.ltb j i then ld_m l i j else if Nat.eqb i j then 1 else 0.
Definition vectorD (l : ldlt) : vecn := fun i => ld_m l i i.
(** exchanging two rows of a matrix *)
Definition swap (p : nat * nat) (i : nat) : nat := if Nat.eqb i (fst p) then snd p else if Nat.eqb i (snd p) then fst p else i.
Definition swap_rows (M : matn) (p : nat * nat) : matn := fun i j => M (swap p i) j.
Definition swaps (l : ldlt) : list (nat * nat) := combine (seq 0 (length (ld_tr l))) (ld_tr l).
(** transpositionsP().transpose() * M (line 35): Eigen exchanges the rows k and tr[k] for k from the last to the first *)
Definition transposed_times (l : ldlt) (M : matn) : matn := fold_left swap_rows (rev (swaps l)) M.
(** computeMatrixSqrt (22-41); None: the square root of a negative number, so the result contains NaN *)
Definition computeMatrixSqrt (n : nat) (l : ldlt) : option matn :=
  let result := matrixL l in
  let result := transposed_times l result in
  if forallb (fun k => if Rlt_dec (vectorD l k) 0 then false else true) (seq 0 n) then Some (fun i j => result i j * sqrt (vectorD l j)) else None.
