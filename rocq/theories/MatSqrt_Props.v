(** C88: the matrix square root. *)
From Coq Require Import Reals Lra Psatz Arith Lia.
From Verif Require Import DenseN MatSqrt_Model.
Open Scope R_scope.

(** ** specification *)
(** P * M for the permutation matrix of the transpositions (Eigen: exchange the rows k and tr[k] for k = 0, 1, ...) *)
Definition P_times (tr : list nat) (M : matn) : matn := fold_left swap_rows (combine (seq 0 (length tr)) tr) M.
(** P A P^T = L D L^T with L unit lower triangular (matrixL is, by construction), D diagonal: what Eigen documents about LDLT *)
Definition factorizes (n : nat) (l : ldlt) (A : matn) : Prop :=
  length (ld_tr l) = n /\ (forall t, In t (ld_tr l) -> (t < n)%nat) /\
  meqn n n (P_times (ld_tr l) (trn (P_times (ld_tr l) (trn A)))) (fun i j => sumn n (fun k => matrixL l i k * vectorD l k * matrixL l j k)).

(** ** permutations *)
Definition perm (ps : list (nat * nat)) (i : nat) : nat := fold_right swap i ps.
Lemma swap_involutive p i : swap p (swap p i) = i.
Proof.
  unfold swap. destruct p as [a b]; cbn [fst snd]. destruct (Nat.eqb_spec i a) as [->|A].
  - destruct (Nat.eqb_spec b a) as [->|]; auto. rewrite Nat.eqb_refl. auto.
  - destruct (Nat.eqb_spec i b) as [->|B]. rewrite Nat.eqb_refl. auto. destruct (Nat.eqb_spec i a); [congruence|]. destruct (Nat.eqb_spec i b); congruence.
Qed.
Lemma fold_swap ps M i j : fold_left swap_rows ps M i j = M (perm ps i) j.
Proof. revert M. induction ps as [|p ps IH]; intros M; cbn; auto. rewrite IH. reflexivity. Qed.
Lemma perm_app ps qs i : perm (ps ++ qs) i = perm ps (perm qs i).
Proof. unfold perm. rewrite fold_right_app. reflexivity. Qed.
Lemma perm_rev ps i : perm ps (perm (rev ps) i) = i.
Proof. revert i. induction ps as [|p ps IH]; intros i; auto. change (rev (p :: ps)) with (rev ps ++ [p]). rewrite perm_app. change (swap p (perm ps (perm (rev ps) (swap p i))) = i). rewrite IH. apply swap_involutive. Qed.
Lemma perm_rev' ps i : perm (rev ps) (perm ps i) = i.
Proof. rewrite <- (rev_involutive ps) at 2. apply perm_rev. Qed.
Lemma swap_lt n p i : (fst p < n)%nat -> (snd p < n)%nat -> (i < n)%nat -> (swap p i < n)%nat.
Proof. unfold swap. destruct (Nat.eqb_spec i (fst p)), (Nat.eqb_spec i (snd p)); lia. Qed.
Lemma perm_lt n ps i : (forall p, In p ps -> (fst p < n /\ snd p < n)%nat) -> (i < n)%nat -> (perm ps i < n)%nat.
Proof. intros H I. induction ps as [|p ps IH]; cbn; auto. apply swap_lt; try (apply H; left; auto). apply IH. intros q Q. apply H. right; auto. Qed.
Lemma swaps_bound n l p : length (ld_tr l) = n -> (forall t, In t (ld_tr l) -> (t < n)%nat) -> In p (swaps l) -> (fst p < n /\ snd p < n)%nat.
Proof. intros L T H. destruct p as [a b]. unfold swaps in H. pose proof (in_combine_l _ _ _ _ H) as A. pose proof (in_combine_r _ _ _ _ H) as B. apply in_seq in A. cbn. split; [lia|auto]. Qed.

(** ** back substitution *)
Lemma unit_upper_solvable n : forall (U : matn) (b : vecn), (forall i, (i < n)%nat -> U i i = 1) -> (forall i j, (j < i)%nat -> (i < n)%nat -> U i j = 0) -> exists x, veqn n (mvn n U x) b.
Proof.
  induction n as [|n IH]; intros U b D Z. exists (fun _ => 0). intros i I; lia.
  destruct (IH U (fun i => b i - U i n * b n)) as [x Hx]. intros; apply D; lia. intros; apply Z; lia.
  exists (fun j => if Nat.eqb j n then b n else x j). intros i I. unfold mvn. cbn [sumn]. rewrite Nat.eqb_refl.
  assert (E : sumn n (fun j => U i j * (if Nat.eqb j n then b n else x j)) = mvn n U x i). { unfold mvn. apply sum_ext. intros j J. destruct (Nat.eqb_spec j n); [lia|auto]. } rewrite E.
  destruct (Nat.eq_dec i n) as [->|N].
  - rewrite D by lia. unfold mvn. rewrite sum_zero. ring. intros j J. rewrite Z by lia. ring.
  - rewrite (Hx i) by lia. ring.
Qed.
Lemma matrixL_unit l i : matrixL l i i = 1. Proof. unfold matrixL. rewrite Nat.ltb_irrefl, Nat.eqb_refl. auto. Qed.
Lemma matrixL_upper l i j : (i < j)%nat -> matrixL l i j = 0.
Proof. intros H. unfold matrixL. destruct (Nat.ltb_spec j i); [lia|]. destruct (Nat.eqb_spec i j); [lia|auto]. Qed.

Lemma factor_entries n l A : factorizes n l A -> forall i j, (i < n)%nat -> (j < n)%nat -> A i j = sumn n (fun k => matrixL l (perm (rev (swaps l)) i) k * vectorD l k * matrixL l (perm (rev (swaps l)) j) k).
Proof.
  intros (L & T & F) i j I J. assert (B : forall p, In p (swaps l) -> (fst p < n /\ snd p < n)%nat) by (intros p; apply swaps_bound; auto).
  assert (B' : forall p, In p (rev (swaps l)) -> (fst p < n /\ snd p < n)%nat) by (intros p Q; apply B, in_rev; auto).
  rewrite <- (F (perm (rev (swaps l)) i) (perm (rev (swaps l)) j)) by (apply perm_lt; auto). unfold P_times. fold (swaps l). rewrite fold_swap. unfold trn. rewrite fold_swap. rewrite !perm_rev. auto.
Qed.
(** ** C88: for every decomposition Eigen may return of a matrix A, S S^T = A *)
Theorem matrix_sqrt_squares n l A S : factorizes n l A -> computeMatrixSqrt n l = Some S -> meqn n n (mmn n S (trn S)) A.
Proof.
  intros F E i j I J. unfold computeMatrixSqrt in E. destruct (forallb _ _) eqn:P; inversion E; subst; clear E. rewrite (factor_entries n l A F i j I J). unfold mmn, trn. apply sum_ext. intros k K.
  unfold transposed_times. rewrite !fold_swap. rewrite forallb_forall in P. specialize (P k ltac:(apply in_seq; lia)). destruct (Rlt_dec (vectorD l k) 0) as [|N]; try discriminate. pose proof (sqrt_sqrt (vectorD l k) ltac:(lra)) as Q. rewrite <- Q at 3. ring.
Qed.
(** it is defined exactly for positive semidefinite matrices *)
Theorem matrix_sqrt_defined n l A : factorizes n l A -> ((exists S, computeMatrixSqrt n l = Some S) <-> covn n A).
Proof.
  intros F. split.
  - intros [S E]. apply (cov_ext n (mmn n S (trn S))). apply (matrix_sqrt_squares n l A S F E). apply (cov_ext n (mmn n (mmn n S In_) (trn S))). intros i j I J. apply mmn_ext; auto. intros k K. apply mmn_I_r; auto. apply cov_sandwich. split. intros i j _ _. unfold trn, In_. destruct (Nat.eq_dec i j), (Nat.eq_dec j i); congruence. intros x. replace (dotn n x (mvn n In_ x)) with (dotn n x x). apply dotn_pos. apply dotn_ext. intros ? ?; auto. intros i I. symmetry. unfold mvn. apply sum_delta_l; auto.
  - intros [_ PSD]. unfold computeMatrixSqrt. assert (P : forallb (fun k => if Rlt_dec (vectorD l k) 0 then false else true) (seq 0 n) = true); [|rewrite P; eauto].
    apply forallb_forall. intros k K. apply in_seq in K. destruct (Rlt_dec (vectorD l k) 0) as [N|]; auto. exfalso.
    destruct (unit_upper_solvable n (trn (matrixL l)) (fun i => In_ i k)) as [x Hx]. intros; apply matrixL_unit. intros i j H _. unfold trn. apply matrixL_upper; auto.
    (* y_i = x_(perm i), so that y^T A y = (L^T x)^T D (L^T x) = D_k *)
    assert (B : forall p, In p (swaps l) -> (fst p < n /\ snd p < n)%nat) by (intros p; apply swaps_bound; apply F). assert (B' : forall p, In p (rev (swaps l)) -> (fst p < n /\ snd p < n)%nat) by (intros p Q; apply B, in_rev; auto).
    specialize (PSD (fun i => x (perm (rev (swaps l)) i))).
    assert (E : dotn n (fun i => x (perm (rev (swaps l)) i)) (mvn n A (fun i => x (perm (rev (swaps l)) i))) = vectorD l k); [|lra].
    clear PSD N.
    assert (Reindex : forall f, sumn n (fun i => f (perm (rev (swaps l)) i)) = sumn n f).
    { intros f. generalize B'. generalize (rev (swaps l)) as ps. clear - n. intros ps. revert f. induction ps as [|p ps IH]; intros f Bp; auto. change (sumn n (fun i => f (swap p (perm ps i))) = sumn n f). rewrite (IH (fun i => f (swap p i))) by (intros q Q; apply Bp; right; auto).
      destruct (Bp p (or_introl eq_refl)) as [Pa Pb]. clear IH Bp. destruct p as [a b]. cbn [fst snd] in *. unfold swap. cbn [fst snd]. destruct (Nat.eq_dec a b) as [->|Nab]. apply sum_ext. intros i _. destruct (Nat.eqb_spec i b); subst; auto.
      assert (D : forall g, sumn n g = g a + g b + sumn n (fun i => if Nat.eqb i a then 0 else if Nat.eqb i b then 0 else g i)).
      { intros g. transitivity (sumn n (fun i => (if Nat.eqb i a then g i else 0) + (if Nat.eqb i b then g i else 0) + (if Nat.eqb i a then 0 else if Nat.eqb i b then 0 else g i))). apply sum_ext. intros i _. destruct (Nat.eqb_spec i a), (Nat.eqb_spec i b); subst; try ring. congruence.
        rewrite !sum_plus. rewrite (sum_single n (fun i => if Nat.eqb i a then g i else 0) a Pa), (sum_single n (fun i => if Nat.eqb i b then g i else 0) b Pb). rewrite !Nat.eqb_refl. auto. intros i _ Ni. destruct (Nat.eqb_spec i b); congruence. intros i _ Ni. destruct (Nat.eqb_spec i a); congruence. }
      rewrite (D f), (D (fun i => f (if Nat.eqb i a then b else if Nat.eqb i b then a else i))). cbv beta. rewrite !Nat.eqb_refl. destruct (Nat.eqb_spec b a); [congruence|]. f_equal. ring. apply sum_ext. intros i _. destruct (Nat.eqb_spec i a), (Nat.eqb_spec i b); auto. }
    transitivity (sumn n (fun i => sumn n (fun j => x i * (sumn n (fun m => matrixL l i m * vectorD l m * matrixL l j m) * x j)))).
    + rewrite <- (Reindex (fun i => sumn n (fun j => x i * (sumn n (fun m => matrixL l i m * vectorD l m * matrixL l j m) * x j)))). unfold dotn. apply sum_ext. intros i I. rewrite <- (Reindex (fun j => x (perm (rev (swaps l)) i) * (sumn n (fun m => matrixL l (perm (rev (swaps l)) i) m * vectorD l m * matrixL l j m) * x j))). unfold mvn. rewrite <- sum_scal. apply sum_ext. intros j J. rewrite (factor_entries n l A F i j I J). auto.
    + transitivity (sumn n (fun m => vectorD l m * (mvn n (trn (matrixL l)) x m * mvn n (trn (matrixL l)) x m))).
      * transitivity (sumn n (fun i => sumn n (fun m => sumn n (fun j => x i * (matrixL l i m * vectorD l m * matrixL l j m) * x j)))). { apply sum_ext. intros i _. rewrite sum_swap. apply sum_ext. intros j _. rewrite <- sum_scal_r, <- sum_scal. apply sum_ext. intros; ring. }
        rewrite sum_swap. apply sum_ext. intros m _. unfold mvn, trn. rewrite <- sum_scal_r, <- sum_scal. apply sum_ext. intros i _. rewrite <- !sum_scal. apply sum_ext. intros; ring.
      * rewrite (sum_single n _ k) by (try lia; intros i I N; rewrite (Hx i I); rewrite In_diff by auto; ring). rewrite (Hx k) by lia. rewrite In_same. ring.
Qed.
(** together *)
Theorem matrix_sqrt_spec n l A : factorizes n l A -> covn n A -> exists S, computeMatrixSqrt n l = Some S /\ meqn n n (mmn n S (trn S)) A.
Proof. intros F C. destruct (proj2 (matrix_sqrt_defined n l A F) C) as [S E]. exists S. split; auto. apply (matrix_sqrt_squares n l A S F E). Qed.

(** ** the requirement on Eigen can be met for every positive semidefinite matrix (here without pivoting) *)
Lemma unit_lower_solvable n : forall (U : matn) (b : vecn), (forall i, (i < n)%nat -> U i i = 1) -> (forall i j, (i < j)%nat -> (j < n)%nat -> U i j = 0) -> exists x, veqn n (mvn n U x) b.
Proof.
  induction n as [|n IH]; intros U b D Z. exists (fun _ => 0). intros i I; lia.
  destruct (IH U b) as [x Hx]. intros; apply D; lia. intros; apply Z; lia.
  exists (fun j => if Nat.eqb j n then b n - mvn n U x n else x j). intros i I. unfold mvn at 1. cbn [sumn]. rewrite Nat.eqb_refl.
  assert (E : sumn n (fun j => U i j * (if Nat.eqb j n then b n - mvn n U x n else x j)) = mvn n U x i). { unfold mvn at 2. apply sum_ext. intros j J. destruct (Nat.eqb_spec j n); [lia|auto]. } rewrite E.
  destruct (Nat.eq_dec i n) as [->|N].
  - rewrite D by lia. ring.
  - rewrite (Hx i) by lia. rewrite Z by lia. ring.
Qed.
Definition LDLt (n : nat) (L : matn) (D : vecn) (A : matn) : Prop :=
  (forall i, (i < n)%nat -> L i i = 1) /\ (forall i j, (i < j)%nat -> (j < n)%nat -> L i j = 0) /\ meqn n n A (fun i j => sumn n (fun k => L i k * D k * L j k)).
Lemma LDLt_exists n : forall A, covn n A -> exists L D, LDLt n L D A.
Proof.
  induction n as [|n IH]; intros A [Sym PSD]. exists In_, (fun _ => 0). split; [|split]; intros i; intros; lia.
  assert (Split : forall x s, dotn (S n) (fun i => if Nat.eqb i n then s else x i) (mvn (S n) A (fun i => if Nat.eqb i n then s else x i)) = dotn n x (mvn n A x) + 2 * s * dotn n x (fun i => A i n) + s * s * A n n).
  { intros x s. unfold dotn at 1. cbn [sumn]. rewrite Nat.eqb_refl. unfold mvn at 1 2. cbn [sumn]. rewrite Nat.eqb_refl.
    rewrite (sum_ext n (fun i => (if Nat.eqb i n then s else x i) * (sumn n (fun j => A i j * (if Nat.eqb j n then s else x j)) + A i n * s)) (fun i => x i * mvn n A x i + s * (x i * A i n))).
    2: { intros i I. destruct (Nat.eqb_spec i n); [lia|]. rewrite (sum_ext n _ (fun j => A i j * x j)). unfold mvn. ring. intros j J. destruct (Nat.eqb_spec j n); [lia|auto]. }
    rewrite sum_plus, sum_scal. rewrite (sum_ext n (fun j => A n j * (if Nat.eqb j n then s else x j)) (fun j => x j * A j n)). unfold dotn. ring. intros j J. destruct (Nat.eqb_spec j n); [lia|]. rewrite (Sym n j) by lia. unfold trn. ring. }
  destruct (IH A) as (L & D & U & Z & F).
  { split. intros i j I J. apply Sym; lia. intros x. specialize (PSD (fun i => if Nat.eqb i n then 0 else x i)). rewrite Split in PSD. lra. }
  destruct (unit_lower_solvable n L (fun i => A i n) U Z) as [y Hy].
  assert (K0 : forall k, (k < n)%nat -> D k = 0 -> y k = 0).
  { intros k K Dk. destruct (unit_upper_solvable n (trn L) (fun i => In_ i k)) as [x Hx]. intros; apply U; auto. intros i j J I. unfold trn. apply Z; auto.
    assert (Q : dotn n x (mvn n A x) = 0).
    { transitivity (sumn n (fun m => D m * (mvn n (trn L) x m * mvn n (trn L) x m))).
      - transitivity (sumn n (fun i => sumn n (fun m => sumn n (fun j => x i * (L i m * D m * L j m) * x j)))). { unfold dotn, mvn. apply sum_ext. intros i I. rewrite sum_swap, <- sum_scal. apply sum_ext. intros j J. rewrite (F i j I J). rewrite <- sum_scal_r, <- sum_scal. apply sum_ext. intros; ring. }
        rewrite sum_swap. apply sum_ext. intros m _. unfold mvn, trn. rewrite <- sum_scal_r, <- sum_scal. apply sum_ext. intros i _. rewrite <- !sum_scal. apply sum_ext. intros; ring.
      - rewrite (sum_single n _ k) by (try lia; intros i I N; rewrite (Hx i I); rewrite In_diff by auto; ring). rewrite Dk. ring. }
    assert (X : dotn n x (fun i => A i n) = y k).
    { rewrite (dotn_ext n x (fun i => A i n) x (mvn n L y)) by (intros i I; auto; rewrite (Hy i I); auto). rewrite dotn_comm, dotn_tr. rewrite (dotn_ext n y _ y (fun i => In_ i k)) by (intros i I; auto). unfold dotn. apply sum_delta_r; auto. }
    assert (P : forall s, 0 <= 2 * s * y k + s * s * A n n). { intros s. specialize (PSD (fun i => if Nat.eqb i n then s else x i)). rewrite Split, Q, X in PSD. lra. }
    destruct (Req_EM_T (y k) 0) as [|N]; auto. exfalso. set (c := A n n) in *. set (b := y k) in *.
    assert (C : 0 <= c) by (pose proof (P 1); pose proof (P (-1)); lra). pose proof (P (- b / (1 + c))) as P1.
    replace (2 * (- b / (1 + c)) * b + - b / (1 + c) * (- b / (1 + c)) * c) with (- (b * b) * ((2 + c) / ((1 + c) * (1 + c)))) in P1 by (field; lra). assert (0 < (2 + c) / ((1 + c) * (1 + c))) by (apply Rdiv_lt_0_compat; nra). assert (0 < b * b) by nra. nra. }
  set (l := fun k => if Req_EM_T (D k) 0 then 0 else y k / D k).
  assert (Dl : forall k, (k < n)%nat -> D k * l k = y k). { intros k K. unfold l. destruct (Req_EM_T (D k) 0) as [E|N]. rewrite (K0 k K E). ring. field. auto. }
  exists (fun i j => if Nat.eqb i n then (if Nat.eqb j n then 1 else l j) else if Nat.eqb j n then 0 else L i j), (fun k => if Nat.eqb k n then A n n - sumn n (fun k => l k * D k * l k) else D k).
  split; [|split].
  - intros i I. destruct (Nat.eqb_spec i n); auto. apply U. lia.
  - intros i j I J. destruct (Nat.eqb_spec i n), (Nat.eqb_spec j n); try lia; auto. apply Z; lia.
  - intros i j I J. cbn [sumn]. rewrite Nat.eqb_refl. destruct (Nat.eqb_spec i n) as [->|Ni], (Nat.eqb_spec j n) as [->|Nj].
    + rewrite (sum_ext n _ (fun k => l k * D k * l k)). ring. intros k K. destruct (Nat.eqb_spec k n); [lia|auto].
    + rewrite (sum_ext n _ (fun k => L j k * y k)). rewrite Sym by lia. unfold trn. pose proof (Hy j ltac:(lia)) as Q. unfold mvn in Q. rewrite Q. ring. intros k K. destruct (Nat.eqb_spec k n); [lia|]. rewrite <- Dl by auto. ring.
    + rewrite (sum_ext n _ (fun k => L i k * y k)). pose proof (Hy i ltac:(lia)) as Q. unfold mvn in Q. rewrite Q. ring. intros k K. destruct (Nat.eqb_spec k n); [lia|]. rewrite <- Dl by auto. ring.
    + rewrite (sum_ext n _ (fun k => L i k * D k * L j k)). rewrite (F i j) by lia. ring. intros k K. destruct (Nat.eqb_spec k n); [lia|auto].
Qed.
Lemma id_swaps ps i : (forall p, In p ps -> fst p = snd p) -> perm ps i = i.
Proof. intros H. induction ps as [|p ps IH]; auto. change (swap p (perm ps i) = i). rewrite IH by (intros; apply H; right; auto). unfold swap. rewrite (H p (or_introl eq_refl)). destruct (Nat.eqb_spec i (snd p)); auto. Qed.
Theorem factorization_exists n A : covn n A -> exists l, factorizes n l A.
Proof.
  intros C. destruct (LDLt_exists n A C) as (L & D & U & Z & F). exists (LDLT (fun i j => if Nat.eqb i j then D i else L i j) (seq 0 n)). split; [|split]; cbn [ld_tr].
  - apply seq_length.
  - intros t T. apply in_seq in T. lia.
  - assert (Id : forall i, perm (combine (seq 0 (length (seq 0 n))) (seq 0 n)) i = i). { intros i. apply id_swaps. rewrite seq_length. generalize 0%nat. clear. intros s p. revert s. induction n; intros s; cbn; [tauto|]. intros [<-|H]; auto. apply (IHn (S s) H). }
    intros i j I J. unfold P_times. rewrite fold_swap. unfold trn. rewrite fold_swap, !Id, (F i j I J). apply sum_ext. intros k K.
    assert (ML : forall i, (i < n)%nat -> matrixL (LDLT (fun i j => if Nat.eqb i j then D i else L i j) (seq 0 n)) i k = L i k). { intros a Ha. unfold matrixL. cbn [ld_m]. destruct (Nat.ltb_spec k a). destruct (Nat.eqb_spec a k); [lia|auto]. destruct (Nat.eqb_spec a k) as [->|]. symmetry; apply U; auto. symmetry. apply Z; lia. }
    rewrite !ML by auto. unfold vectorD. cbn [ld_m]. rewrite Nat.eqb_refl. auto.
Qed.
(** with a row exchange: [[1,2],[2,8]], pivot 8 first *)
Example ex_ldlt : let A := fun i j => match i, j with O, O => 1 | O, _ => 2 | _, O => 2 | _, _ => 8 end in
  factorizes 2 (LDLT (fun i j => match i, j with O, O => 8 | S O, O => / 4 | _, _ => / 2 end) [1%nat; 1%nat]) A /\ covn 2 A.
Proof.
  intros A. split.
  - split; [reflexivity|split]. intros t [<-|[<-|[]]]; lia. intros i j I J. assert (i = 0 \/ i = 1)%nat as [->| ->] by lia; assert (j = 0 \/ j = 1)%nat as [->| ->] by lia; cbv; lra.
  - split. intros i j _ _. destruct i as [|[|i]], j as [|[|j]]; reflexivity. intros x. unfold dotn, mvn, A. cbn [sumn]. nra.
Qed.
