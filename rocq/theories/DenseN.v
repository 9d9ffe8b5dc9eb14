(** Vectors and matrices of any size over the reals, as functions of the indices: what Eigen's dynamic or templated sizes mean in exact
    arithmetic.  Only the entries below the dimension matter; equality is stated for those. *)
From Coq Require Export Reals Lra Lia List Arith.
Open Scope R_scope.

Definition vecn := nat -> R.
Definition matn := nat -> nat -> R.
Fixpoint sumn (n : nat) (f : nat -> R) : R := match n with O => 0 | S m => sumn m f + f m end.
Definition dotn (n : nat) (a b : vecn) : R := sumn n (fun i => a i * b i).
Definition mvn (n : nat) (M : matn) (v : vecn) : vecn := fun i => sumn n (fun j => M i j * v j).
Definition mmn (n : nat) (A B : matn) : matn := fun i j => sumn n (fun k => A i k * B k j).
Definition trn (A : matn) : matn := fun i j => A j i.
Definition maddn (A B : matn) : matn := fun i j => A i j + B i j.
Definition msubn (A B : matn) : matn := fun i j => A i j - B i j.
Definition mscalen (s : R) (A : matn) : matn := fun i j => s * A i j.
Definition outern (a b : vecn) : matn := fun i j => a i * b j.
Definition In_ : matn := fun i j => if Nat.eq_dec i j then 1 else 0.
Definition Zn : matn := fun _ _ => 0.
Definition addn (a b : vecn) : vecn := fun i => a i + b i.
Definition subn (a b : vecn) : vecn := fun i => a i - b i.
Definition scalen (s : R) (a : vecn) : vecn := fun i => s * a i.
Definition normn (n : nat) (a : vecn) : R := sqrt (dotn n a a).
(** equality of the first n entries, of the first n x m entries *)
Definition veqn (n : nat) (a b : vecn) : Prop := forall i, (i < n)%nat -> a i = b i.
Definition meqn (n m : nat) (A B : matn) : Prop := forall i j, (i < n)%nat -> (j < m)%nat -> A i j = B i j.
(** specification: a covariance matrix is symmetric and positive semidefinite *)
Definition covn (n : nat) (E : matn) : Prop := meqn n n E (trn E) /\ forall x, 0 <= dotn n x (mvn n E x).

Lemma sum_ext n f g : (forall i, (i < n)%nat -> f i = g i) -> sumn n f = sumn n g.
Proof. induction n; intros H; cbn; auto. rewrite IHn by (intros; apply H; lia). rewrite H by lia. auto. Qed.
Lemma sum_plus n f g : sumn n (fun i => f i + g i) = sumn n f + sumn n g.
Proof. induction n; cbn; [lra|rewrite IHn; lra]. Qed.
Lemma sum_scal n s f : sumn n (fun i => s * f i) = s * sumn n f.
Proof. induction n; cbn; [lra|rewrite IHn; lra]. Qed.
Lemma sum_scal_r n s f : sumn n (fun i => f i * s) = sumn n f * s.
Proof. induction n; cbn; [lra|rewrite IHn; lra]. Qed.
Lemma sum_minus n f g : sumn n (fun i => f i - g i) = sumn n f - sumn n g.
Proof. induction n; cbn; [lra|rewrite IHn; lra]. Qed.
Lemma sum_zero n f : (forall i, (i < n)%nat -> f i = 0) -> sumn n f = 0.
Proof. intros H. rewrite (sum_ext n f (fun _ => 0)) by auto. clear. induction n; cbn; [auto|rewrite IHn; lra]. Qed.
Lemma sum_swap n m f : sumn n (fun i => sumn m (fun j => f i j)) = sumn m (fun j => sumn n (fun i => f i j)).
Proof. induction n; cbn. - symmetry. apply sum_zero. auto. - rewrite IHn, <- sum_plus. auto. Qed.
Lemma sum_nonneg n f : (forall i, (i < n)%nat -> 0 <= f i) -> 0 <= sumn n f.
Proof. induction n; intros H; cbn; [lra|]. assert (0 <= sumn n f) by (apply IHn; intros; apply H; lia). assert (0 <= f n) by (apply H; lia). lra. Qed.
Lemma sum_single n f k : (k < n)%nat -> (forall i, (i < n)%nat -> i <> k -> f i = 0) -> sumn n f = f k.
Proof.
  induction n; intros K H; [lia|]. cbn. destruct (Nat.eq_dec k n) as [->|N].
  - rewrite sum_zero by (intros; apply H; lia). lra.
  - rewrite IHn by (try lia; intros; apply H; lia). rewrite (H n) by lia. lra.
Qed.
Lemma In_same k : In_ k k = 1. Proof. unfold In_. destruct (Nat.eq_dec k k); [auto|congruence]. Qed.
Lemma In_diff i k : i <> k -> In_ i k = 0. Proof. intros N. unfold In_. destruct (Nat.eq_dec i k); [congruence|auto]. Qed.
Lemma sum_delta_l n k f : (k < n)%nat -> sumn n (fun j => In_ k j * f j) = f k.
Proof. intros K. transitivity (In_ k k * f k); [apply (sum_single n (fun j => In_ k j * f j) k K)|rewrite In_same; ring]. intros i _ N. rewrite In_diff by auto. ring. Qed.
Lemma sum_delta_r n k f : (k < n)%nat -> sumn n (fun j => f j * In_ j k) = f k.
Proof. intros K. transitivity (f k * In_ k k); [apply (sum_single n (fun j => f j * In_ j k) k K)|rewrite In_same; ring]. intros i _ N. rewrite In_diff by auto. ring. Qed.

Lemma mvn_mm n m A B v i : mvn m (mmn n A B) v i = mvn n A (mvn m B v) i.
Proof.
  unfold mvn, mmn. rewrite (sum_ext m _ (fun j => sumn n (fun k => A i k * B k j * v j))) by (intros; rewrite <- sum_scal_r; auto).
  rewrite sum_swap. apply sum_ext. intros k _. rewrite <- sum_scal. apply sum_ext. intros; ring.
Qed.
Lemma mmn_assoc n m A B C i j : mmn m (mmn n A B) C i j = mmn n A (mmn m B C) i j.
Proof. exact (mvn_mm n m A B (fun k => C k j) i). Qed.
Lemma mvn_ext n A B v w i : (forall j, (j < n)%nat -> A i j = B i j) -> veqn n v w -> mvn n A v i = mvn n B w i.
Proof. intros H K. apply sum_ext. intros j J. rewrite H, K by auto. auto. Qed.
Lemma mmn_ext n A A' B B' i j : (forall k, (k < n)%nat -> A i k = A' i k) -> (forall k, (k < n)%nat -> B k j = B' k j) -> mmn n A B i j = mmn n A' B' i j.
Proof. intros H K. apply sum_ext. intros k L. rewrite H, K by auto. auto. Qed.
Lemma trn_mm n A B i j : trn (mmn n A B) i j = mmn n (trn B) (trn A) i j.
Proof. unfold trn, mmn. apply sum_ext. intros; ring. Qed.
Lemma mmn_I_l n A i j : (i < n)%nat -> mmn n In_ A i j = A i j.
Proof. intros H. unfold mmn. exact (sum_delta_l n i (fun k => A k j) H). Qed.
Lemma mmn_I_r n A i j : (j < n)%nat -> mmn n A In_ i j = A i j.
Proof. intros H. unfold mmn. exact (sum_delta_r n j (fun k => A i k) H). Qed.
Lemma dotn_tr n m A v w : dotn n (mvn m A v) w = dotn m v (mvn n (trn A) w).
Proof.
  unfold dotn, mvn, trn. rewrite (sum_ext n _ (fun i => sumn m (fun j => A i j * v j * w i))) by (intros; rewrite <- sum_scal_r; auto).
  rewrite sum_swap. apply sum_ext. intros j _. rewrite <- sum_scal. apply sum_ext. intros; ring.
Qed.
Lemma dotn_comm n a b : dotn n a b = dotn n b a. Proof. apply sum_ext. intros; ring. Qed.
Lemma dotn_pos n a : 0 <= dotn n a a. Proof. apply sum_nonneg. intros. nra. Qed.
Lemma dotn_add_r n a b c : dotn n a (addn b c) = dotn n a b + dotn n a c.
Proof. unfold dotn, addn. rewrite <- sum_plus. apply sum_ext. intros; ring. Qed.
Lemma dotn_scale_r n s a b : dotn n a (scalen s b) = s * dotn n a b.
Proof. unfold dotn, scalen. rewrite <- sum_scal. apply sum_ext. intros; ring. Qed.
Lemma dotn_ext n a b c d : veqn n a c -> veqn n b d -> dotn n a b = dotn n c d.
Proof. intros H K. apply sum_ext. intros. rewrite H, K by auto. auto. Qed.
Lemma mvn_maddn n A B v i : mvn n (maddn A B) v i = mvn n A v i + mvn n B v i.
Proof. unfold mvn, maddn. rewrite <- sum_plus. apply sum_ext. intros; ring. Qed.
Lemma mvn_mscalen n s A v i : mvn n (mscalen s A) v i = s * mvn n A v i.
Proof. unfold mvn, mscalen. rewrite <- sum_scal. apply sum_ext. intros; ring. Qed.
Lemma mvn_outern n a b v i : mvn n (outern a b) v i = a i * dotn n b v.
Proof. unfold mvn, outern, dotn. rewrite <- sum_scal. apply sum_ext. intros; ring. Qed.

(** ** covariances *)
Lemma cov_ext n A B : meqn n n A B -> covn n A -> covn n B.
Proof.
  intros H [S P]. split.
  - intros i j I J. rewrite <- H by auto. rewrite S by auto. unfold trn. apply H; auto.
  - intros x. replace (dotn n x (mvn n B x)) with (dotn n x (mvn n A x)); auto. apply dotn_ext; [intros ? ?; auto|]. intros i I. apply mvn_ext; [intros; auto|intros ? ?; auto].
Qed.
Lemma cov_sandwich n m M E : covn n E -> covn m (mmn n (mmn n M E) (trn M)).
Proof.
  intros [S P]. split.
  - intros i j I J. rewrite trn_mm. rewrite mmn_assoc. unfold trn at 2. apply mmn_ext; auto. intros k K. rewrite trn_mm. apply mmn_ext; auto.
  - intros x. replace (dotn m x (mvn m (mmn n (mmn n M E) (trn M)) x)) with (dotn n (mvn m (trn M) x) (mvn n E (mvn m (trn M) x))); [apply P|].
    rewrite dotn_tr. apply dotn_ext; [intros ? ?; auto|]. intros i _. change (trn (trn M)) with M. rewrite !mvn_mm. auto.
Qed.
Lemma cov_add n A B : covn n A -> covn n B -> covn n (maddn A B).
Proof.
  intros [S P] [T Q]. split. intros i j I J. unfold trn, maddn. rewrite S, T by auto. auto. intros x. specialize (P x). specialize (Q x).
  replace (dotn n x (mvn n (maddn A B) x)) with (dotn n x (mvn n A x) + dotn n x (mvn n B x)); [lra|]. unfold dotn. rewrite <- sum_plus. apply sum_ext. intros. rewrite mvn_maddn. ring.
Qed.
Lemma cov_scale n s A : 0 <= s -> covn n A -> covn n (mscalen s A).
Proof.
  intros N [S P]. split. intros i j I J. unfold trn, mscalen. rewrite S by auto. auto. intros x. specialize (P x).
  replace (dotn n x (mvn n (mscalen s A) x)) with (s * dotn n x (mvn n A x)); [nra|]. unfold dotn. rewrite <- sum_scal. apply sum_ext. intros. rewrite mvn_mscalen. ring.
Qed.
Lemma cov_outer n a : covn n (outern a a).
Proof.
  split. intros i j _ _. unfold trn, outern. ring. intros x.
  replace (dotn n x (mvn n (outern a a) x)) with (dotn n a x * dotn n a x); [nra|]. unfold dotn at 3. rewrite (sum_ext n _ (fun i => a i * x i * dotn n a x)). rewrite sum_scal_r. auto. intros. rewrite mvn_outern. ring.
Qed.
Lemma cov_zero n : covn n Zn.
Proof. split. intros i j _ _. reflexivity. intros x. unfold dotn. rewrite sum_zero. lra. intros. unfold mvn. rewrite sum_zero. lra. intros. unfold Zn. ring. Qed.
Lemma cov_quad n A x : covn n A -> 0 <= dotn n x (mvn n A x). Proof. intros [_ P]. apply P. Qed.
