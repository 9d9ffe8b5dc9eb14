(** C98 for UncertainVector of every dimension and for uncertain scalars: the covariance of every operation is J E J^T with J its derivative
    (summed over the independent operands). *)
From Coq Require Import Reals Lra Psatz FunctionalExtensionality.
From Coquelicot Require Import Coquelicot.
From Verif Require Import DenseN Kin_Unc_Model.
Open Scope R_scope.

(** ** specification: directional derivatives along every ray *)
Definition ray (x d : vecn) (s : R) : vecn := fun i => x i + s * d i.
(** J is the m x n Jacobian at x of f : R^n -> R^m; g the gradient of a real function; k the derivative of a curve in R^m *)
Definition jacn (n m : nat) (f : vecn -> vecn) (x : vecn) (J : matn) : Prop := forall d i, (i < m)%nat -> derivable_pt_lim (fun s => f (ray x d s) i) 0 (mvn n J d i).
Definition gradn (n : nat) (f : vecn -> R) (x g : vecn) : Prop := forall d, derivable_pt_lim (fun s => f (ray x d s)) 0 (dotn n g d).
Definition derivn (m : nat) (f : R -> vecn) (t : R) (k : vecn) : Prop := forall i, (i < m)%nat -> derivable_pt_lim (fun s => f s i) t (k i).
(** J E J^T *)
Definition propagate (n : nat) (J E : matn) : matn := mmn n (mmn n J E) (trn J).

Lemma derive_sum n (f : nat -> R -> R) l t : (forall i, (i < n)%nat -> derivable_pt_lim (f i) t (l i)) -> derivable_pt_lim (fun s => sumn n (fun i => f i s)) t (sumn n l).
Proof. induction n; intros H; cbn [sumn]. apply derivable_pt_lim_const. apply (derivable_pt_lim_plus (fun s => sumn n (fun i => f i s)) (f n)). apply IHn. intros; apply H; lia. apply H. lia. Qed.
Lemma derive_affine a b t : derivable_pt_lim (fun s => a + s * b) t b.
Proof. apply is_derive_Reals. auto_derive; [auto|ring]. Qed.
Lemma jac_linear n m M x f : (forall y i, (i < m)%nat -> f y i = mvn n M y i) -> jacn n m f x M.
Proof.
  intros E d i I. replace (fun s => f (ray x d s) i) with (fun s => mvn n M x i + s * mvn n M d i). apply derive_affine.
  apply functional_extensionality. intros s. rewrite E by auto. unfold mvn, ray. rewrite <- sum_scal, <- sum_plus. apply sum_ext. intros; ring.
Qed.
Lemma propagate_scalar n s E i j : (i < n)%nat -> (j < n)%nat -> propagate n (mscalen s In_) E i j = s * s * E i j.
Proof.
  intros I J. unfold propagate. rewrite mmn_assoc. transitivity (s * (mmn n (mscalen s In_) E i j)).
  - unfold mmn at 1. rewrite (sum_single n _ i I). 2: { intros k _ N. unfold mscalen. rewrite In_diff by auto. ring. } unfold mscalen at 1. rewrite In_same, Rmult_1_r. f_equal. unfold mmn.
    rewrite (sum_single n _ j J). 2: { intros k _ N. unfold trn, mscalen. rewrite In_diff by auto. ring. } rewrite (sum_single n _ i I). 2: { intros k _ N. unfold mscalen. rewrite In_diff by auto. ring. } unfold trn, mscalen. rewrite !In_same. ring.
  - unfold mmn. rewrite (sum_single n _ i I). 2: { intros k _ N. unfold mscalen. rewrite In_diff by auto. ring. } unfold mscalen. rewrite In_same. ring.
Qed.
Lemma mvn_scalar n s v i : (i < n)%nat -> mvn n (mscalen s In_) v i = s * v i.
Proof. intros I. rewrite mvn_mscalen. f_equal. unfold mvn. exact (sum_delta_l n i v I). Qed.

(** ** vectors *)
Theorem uv_linear_first_order n M x : exists J, jacn n n (fun y => mvn n M y) (uv_v x) J /\ meqn n n (uv_E (uv_linear n M x)) (propagate n J (uv_E x)).
Proof. exists M. split. apply jac_linear. auto. intros i j _ _. reflexivity. Qed.
Theorem uv_add_first_order n x y : exists J K, jacn n n (fun z => addn z (uv_v y)) (uv_v x) J /\ jacn n n (fun z => addn (uv_v x) z) (uv_v y) K /\ meqn n n (uv_E (uv_add x y)) (maddn (propagate n J (uv_E x)) (propagate n K (uv_E y))).
Proof.
  exists (mscalen 1 In_), (mscalen 1 In_). split; [|split].
  - intros d i I. rewrite mvn_scalar by auto. apply is_derive_Reals. unfold addn, ray. auto_derive; [auto|ring].
  - intros d i I. rewrite mvn_scalar by auto. apply is_derive_Reals. unfold addn, ray. auto_derive; [auto|ring].
  - intros i j I J. unfold maddn, uv_add. cbn [uv_E]. rewrite !propagate_scalar by auto. unfold maddn. ring.
Qed.
Theorem uv_sub_first_order n x y : exists J K, jacn n n (fun z => subn z (uv_v y)) (uv_v x) J /\ jacn n n (fun z => subn (uv_v x) z) (uv_v y) K /\ meqn n n (uv_E (uv_sub x y)) (maddn (propagate n J (uv_E x)) (propagate n K (uv_E y))).
Proof.
  exists (mscalen 1 In_), (mscalen (-1) In_). split; [|split].
  - intros d i I. rewrite mvn_scalar by auto. apply is_derive_Reals. unfold subn, ray. auto_derive; [auto|ring].
  - intros d i I. rewrite mvn_scalar by auto. apply is_derive_Reals. unfold subn, ray. auto_derive; [auto|ring].
  - intros i j I J. unfold maddn, uv_sub. cbn [uv_E]. rewrite !propagate_scalar by auto. unfold maddn. ring.
Qed.
(** x * s: with respect to the vector, and with respect to the scalar (variance times k k^T) *)
Theorem uv_mul_first_order n x s : exists J k, jacn n n (fun z => scalen (us_v s) z) (uv_v x) J /\ derivn n (fun r => scalen r (uv_v x)) (us_v s) k /\ meqn n n (uv_E (uv_mul x s)) (maddn (propagate n J (uv_E x)) (mscalen (us_E s) (outern k k))).
Proof.
  exists (mscalen (us_v s) In_), (uv_v x). split; [|split].
  - intros d i I. rewrite mvn_scalar by auto. apply is_derive_Reals. unfold scalen, ray. auto_derive; [auto|ring].
  - intros i I. apply is_derive_Reals. unfold scalen. auto_derive; [auto|ring].
  - intros i j I J. unfold maddn, uv_mul, mscalen, outern. cbn [uv_E]. fold (mscalen (us_v s) In_). rewrite propagate_scalar by auto. ring.
Qed.
Theorem uv_scale_first_order n x c : exists J, jacn n n (fun z => scalen c z) (uv_v x) J /\ meqn n n (uv_E (uv_scale x c)) (propagate n J (uv_E x)).
Proof.
  exists (mscalen c In_). split.
  - intros d i I. rewrite mvn_scalar by auto. apply is_derive_Reals. unfold scalen, ray. auto_derive; [auto|ring].
  - intros i j I J. rewrite propagate_scalar by auto. unfold uv_scale. cbn [uv_E]. ring.
Qed.
Lemma dotn_ray n x d s : dotn n (ray x d s) (ray x d s) = dotn n x x + s * (2 * dotn n x d) + s * s * dotn n d d.
Proof. unfold dotn, ray. rewrite <- !sum_scal, <- !sum_plus. apply sum_ext. intros; ring. Qed.
Lemma dotn_ray_l n x d y s : dotn n (ray x d s) y = dotn n x y + s * dotn n y d.
Proof. unfold dotn, ray. rewrite <- sum_scal, <- sum_plus. apply sum_ext. intros; ring. Qed.
Theorem uv_dot_first_order n x y : exists g h, gradn n (fun z => dotn n z (uv_v y)) (uv_v x) g /\ gradn n (fun z => dotn n (uv_v x) z) (uv_v y) h /\ us_v (uv_dot n x y) = dotn n (uv_v x) (uv_v y) /\
  us_E (uv_dot n x y) = dotn n g (mvn n (uv_E x) g) + dotn n h (mvn n (uv_E y) h).
Proof.
  exists (uv_v y), (uv_v x). split; [|split; [|split; auto]].
  - intros d. replace (fun s => dotn n (ray (uv_v x) d s) (uv_v y)) with (fun s => dotn n (uv_v x) (uv_v y) + s * dotn n (uv_v y) d) by (apply functional_extensionality; intros; rewrite dotn_ray_l; auto). apply derive_affine.
  - intros d. replace (fun s => dotn n (uv_v x) (ray (uv_v y) d s)) with (fun s => dotn n (uv_v y) (uv_v x) + s * dotn n (uv_v x) d) by (apply functional_extensionality; intros; rewrite (dotn_comm n (uv_v x) (ray _ _ _)), dotn_ray_l; auto). apply derive_affine.
  - cbn [uv_dot us_E]. ring.
Qed.
Theorem uv_normalized_first_order n x y : uv_normalized n x = Some y -> exists J, jacn n n (fun z => scalen (1 / normn n z) z) (uv_v x) J /\ meqn n n (uv_E y) (propagate n J (uv_E x)) /\ forall i, uv_v y i = scalen (1 / normn n (uv_v x)) (uv_v x) i.
Proof.
  unfold uv_normalized, normalizeAndJacobianN. destruct (Req_EM_T (normn n (uv_v x)) 0) as [|N]; intros E; inversion E. clear E H0. eexists. split; [|split; [intros i j _ _; reflexivity|auto]].
  intros d i I. assert (Q : normn n (uv_v x) * normn n (uv_v x) = dotn n (uv_v x) (uv_v x)) by (apply sqrt_sqrt, dotn_pos). assert (P : 0 < dotn n (uv_v x) (uv_v x)). { pose proof (dotn_pos n (uv_v x)). rewrite <- Q in *. nra. }
  set (r := normn n (uv_v x)) in *.
  replace (mvn n (msubn (mscalen (1 / r) In_) (mscalen (1 / r * (1 / r) * (1 / r)) (outern (uv_v x) (uv_v x)))) d i) with (1 / r * d i - 1 / r * (1 / r) * (1 / r) * (uv_v x i * dotn n (uv_v x) d)).
  2: { transitivity (mvn n (mscalen (1 / r) In_) d i - mvn n (mscalen (1 / r * (1 / r) * (1 / r)) (outern (uv_v x) (uv_v x))) d i). rewrite mvn_scalar, mvn_mscalen, mvn_outern by auto. auto. unfold mvn, msubn. rewrite <- sum_minus. apply sum_ext. intros; ring. }
  replace (fun s => scalen (1 / normn n (ray (uv_v x) d s)) (ray (uv_v x) d s) i) with (fun s => 1 / sqrt (dotn n (uv_v x) (uv_v x) + s * (2 * dotn n (uv_v x) d) + s * s * dotn n d d) * (uv_v x i + s * d i)).
  2: { apply functional_extensionality. intros s. unfold scalen, normn. rewrite dotn_ray. reflexivity. }
  unfold normn in r. assert (R : r = sqrt (dotn n (uv_v x) (uv_v x))) by reflexivity. clearbody r. generalize dependent (dotn n (uv_v x) (uv_v x)). intros A Q P R. generalize (dotn n (uv_v x) d) (dotn n d d) (uv_v x i) (d i). intros B C u v. apply is_derive_Reals.
  auto_derive; replace (A + 0 * (2 * B) + 0 * 0 * C) with A by ring; rewrite <- ?R.
  - repeat split; auto.
  - field. auto.
Qed.

(** ** scalars: ordinary derivatives in each operand *)
Theorem us_ops_first_order x y r :
  (exists a b, derivable_pt_lim (fun u => u * us_v y) (us_v x) a /\ derivable_pt_lim (fun u => us_v x * u) (us_v y) b /\ us_E (us_mul x y) = a * a * us_E x + b * b * us_E y) /\
  (exists a b, derivable_pt_lim (fun u => u + us_v y) (us_v x) a /\ derivable_pt_lim (fun u => us_v x + u) (us_v y) b /\ us_E (us_add x y) = a * a * us_E x + b * b * us_E y) /\
  (exists a b, derivable_pt_lim (fun u => u - us_v y) (us_v x) a /\ derivable_pt_lim (fun u => us_v x - u) (us_v y) b /\ us_E (us_sub x y) = a * a * us_E x + b * b * us_E y) /\
  (exists a, derivable_pt_lim (fun u => u * r) (us_v x) a /\ us_E (us_mulr x r) = a * a * us_E x) /\
  (exists a, derivable_pt_lim (fun u => u + r) (us_v x) a /\ us_E (us_addv x r) = a * a * us_E x) /\ (exists a, derivable_pt_lim (fun u => u - r) (us_v x) a /\ us_E (us_subv x r) = a * a * us_E x).
Proof.
  split; [exists (us_v y), (us_v x)|split; [exists 1, 1|split; [exists 1, (-1)|split; [exists r|split; exists 1]]]].
  all: repeat match goal with |- _ /\ _ => split | |- derivable_pt_lim _ _ _ => apply is_derive_Reals; auto_derive; [auto|ring] end.
  all: unfold us_mul, us_dot, us_add, us_sub, us_mulr, us_dotv, us_addv, us_subv; cbn [us_E]; ring.
Qed.
Theorem us_div_first_order x y z : us_div x y = Some z -> exists a b, derivable_pt_lim (fun u => u / us_v y) (us_v x) a /\ derivable_pt_lim (fun u => us_v x / u) (us_v y) b /\ us_v z = us_v x / us_v y /\ us_E z = a * a * us_E x + b * b * us_E y.
Proof.
  unfold us_div. destruct (Req_EM_T (us_v y) 0) as [|N]; intros E; inversion E. clear E. exists (1 / us_v y), (- us_v x / (us_v y * us_v y)). cbn [us_v us_E]. split; [|split; [|split; [auto|ring]]]; apply is_derive_Reals; auto_derive; auto; field; auto.
Qed.
Theorem us_divv_first_order x r z : us_divv x r = Some z -> exists a, derivable_pt_lim (fun u => u / r) (us_v x) a /\ us_v z = us_v x / r /\ us_E z = a * a * us_E x.
Proof. unfold us_divv. destruct (Req_EM_T r 0) as [|N]; intros E; inversion E. clear E. exists (1 / r). cbn [us_v us_E]. split; [|split; [auto|ring]]. apply is_derive_Reals. auto_derive; auto; field; auto. Qed.
(** ** the values: every operation acts on the values of its operands as it would without uncertainty *)
Theorem uncertain_values n M x y v s r z :
  (forall i, uv_v uv_zero i = 0 /\ uv_v (uv_certain v) i = v i /\ uv_v (uv_linear n M x) i = sumn n (fun j => M i j * uv_v x j) /\
     uv_v (uv_add x y) i = uv_v x i + uv_v y i /\ uv_v (uv_addv x v) i = uv_v x i + v i /\
     uv_v (uv_sub x y) i = uv_v x i - uv_v y i /\ uv_v (uv_subv x v) i = uv_v x i - v i /\
     uv_v (uv_mul x s) i = us_v s * uv_v x i /\ uv_v (uv_scale x r) i = r * uv_v x i /\ uv_v (us_mulv s v) i = us_v s * v i) /\
  us_v (uv_dot n x y) = sumn n (fun i => uv_v x i * uv_v y i) /\ us_v (uv_dotv n x v) = sumn n (fun i => uv_v x i * v i) /\
  us_v (us_dot s z) = us_v s * us_v z /\ us_v (us_dotv s r) = us_v s * r /\ us_v (us_mul s z) = us_v s * us_v z /\ us_v (us_mulr s r) = us_v s * r /\
  us_v (us_add s z) = us_v s + us_v z /\ us_v (us_addv s r) = us_v s + r /\ us_v (us_sub s z) = us_v s - us_v z /\ us_v (us_subv s r) = us_v s - r.
Proof. repeat split. Qed.
Example ex_div : exists z, us_div (US 3 1) (US 2 4) = Some z. Proof. unfold us_div. cbn [us_v]. destruct (Req_EM_T 2 0); [lra|eauto]. Qed.
