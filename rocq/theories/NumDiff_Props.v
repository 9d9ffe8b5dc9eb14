(** C89: central differences. *)
From Coq Require Import Psatz.
From Coquelicot Require Import Coquelicot.
From Verif Require Import NumDiff_Model.
Open Scope R_scope.

(** ** specification *)
(** x + t e_c *)
Definition bump (x : vec) (c : nat) (t : R) : vec := map (fun j => nth j x 0 + (if Nat.eqb j c then t else 0)) (seq 0 (length x)).
(** the number of components of f does not change along the coordinate axes through x *)
Definition constant_size (f : vec -> vec) (x : vec) : Prop := forall c t, (c < length x)%nat -> length (f (bump x c t)) = length (f x).
(** component i of f along axis c *)
Definition slice (f : vec -> vec) (x : vec) (c i : nat) (t : R) : R := nth i (f (bump x c t)) 0.
(** the Jacobian: entry (i,c) of a matrix given by its columns *)
Definition entry (J : list vec) (i c : nat) : R := nth i (nth c J []) 0.
Definition has_shape (J : list vec) (m n : nat) : Prop := length J = n /\ Forall (fun col => length col = m) J.
(** the step along axis c *)
Definition stepsize (eps : R) (x : vec) (c : nat) : R := Rmax (Rabs (nth c x 0) * eps) eps.

Lemma update_bump x c t : update x c t = bump x c t.
Proof.
  unfold bump. revert c. induction x as [|a x IH]; intros c; auto. cbn [length seq map nth]. destruct c as [|c]; cbn [update Nat.eqb].
  - f_equal. rewrite <- seq_shift, map_map. cbn [nth Nat.eqb]. transitivity (map (fun j => nth j x 0) (seq 0 (length x))). clear. induction x as [|b x IH]; auto. cbn [length seq map nth]. f_equal. rewrite <- seq_shift, map_map. exact IH. apply map_ext. intros; ring.
  - f_equal. ring. rewrite IH. rewrite <- seq_shift, map_map. reflexivity.
Qed.
Lemma minus_vec_some a b : length a = length b -> exists d, minus_vec a b = Some d /\ length d = length a /\ forall i, nth i d 0 = nth i a 0 - nth i b 0.
Proof.
  revert b. induction a as [|x a IH]; intros [|y b] L; try discriminate; cbn. exists []. repeat split; auto. intros [|i]; cbn; ring.
  destruct (IH b) as (d & -> & Ld & Hd). auto. exists (x - y :: d). repeat split; auto. cbn; lia. intros [|i]; cbn; auto.
Qed.
Lemma all_some_map {T} (g : nat -> option T) l : (forall c, In c l -> exists v, g c = Some v) -> exists vs, all_some (map g l) = Some vs /\ length vs = length l /\ (forall k d, (k < length l)%nat -> g (nth k l 0%nat) = Some (nth k vs d)).
Proof.
  induction l as [|c l IH]; intros H; cbn. exists []. repeat split; auto. intros; lia. destruct (H c (or_introl eq_refl)) as [v E]. destruct IH as (vs & -> & L & K). intros; apply H; right; auto. rewrite E. exists (v :: vs). repeat split; cbn; auto. intros [|k] d Hk; auto. apply K. lia.
Qed.
Lemma eps_pos eps x c : 0 < eps -> eps <= stepsize eps x c.
Proof. intros. apply Rmax_r. Qed.

(** ** C89 *)
(** what is returned, for every function and every positive eps: an m x n matrix of central difference quotients *)
Theorem estimateJacobian_quotients f eps x : 0 < eps -> constant_size f x -> exists J, fst (estimateJacobian f eps x) = Some J /\ has_shape J (length (f x)) (length x) /\
  forall i c, (c < length x)%nat -> let h := stepsize eps x c in entry J i c = (slice f x c i h - slice f x c i (- h)) / (2 * h).
Proof.
  intros E C. unfold estimateJacobian. cbn [fst].
  assert (Col : forall c, (c < length x)%nat -> exists v, column f eps x (length (f x)) c = Some v /\ length v = length (f x) /\ forall i, nth i v 0 = (slice f x c i (stepsize eps x c) - slice f x c i (- stepsize eps x c)) / (2 * stepsize eps x c)).
  { intros c Hc. unfold column. fold (stepsize eps x c). change (rcEps eps x c) with (stepsize eps x c). rewrite !update_bump. pose proof (eps_pos eps x c E) as P. destruct (minus_vec_some (f (bump x c (stepsize eps x c))) (f (bump x c (- stepsize eps x c)))) as (d & -> & L & D). rewrite !C by auto. auto.
    rewrite L, C, Nat.eqb_refl by auto. destruct (Req_EM_T (stepsize eps x c * 2) 0); [lra|]. eexists. split; [reflexivity|]. split. rewrite map_length, L, C; auto. intros i. unfold slice. rewrite <- D. replace 0 with (0 / (stepsize eps x c * 2)) at 1 by (field; lra). rewrite (map_nth (fun v => v / (stepsize eps x c * 2))). f_equal. ring. }
  destruct (all_some_map (column f eps x (length (f x))) (seq 0 (length x))) as (vs & Hv & L & K). intros c Hc. apply in_seq in Hc. destruct (Col c) as (v & Ev & _). lia. eauto. rewrite seq_length in *.
  exists vs. split; auto. assert (N : forall c, (c < length x)%nat -> column f eps x (length (f x)) c = Some (nth c vs [])). { intros c Hc. pose proof (K c [] Hc) as Q. rewrite seq_nth in Q by auto. exact Q. }
  split.
  - split; auto. apply Forall_forall. intros v Hin. apply (In_nth _ _ []) in Hin. destruct Hin as (c & Hc & <-). pose proof (eq_ind _ (fun n => (c < n)%nat) Hc _ L) as Hc1. clear Hc. rename Hc1 into Hc. destruct (Col c Hc) as (w & Ew & Lw & _). rewrite (N c Hc) in Ew. inversion Ew. subst. auto.
  - intros i c Hc. destruct (Col c Hc) as (w & Ew & _ & Hw). rewrite (N c Hc) in Ew. inversion Ew. unfold entry. rewrite <- Hw. congruence.
Qed.
(** f is called at x0 and at two points on each axis through x0, in this order, and nowhere else *)
Theorem estimateJacobian_calls f eps x : snd (estimateJacobian f eps x) = x :: flat_map (fun c => [bump x c (stepsize eps x c); bump x c (- stepsize eps x c)]) (seq 0 (length x)).
Proof. unfold estimateJacobian. cbn [snd]. f_equal. apply flat_map_ext. intros c. unfold column_calls. rewrite !update_bump. reflexivity. Qed.
(** exact for functions that are quadratic in each coordinate *)
Theorem estimateJacobian_quadratic f eps x : 0 < eps -> constant_size f x ->
  (forall i c, (c < length x)%nat -> exists p q r, forall t, slice f x c i t = p + q * t + r * (t * t)) ->
  exists J, fst (estimateJacobian f eps x) = Some J /\ has_shape J (length (f x)) (length x) /\ forall i c, (c < length x)%nat -> derivable_pt_lim (slice f x c i) 0 (entry J i c).
Proof.
  intros E C Q. destruct (estimateJacobian_quotients f eps x E C) as (J & HJ & S & H). exists J. split; [|split]; auto. intros i c Hc. rewrite (H i c Hc). destruct (Q i c Hc) as (p & q & r & P). pose proof (eps_pos eps x c E). rewrite !P. set (h := stepsize eps x c) in *.
  replace ((p + q * h + r * (h * h) - (p + q * - h + r * (- h * - h))) / (2 * h)) with q by (field; lra). apply is_derive_Reals. apply (is_derive_ext (fun t => p + q * t + r * (t * t))). intros t. symmetry. apply P. auto_derive; auto. ring.
Qed.
(** for every differentiable function the result tends to the Jacobian as eps tends to 0 *)
Theorem estimateJacobian_converges f x i c l : constant_size f x -> (c < length x)%nat -> derivable_pt_lim (slice f x c i) 0 l ->
  forall tol, 0 < tol -> exists eps0, 0 < eps0 /\ forall eps, 0 < eps <= eps0 -> exists J, fst (estimateJacobian f eps x) = Some J /\ Rabs (entry J i c - l) < tol.
Proof.
  intros C Hc D tol T. destruct (D tol T) as [[delta Hd] Hl]. cbn [pos] in Hl. set (k := 1 + Rabs (nth c x 0)). assert (K : 1 <= k) by (unfold k; pose proof (Rabs_pos (nth c x 0)); lra).
  exists (delta / (2 * k)). split. apply Rdiv_lt_0_compat; lra. intros eps [E1 E2]. destruct (estimateJacobian_quotients f eps x E1 C) as (J & HJ & _ & H). exists J. split; auto. rewrite (H i c Hc). pose proof (eps_pos eps x c E1) as P.
  assert (U : stepsize eps x c < delta). { assert (eps * k <= delta / 2). { apply Rle_trans with (delta / (2 * k) * k). apply Rmult_le_compat_r; lra. right. field. lra. } unfold stepsize. unfold k in H0. apply Rmax_case; pose proof (Rabs_pos (nth c x 0)); nra. }
  set (h := stepsize eps x c) in *. pose proof (Hl h ltac:(lra) ltac:(rewrite Rabs_right; lra)) as A. pose proof (Hl (- h) ltac:(lra) ltac:(rewrite Rabs_left; lra)) as B. rewrite !Rplus_0_l in *.
  set (g := slice f x c i) in *. replace ((g h - g (- h)) / (2 * h) - l) with (/ 2 * (((g h - g 0) / h - l) + ((g (- h) - g 0) / - h - l))) by (field; lra). apply Rabs_lt_between in A. apply Rabs_lt_between in B. apply Rabs_lt_between. lra.
Qed.
(** error bound for three times differentiable functions *)
Theorem estimateJacobian_error f eps x i c K : 0 < eps -> constant_size f x -> (c < length x)%nat ->
  (forall k t, (k <= 3)%nat -> ex_derive_n (slice f x c i) k t) -> (forall t, - stepsize eps x c <= t <= stepsize eps x c -> Rabs (Derive_n (slice f x c i) 3 t) <= K) ->
  exists J, fst (estimateJacobian f eps x) = Some J /\ Rabs (entry J i c - Derive (slice f x c i) 0) <= K * (stepsize eps x c * stepsize eps x c) / 6.
Proof.
  intros E C Hc X B. destruct (estimateJacobian_quotients f eps x E C) as (J & HJ & _ & H). exists J. split; auto. rewrite (H i c Hc). pose proof (eps_pos eps x c E) as P. set (h := stepsize eps x c) in *. set (g := slice f x c i) in *.
  destruct (Taylor_Lagrange g 2 0 h) as (z1 & Z1 & T1). lra. intros t T k Kk. apply X; lia.
  assert (Rn : forall k t, (k <= 3)%nat -> Derive_n (fun s => g (- s)) k t = (-1) ^ k * Derive_n g k (- t)). { intros k t Hk. apply Derive_n_comp_opp. apply filter_forall. intros y j Hj. apply X. lia. }
  destruct (Taylor_Lagrange (fun s => g (- s)) 2 0 h) as (z2 & Z2 & T2). lra. intros t T k Kk. apply ex_derive_n_comp_opp. apply filter_forall. intros y j Hj. apply X. lia.
  rewrite !Rn in T2 by lia. cbn [sum_f_R0] in T1, T2. rewrite !Rn in T2 by lia. rewrite Ropp_0 in T2. cbn [Derive_n] in T1, T2. change (fact 0) with 1%nat in *. change (fact 1) with 1%nat in *. change (fact 2) with 2%nat in *. change (fact 3) with 6%nat in *. simpl INR in *. simpl pow in T1, T2.
  pose proof (B z1 ltac:(lra)) as B1. pose proof (B (- z2) ltac:(lra)) as B2. cbn [Derive_n] in B1, B2.
  set (d1 := Derive (fun x => g x) 0) in *. replace (Derive g 0) with d1 by reflexivity.
  set (u := Derive (fun x0 : R => Derive (fun x1 : R => Derive (fun x2 : R => g x2) x1) x0) z1) in *. set (v := Derive (fun x0 : R => Derive (fun x1 : R => Derive (fun x2 : R => g x2) x1) x0) (- z2)) in *.
  replace ((g h - g (- h)) / (2 * h) - d1) with (h * h / 12 * (u + v)). 2: { rewrite T1, T2. field. lra. }
  rewrite Rabs_mult, (Rabs_right (h * h / 12)) by nra. pose proof (Rabs_triang u v). assert (0 <= h * h) by nra. nra.
Qed.
(** a division by zero: eps = 0 with the exact arithmetic of the model *)
Example ex_eps0 : fst (estimateJacobian (fun v => v) 0 [1]) = None.
Proof. unfold estimateJacobian, column. cbn. unfold rcEps. rewrite Rmult_0_r, Rmax_left by lra. destruct (Req_EM_T (0 * 2) 0); auto. exfalso; lra. Qed.
(** f(x,y) = (x^2 + 3xy, y) *)
Example ex_quadratic : let f := fun v => match v with [x; y] => [x * x + 3 * x * y; y] | _ => [0; 0] end in constant_size f [2; 5] /\
  forall i c, (c < 2)%nat -> exists p q r, forall t, slice f [2; 5] c i t = p + q * t + r * (t * t).
Proof.
  intros f. split. intros c t _. reflexivity. intros i c Hc. unfold slice, bump. cbn [length seq map nth]. assert (c = 0 \/ c = 1)%nat as [->| ->] by lia; cbn [Nat.eqb f]; destruct i as [|[|i]]; cbn [nth].
  1: exists 34, 19, 1; intros; ring. 1: exists 5, 0, 0; intros; ring. 1: exists 0, 0, 0; intros; destruct i; ring. 1: exists 34, 6, 0; intros; ring. 1: exists 5, 1, 0; intros; ring. exists 0, 0, 0; intros; destruct i; ring.
Qed.
