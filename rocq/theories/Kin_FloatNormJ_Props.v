(** C156: normalising vectors of any dimension, with the Jacobian, in double precision. *)
From Coq Require Import Reals Psatz List Permutation Lia.
From Verif Require Import Float64 Nsec_Proofs TimerTable_Num Kin_Float_Model Kin_FloatNormJ_Model.
From Verif Require Import LinAlg Kin_Quat_Props Kin_Trans_Model Kin_Trans_Props Kin_Float_Geom Kin_Float_Num Kin_Float_Props Kin_FloatR_Props Kin_FloatMat_Props Kin_FloatSJ_Props Kin_FloatHom_Props Kin_FloatHomJ_Props Kin_Quat_Model.
Import ListNotations.
Open Scope R_scope.

(** ** Specification *)
Definition rsum (l : list R) : R := fold_right Rplus 0 l.
(** the length of the vector of the first n doubles of v *)
Definition length_of (n : nat) (v : nat -> f64) : R := sqrt (rsum (map (fun i => B2R (v i) * B2R (v i)) (seq 0 n))).
(** n finite numbers *)
Definition finite_vector (n : nat) (v : nat -> f64) : Prop := forall i, (i < n)%nat -> is_finite (v i) = true.
(** the derivative of v / |v|: (I - v v^T / |v|^2) / |v| *)
Definition normal_jacobian (n : nat) (v : nat -> f64) (i j : nat) : R :=
  let N := length_of n v in ((if Nat.eqb i j then 1 else 0) - B2R (v i) * B2R (v j) / (N * N)) / N.
(** the squares are added in any order *)
Definition order_ok (n : nat) (t : stree) : Prop := Permutation (leaves t) (seq 0 n).

(** ** sums of squares *)
Lemma rsum_app l m : rsum (l ++ m) = rsum l + rsum m.
Proof. induction l as [|a l IH]; unfold rsum in *; cbn [app fold_right]; lra. Qed.
Lemma rsum_perm l m : Permutation l m -> rsum l = rsum m.
Proof. induction 1; unfold rsum in *; cbn [fold_right] in *; lra. Qed.
Lemma rsum_nonneg l : (forall x, In x l -> 0 <= x) -> 0 <= rsum l.
Proof. induction l as [|a l IH]; cbn [rsum fold_right]; intros H; [unfold rsum; cbn; lra|]. fold (rsum l). assert (0 <= a) by (apply H; now left). assert (0 <= rsum l) by (apply IH; intros x X; apply H; now right). lra. Qed.
Lemma rsum_in l x : (forall y, In y l -> 0 <= y) -> In x l -> x <= rsum l.
Proof.
  induction l as [|a l IH]; cbn [In rsum fold_right]; intros H X; [contradiction|]. fold (rsum l). assert (0 <= a) by (apply H; now left). assert (T : forall y, In y l -> 0 <= y) by (intros y Y; apply H; now right).
  pose proof (rsum_nonneg l T). destruct X as [-> | X]; [lra|]. pose proof (IH T X). lra.
Qed.
Lemma leaves_pos t : (1 <= length (leaves t))%nat.
Proof. induction t as [i|l IHl r IHr]; cbn [leaves]; [cbn; lia|]. rewrite app_length. lia. Qed.
Definition BIG : R := 1048576.
Lemma sum_tree_near f a t : (forall j, In j (leaves t) -> is_finite (f j) = true /\ 0 <= a j /\ Rabs (B2R (f j) - a j) <= u * a j + eta) -> INR (length (leaves t)) <= BIG -> rsum (map a (leaves t)) <= bpow radix2 700 ->
  let n := INR (length (leaves t)) in let A := rsum (map a (leaves t)) in
  is_finite (fsum_tree f t) = true /\ 0 <= A /\ Rabs (B2R (fsum_tree f t) - A) <= 101 / 100 * n * (u * A) + (3 * n - 2) * eta.
Proof.
  pose proof u53_pos as UP. pose proof u_val as UV. pose proof eta_pos as EP.
  induction t as [j|l IHl r IHr]; intros H NB AB n A; cbn [leaves fsum_tree] in *.
  - destruct (H j ltac:(now left)) as (F & P & E). unfold n, A. cbn [map rsum fold_right length]. change (INR 1) with 1. unfold rsum. cbn [fold_right]. rewrite Rplus_0_r. split; [exact F|]. split; [exact P|]. assert (0 <= u * a j) by (apply Rmult_le_pos; lra). lra.
  - rewrite app_length, plus_INR in NB. assert (NL : 1 <= INR (length (leaves l))) by (change 1 with (INR 1); apply le_INR, leaves_pos). assert (NR : 1 <= INR (length (leaves r))) by (change 1 with (INR 1); apply le_INR, leaves_pos).
    rewrite map_app, rsum_app in AB. unfold BIG in *.
    assert (AL : 0 <= rsum (map a (leaves l))). { apply rsum_nonneg. intros x X. apply in_map_iff in X as (j & <- & J). apply H. apply in_or_app. now left. }
    assert (AR : 0 <= rsum (map a (leaves r))). { apply rsum_nonneg. intros x X. apply in_map_iff in X as (j & <- & J). apply H. apply in_or_app. now right. }
    destruct (IHl (fun j J => H j (in_or_app _ _ _ (or_introl J))) ltac:(lra) ltac:(lra)) as (FL & _ & EL). destruct (IHr (fun j J => H j (in_or_app _ _ _ (or_intror J))) ltac:(lra) ltac:(lra)) as (FR & _ & ER). cbv zeta in EL, ER.
    unfold n, A. rewrite app_length, plus_INR, map_app, rsum_app. set (n1 := INR (length (leaves l))) in *. set (n2 := INR (length (leaves r))) in *. set (A1 := rsum (map a (leaves l))) in *. set (A2 := rsum (map a (leaves r))) in *.
    set (x := B2R (fsum_tree f l)) in *. set (y := B2R (fsum_tree f r)) in *.
    assert (U1 : 0 <= u * A1) by (apply Rmult_le_pos; lra). assert (U2 : 0 <= u * A2) by (apply Rmult_le_pos; lra).
    assert (K1 : n1 * (u * A1) <= / 10 ^ 8 * A1) by (replace (n1 * (u * A1)) with (n1 * u * A1) by ring; apply Rmult_le_compat_r; [lra|]; assert (n1 * u <= 1048576 * u) by (apply Rmult_le_compat_r; lra); rewrite UV in *; lra).
    assert (K2 : n2 * (u * A2) <= / 10 ^ 8 * A2) by (replace (n2 * (u * A2)) with (n2 * u * A2) by ring; apply Rmult_le_compat_r; [lra|]; assert (n2 * u <= 1048576 * u) by (apply Rmult_le_compat_r; lra); rewrite UV in *; lra).
    assert (E1 : n1 * eta <= 1048576 * eta) by (apply Rmult_le_compat_r; lra). assert (E2 : n2 * eta <= 1048576 * eta) by (apply Rmult_le_compat_r; lra).
    assert (EB : eta <= / 10 ^ 10) by (apply Rle_trans with (bpow radix2 (-40)); [apply bpow_le; lia|cbn; lra]).
    assert (D : Rabs (x + y - (A1 + A2)) <= 101 / 100 * n1 * (u * A1) + 101 / 100 * n2 * (u * A2) + (3 * (n1 + n2) - 4) * eta).
    { replace (x + y - (A1 + A2)) with ((x - A1) + (y - A2)) by ring. apply Rle_trans with (1 := Rabs_triang _ _). lra. }
    assert (SB : Rabs (x + y) <= (A1 + A2) * (1 + / 10 ^ 7) + 3 * 1048576 * 2 * eta).
    { replace (x + y) with ((x + y - (A1 + A2)) + (A1 + A2)) by ring. apply Rle_trans with (1 := Rabs_triang _ _). rewrite (Rabs_pos_eq (A1 + A2)) by lra. lra. }
    destruct (fadd_rnd _ _ 701 FL FR ltac:(lia)) as [V F].
    { apply Rle_trans with (1 := SB). change 701%Z with (1 + 700)%Z. rewrite bpow_plus. change (bpow radix2 1) with 2. assert (1 <= bpow radix2 700) by (change 1 with (bpow radix2 0); apply bpow_le; lia). lra. }
    split; [exact F|]. split; [lra|]. rewrite V. fold x y. pose proof (rnd_err (x + y)) as R.
    replace (rnd (x + y) - (A1 + A2)) with ((rnd (x + y) - (x + y)) + (x + y - (A1 + A2))) by ring. apply Rle_trans with (1 := Rabs_triang _ _).
    assert (UB : u * Rabs (x + y) <= u * ((A1 + A2) * (1 + / 10 ^ 7) + 3 * 1048576 * 2 * eta)) by (apply Rmult_le_compat_l; lra).
    assert (UE : u * eta <= / 10 ^ 15 * eta) by (apply Rmult_le_compat_r; [lra|rewrite UV; lra]).
    assert (C1 : u * A2 <= n1 * (u * A2)) by (rewrite <- (Rmult_1_l (u * A2)) at 1; apply Rmult_le_compat_r; lra). assert (C2 : u * A1 <= n2 * (u * A1)) by (rewrite <- (Rmult_1_l (u * A1)) at 1; apply Rmult_le_compat_r; lra).
    replace (101 / 100 * (n1 + n2) * (u * (A1 + A2))) with (101 / 100 * n1 * (u * A1) + 101 / 100 * n2 * (u * A2) + 101 / 100 * (n1 * (u * A2)) + 101 / 100 * (n2 * (u * A1))) by ring. lra.
Qed.

(** ** relative errors with many roundings *)
Definition mild (k : R) : Prop := 0 <= k /\ k * u <= / 10 ^ 8.
Lemma mild_le k : 0 <= k <= 16 * BIG -> mild k.
Proof. unfold mild, BIG. intros K. split; [lra|]. pose proof u53_pos as UP. pose proof u_val as UV. assert (k * u <= 16 * 1048576 * u) by (apply Rmult_le_compat_r; lra). rewrite UV in *; lra. Qed.
Lemma near_mul_mild x a k t y b l s T : near x a k t -> near y b l s -> mild k -> mild l -> 0 <= t -> 0 <= s -> t * Rabs b + s * Rabs a + t * s <= T -> T <= room -> Rabs (a * b) <= room ->
  near (fmul x y) (a * b) (1001 / 1000 * k + l + 1001 / 1000) (102 / 100 * T + eta).
Proof.
  intros [FX X] [FY Y] K L T0 S0 TT TR AB. pose proof u53_pos as UP. pose proof u_val as UV. pose proof eta_pos as EP.
  pose proof (Rabs_pos a) as A0. pose proof (Rabs_pos b) as B0. rewrite Rabs_mult in AB. set (A := Rabs a) in *. set (B := Rabs b) in *. assert (AB0 : 0 <= A * B) by (apply Rmult_le_pos; lra).
  assert (KU : 0 <= k * u <= / 10 ^ 8) by (destruct K; split; [apply Rmult_le_pos; lra|assumption]).
  assert (LU : 0 <= l * u <= / 10 ^ 8) by (destruct L; split; [apply Rmult_le_pos; lra|assumption]).
  assert (TB : 0 <= t * B) by (apply Rmult_le_pos; lra). assert (SA : 0 <= s * A) by (apply Rmult_le_pos; lra). assert (TS : 0 <= t * s) by (apply Rmult_le_pos; lra).
  assert (YB : Rabs (B2R y) <= B * (1 + l * u) + s). { replace (B2R y) with ((B2R y - b) + b) by ring. apply Rle_trans with (1 := Rabs_triang _ _). fold B. lra. }
  assert (P : Rabs (B2R x * B2R y - a * b) <= (k * u + l * u + k * u * (l * u)) * (A * B) + 101 / 100 * T).
  { replace (B2R x * B2R y - a * b) with ((B2R x - a) * B2R y + a * (B2R y - b)) by ring. apply Rle_trans with (1 := Rabs_triang _ _). rewrite !Rabs_mult. fold A.
    assert (P1 : Rabs (B2R x - a) * Rabs (B2R y) <= (k * u * A + t) * (B * (1 + l * u) + s)) by (apply Rmult_le_compat; auto using Rabs_pos).
    assert (P2 : A * Rabs (B2R y - b) <= A * (l * u * B + s)) by (apply Rmult_le_compat_l; lra).
    assert (Q1 : t * B * (l * u) <= / 100 * (t * B)) by (rewrite (Rmult_comm (t * B)); apply Rmult_le_compat_r; lra).
    assert (Q2 : k * u * (s * A) <= / 100 * (s * A)) by (apply Rmult_le_compat_r; lra).
    replace ((k * u * A + t) * (B * (1 + l * u) + s)) with (k * u * (A * B) + k * u * (l * u) * (A * B) + t * B + t * B * (l * u) + k * u * (s * A) + t * s) in P1 by ring.
    replace (A * (l * u * B + s)) with (l * u * (A * B) + s * A) in P2 by ring. lra. }
  assert (KL : k * u * (l * u) <= / 10 ^ 8 * (l * u)) by (apply Rmult_le_compat_r; lra).
  assert (PM : Rabs (B2R x * B2R y) <= 10001 / 10000 * (A * B) + 101 / 100 * T).
  { replace (B2R x * B2R y) with ((B2R x * B2R y - a * b) + a * b) by ring. apply Rle_trans with (1 := Rabs_triang _ _). rewrite (Rabs_mult a b). fold A B.
    assert ((k * u + l * u + k * u * (l * u)) * (A * B) <= / 10000 * (A * B)) by (apply Rmult_le_compat_r; lra). lra. }
  destruct (fmul_rnd x y 902 FX FY ltac:(lia)) as [V F]; [change 902%Z with (2 + 900)%Z; rewrite bpow_plus; change (bpow radix2 2) with 4; fold room; lra|].
  split; [exact F|]. rewrite V. pose proof (rnd_err (B2R x * B2R y)) as E. replace (rnd (B2R x * B2R y) - a * b) with ((rnd (B2R x * B2R y) - B2R x * B2R y) + (B2R x * B2R y - a * b)) by ring.
  apply Rle_trans with (1 := Rabs_triang _ _). rewrite (Rabs_mult a b). fold A B.
  assert (UM : u * Rabs (B2R x * B2R y) <= u * (10001 / 10000 * (A * B) + 101 / 100 * T)) by (apply Rmult_le_compat_l; lra).
  assert (UT : u * (101 / 100 * T) <= / 100 * T). { assert (0 <= T) by lra. assert (u * T <= / 10 ^ 5 * T) by (apply Rmult_le_compat_r; [lra|rewrite UV; lra]). lra. }
  assert (KK : k * u * (l * u) * (A * B) <= / 1000 * (k * u) * (A * B)). { apply Rmult_le_compat_r; [exact AB0|]. rewrite Rmult_comm. apply Rmult_le_compat_r; lra. }
  assert (UAB : 0 <= u * (A * B)) by (apply Rmult_le_pos; lra).
  replace ((k * u + l * u + k * u * (l * u)) * (A * B)) with (k * u * (A * B) + l * u * (A * B) + k * u * (l * u) * (A * B)) in P by ring. lra.
Qed.

(** ** the length and its reciprocal *)
Section Length.
  Variables (n : nat) (t : stree) (v : nat -> f64).
  Hypothesis T : order_ok n t.
  Hypothesis F : finite_vector n v.
  Hypothesis NB : INR n <= BIG.
  Hypothesis RANGE : bpow radix2 (-300) <= length_of n v <= bpow radix2 300.
  Let N := length_of n v.
  Let S2 := rsum (map (fun i => B2R (v i) * B2R (v i)) (seq 0 n)).
  Lemma squares_nonneg : forall x, In x (map (fun i => B2R (v i) * B2R (v i)) (seq 0 n)) -> 0 <= x.
  Proof using. intros x X. apply in_map_iff in X as (i & <- & _). apply Rle_0_sqr. Qed.
  Lemma N_sq : N * N = S2 /\ 0 < N.
  Proof using RANGE. split; [apply sqrt_sqrt, rsum_nonneg, squares_nonneg|]. apply Rlt_le_trans with (2 := proj1 RANGE). apply bpow_gt_0. Qed.
  Lemma n_pos : 1 <= INR n.
  Proof using RANGE.
    destruct N_sq as [E P]. destruct (Nat.eq_dec n 0) as [Z|Z]; [|change 1 with (INR 1); apply le_INR; lia]. exfalso. unfold S2 in E. rewrite Z in E. cbn in E. unfold rsum in E. cbn in E. assert (0 < N * N) by (apply Rmult_lt_0_compat; exact P). lra.
  Qed.
  Lemma entry_le i : (i < n)%nat -> Rabs (B2R (v i)) <= N.
  Proof using RANGE.
    intros I. destruct N_sq as [E P]. apply Rabs_le. assert (Q : B2R (v i) * B2R (v i) <= N * N).
    { rewrite E. apply rsum_in; [apply squares_nonneg|]. apply in_map_iff. exists i. split; [reflexivity|]. apply in_seq. lia. }
    split; nra.
  Qed.
  Lemma norm_sum : let z := fsum_tree (fun i => fmul (v i) (v i)) t in is_finite z = true /\ Rabs (B2R z - N * N) <= (101 / 100 * INR n + / 1000) * (u * (N * N)).
  Proof using T F NB RANGE.
    intros z. destruct N_sq as [E P]. pose proof n_pos as NP. pose proof u53_pos as UP. pose proof eta_pos as EP.
    assert (LEN : length (leaves t) = n) by (rewrite (Permutation_length T), seq_length; reflexivity).
    assert (SUM : rsum (map (fun i => B2R (v i) * B2R (v i)) (leaves t)) = N * N). { rewrite E. apply rsum_perm. now apply Permutation_map. }
    assert (NN : N * N <= bpow radix2 600) by (change 600%Z with (300 + 300)%Z; rewrite bpow_plus; apply Rmult_le_compat; try lra; apply RANGE).
    assert (NL : bpow radix2 (-600) <= N * N) by (change (-600)%Z with (-300 + -300)%Z; rewrite bpow_plus; apply Rmult_le_compat; try apply bpow_ge_0; apply RANGE).
    destruct (sum_tree_near (fun i => fmul (v i) (v i)) (fun i => B2R (v i) * B2R (v i)) t) as (FZ & _ & EZ).
    - intros j J. apply (Permutation_in _ T) in J. apply in_seq in J. assert (JN : (j < n)%nat) by lia. pose proof (entry_le j JN) as B. specialize (F j JN).
      assert (Q : Rabs (B2R (v j) * B2R (v j)) <= bpow radix2 600). { apply Rle_trans with (2 := NN). rewrite Rabs_mult. apply Rmult_le_compat; auto using Rabs_pos. }
      destruct (fmul_rnd (v j) (v j) 600 F F ltac:(lia) Q) as [V FF]. split; [exact FF|]. split; [apply Rle_0_sqr|]. rewrite V. pose proof (rnd_err (B2R (v j) * B2R (v j))) as R. rewrite (Rabs_pos_eq (B2R (v j) * B2R (v j))) in R by apply Rle_0_sqr. exact R.
    - rewrite LEN. exact NB.
    - rewrite SUM. apply Rle_trans with (1 := NN). apply bpow_le. lia.
    - cbv zeta in EZ. rewrite SUM, LEN in EZ. split; [exact FZ|]. apply Rle_trans with (1 := EZ).
      assert (G : (3 * INR n - 2) * eta <= / 1000 * (u * (N * N))).
      { apply Rle_trans with (bpow radix2 22 * eta). { apply Rmult_le_compat_r; [lra|]. unfold BIG in NB. change (bpow radix2 22) with 4194304. lra. }
        rewrite bp. apply Rle_trans with (bpow radix2 (-10) * (u * bpow radix2 (-600))); [rewrite !bp; apply bpow_le; lia|]. apply Rmult_le_compat; [apply bpow_ge_0|apply Rmult_le_pos; apply bpow_ge_0|cbn; lra|apply Rmult_le_compat_l; lra]. }
      lra.
  Qed.
  Lemma norm_near : near (fnormN t v) N (52 / 100 * INR n + 101 / 100) 0.
  Proof using T F NB RANGE.
    destruct norm_sum as [FZ EZ]. cbv zeta in FZ, EZ. unfold fnormN. set (z := fsum_tree _ t) in *. destruct N_sq as [_ P]. pose proof n_pos as NP. pose proof u53_pos as UP. pose proof u_val as UV. unfold BIG in NB.
    set (k := 101 / 100 * INR n + / 1000) in *. assert (KU : 0 <= k * u <= / 10 ^ 8) by (split; [apply Rmult_le_pos; unfold k; lra|]; assert (k * u <= 1100000 * u) by (apply Rmult_le_compat_r; unfold k; lra); rewrite UV in *; lra).
    assert (NN : 0 < N * N) by (apply Rmult_lt_0_compat; exact P). assert (EZ' : Rabs (B2R z - N * N) <= k * u * (N * N)) by (rewrite Rmult_assoc; exact EZ). apply Rabs_le_inv in EZ'.
    assert (KN : k * u * (N * N) <= / 10 ^ 8 * (N * N)) by (apply Rmult_le_compat_r; lra). assert (ZP : 0 < B2R z) by lra.
    destruct (fsqrt_rnd z FZ ZP) as [V FF]. split; [exact FF|]. rewrite V, (Rabs_pos_eq N), Rplus_0_r by lra.
    pose proof (sqrt_sqrt (B2R z) ltac:(lra)) as SS. pose proof (sqrt_lt_R0 (B2R z) ZP) as SP. set (s := sqrt (B2R z)) in *.
    assert (SL : 99 / 100 * N <= s). { destruct (Rle_or_lt (99 / 100 * N) s) as [|C]; [assumption|exfalso]. assert (s * s < 99 / 100 * N * (99 / 100 * N)) by (apply Rmult_le_0_lt_compat; lra). lra. }
    assert (SU : Rabs (s - N) <= 505 / 1000 * (k * u) * N).
    { assert (SE : (s - N) * (s + N) = B2R z - N * N) by (rewrite <- SS; ring). assert (AE : Rabs (s - N) * (s + N) <= k * u * (N * N)) by (rewrite <- (Rabs_pos_eq (s + N)) by lra; rewrite <- Rabs_mult, SE; apply Rabs_le; lra).
      assert (AE2 : Rabs (s - N) * (199 / 100 * N) <= k * u * (N * N)) by (apply Rle_trans with (2 := AE); apply Rmult_le_compat_l; [apply Rabs_pos|lra]).
      apply Rmult_le_reg_r with (199 / 100 * N); [lra|]. apply Rle_trans with (1 := AE2). assert (0 <= k * u * (N * N)) by (apply Rmult_le_pos; lra). replace (505 / 1000 * (k * u) * N * (199 / 100 * N)) with (505 / 1000 * (199 / 100) * (k * u * (N * N))) by ring. lra. }
    assert (SB : s <= 101 / 100 * N). { apply Rabs_le_inv in SU. assert (505 / 1000 * (k * u) * N <= / 100 * N) by (apply Rmult_le_compat_r; lra). lra. }
    assert (R : Rabs (rnd s - s) <= u * s). { rewrite <- (Rabs_pos_eq s) at 3 by lra. apply rnd_rel. rewrite Rabs_pos_eq by lra. apply Rle_trans with (99 / 100 * bpow radix2 (-300)); [|assert (bpow radix2 (-300) <= N) by apply RANGE; lra].
      apply Rle_trans with (bpow radix2 (-1) * bpow radix2 (-300)); [rewrite bp; apply bpow_le; lia|]. apply Rmult_le_compat_r; [apply bpow_ge_0|]. cbn. lra. }
    replace (rnd s - N) with ((rnd s - s) + (s - N)) by ring. apply Rle_trans with (1 := Rabs_triang _ _).
    assert (UN : 0 <= u * N) by (apply Rmult_le_pos; lra). assert (US : u * s <= u * (N + 505 / 1000 * (k * u) * N)). { apply Rmult_le_compat_l; [lra|]. apply Rabs_le_inv in SU. lra. }
    assert (UK : u * (505 / 1000 * (k * u) * N) <= / 1000 * (u * N)). { replace (u * (505 / 1000 * (k * u) * N)) with (505 / 1000 * (k * u) * (u * N)) by ring. apply Rmult_le_compat_r; lra. }
    replace (505 / 1000 * (k * u) * N) with (505 / 1000 * k * (u * N)) in SU by ring. replace ((52 / 100 * INR n + 101 / 100) * u * N) with ((52 / 100 * INR n + 101 / 100) * (u * N)) by ring.
    assert (505 / 1000 * k * (u * N) <= (52 / 100 * INR n + / 1000) * (u * N)) by (apply Rmult_le_compat_r; [exact UN|unfold k; lra]). lra.
  Qed.
  Lemma inverse_range : bpow radix2 (-300) <= 1 / N <= bpow radix2 300.
  Proof using RANGE.
    destruct N_sq as [_ P]. unfold Rdiv. rewrite Rmult_1_l. split.
    - change (-300)%Z with (- (300))%Z. rewrite bpow_opp. apply Rinv_le; [exact P|apply RANGE].
    - replace (bpow radix2 300) with (/ bpow radix2 (-300)) by (rewrite <- bpow_opp; reflexivity). apply Rinv_le; [apply bpow_gt_0|apply RANGE].
  Qed.
  Lemma recip_length_near : near (fdiv fone (fnormN t v)) (1 / N) (53 / 100 * INR n + 21 / 10) 0.
  Proof using T F NB RANGE.
    destruct norm_near as [FS ES]. set (s := fnormN t v) in *. destruct N_sq as [_ P]. pose proof n_pos as NP. pose proof u53_pos as UP. pose proof u_val as UV. unfold BIG in NB. destruct inverse_range as [IL IU].
    set (k := 52 / 100 * INR n + 101 / 100) in *. assert (KU : 0 <= k * u <= / 10 ^ 8) by (split; [apply Rmult_le_pos; unfold k; lra|]; assert (k * u <= 1100000 * u) by (apply Rmult_le_compat_r; unfold k; lra); rewrite UV in *; lra).
    rewrite (Rabs_pos_eq N), Rplus_0_r in ES by lra. pose proof (Rabs_le_inv _ _ ES) as ES'. assert (KN : k * u * N <= / 10 ^ 8 * N) by (apply Rmult_le_compat_r; lra).
    assert (SP : 999 / 1000 * N <= B2R s) by lra. assert (S0 : 0 < B2R s) by lra. assert (INV : 0 < 1 / N) by (apply Rdiv_lt_0_compat; lra).
    assert (D : Rabs (1 / B2R s - 1 / N) <= 1002 / 1000 * (k * u) * (1 / N)).
    { replace (1 / B2R s - 1 / N) with (- (B2R s - N) * (1 / B2R s) * (1 / N)) by (field; lra). rewrite !Rabs_mult, Rabs_Ropp, (Rabs_pos_eq (1 / N)) by lra. apply Rmult_le_compat_r; [lra|].
      rewrite (Rabs_pos_eq (1 / B2R s)) by (apply Rlt_le, Rdiv_lt_0_compat; lra). apply Rmult_le_reg_r with (B2R s); [exact S0|]. replace (Rabs (B2R s - N) * (1 / B2R s) * B2R s) with (Rabs (B2R s - N)) by (field; lra).
      apply Rle_trans with (1 := ES). replace (1002 / 1000 * (k * u) * B2R s) with (k * u * (1002 / 1000 * B2R s)) by ring. apply Rmult_le_compat_l; lra. }
    assert (DB : 1002 / 1000 * (k * u) * (1 / N) <= / 10 ^ 7 * (1 / N)) by (apply Rmult_le_compat_r; lra). pose proof (Rabs_le_inv _ _ D) as D'.
    destruct one_facts as (VO & FO & _). destruct (fdiv_rnd fone s 301 FO ltac:(lra) ltac:(lia)) as [V FF]. { unfold fone. rewrite VO. rewrite Rabs_pos_eq by lra. change 301%Z with (1 + 300)%Z. rewrite bpow_plus. change (bpow radix2 1) with 2. lra. }
    split; [exact FF|]. rewrite V. unfold fone. rewrite VO, (Rabs_pos_eq (1 / N)), Rplus_0_r by lra. set (q := 1 / B2R s) in *.
    assert (R : Rabs (rnd q - q) <= u * q). { rewrite <- (Rabs_pos_eq q) at 3 by lra. apply rnd_rel. rewrite Rabs_pos_eq by lra. apply Rle_trans with (bpow radix2 (-1) * bpow radix2 (-300)); [rewrite bp; apply bpow_le; lia|]. change (bpow radix2 (-1)) with (/ 2). lra. }
    replace (rnd q - 1 / N) with ((rnd q - q) + (q - 1 / N)) by ring. apply Rle_trans with (1 := Rabs_triang _ _). set (I := 1 / N) in *. assert (UI : 0 <= u * I) by (apply Rmult_le_pos; lra).
    assert (UQ : u * q <= u * (1001 / 1000 * I)) by (apply Rmult_le_compat_l; lra). replace (1002 / 1000 * (k * u) * I) with (1002 / 1000 * k * (u * I)) in D by ring. replace ((53 / 100 * INR n + 21 / 10) * u * I) with ((53 / 100 * INR n + 21 / 10) * (u * I)) by ring.
    assert (1002 / 1000 * k * (u * I) <= (53 / 100 * INR n + 102 / 100) * (u * I)) by (apply Rmult_le_compat_r; [exact UI|unfold k; lra]). lra.
  Qed.
End Length.
Lemma near_zero x k : zr x -> near x 0 k 0.
Proof. intros [F Z]. split; [exact F|]. rewrite Z, Rminus_diag_eq, !Rabs_R0 by reflexivity. lra. Qed.
(** normalizeAndJacobian in any dimension n up to 2^20 and any order of adding the squares, for lengths between 2^-300 and 2^300: every coordinate of the result is
    right to n + 4 roundings, every entry of the Jacobian to 3 n + 15 roundings of 1 / |v|. *)
Theorem normalize_jacobian_accurate_partial n t v : order_ok n t -> finite_vector n v -> INR n <= 1048576 -> bpow radix2 (-300) <= length_of n v <= bpow radix2 300 ->
  let N := length_of n v in let out := fnormalizeAndJacobian t v in
  (forall i, (i < n)%nat -> is_finite (fst out i) = true /\ Rabs (B2R (fst out i) - B2R (v i) / N) <= (INR n + 4) * u * Rabs (B2R (v i) / N) + eta) /\
  (forall i j, (i < n)%nat -> (j < n)%nat -> is_finite (snd out i j) = true /\ Rabs (B2R (snd out i j) - normal_jacobian n v i j) <= (3 * INR n + 15) * u / N).
Proof.
  intros T F NB RANGE N out. pose proof (N_sq n v RANGE) as [_ P]. fold N in P. pose proof (n_pos n v RANGE) as NP. pose proof (inverse_range n v RANGE) as [IL IU]. pose proof (recip_length_near n t v T F NB RANGE) as R. fold N in IL, IU, R.
  pose proof u53_pos as UP. pose proof u_val as UV. pose proof eta_pos as EP. destruct RANGE as [NL NU]. fold N in NL, NU. pose proof (entry_le n v (conj NL NU)) as EL. fold N in EL.
  set (r := fdiv fone (fnormN t v)) in *. set (I := 1 / N) in *. set (k1 := 53 / 100 * INR n + 21 / 10) in *. assert (I0 : 0 < I) by (apply Rlt_le_trans with (2 := IL); apply bpow_gt_0). assert (IN1 : I * N = 1) by (unfold I; field; lra).
  assert (K1 : 0 <= k1 <= 1048579) by (unfold k1; lra). assert (ML : forall k, 0 <= k <= 16 * BIG -> mild k) by exact mild_le. unfold BIG in ML. set (M := bpow radix2 300) in *. assert (M1 : 1 <= M) by (change 1 with (bpow radix2 0); apply bpow_le; lia).
  assert (AI : Rabs I = I) by (apply Rabs_pos_eq; lra).
  assert (MR : M * M * M <= room) by (unfold M; rewrite !bp; apply room_le; lia). assert (MM : M <= M * M /\ M * M <= M * M * M /\ 1 <= M * M) by (assert (1 <= M * M) by nra; split; [nra|split; [nra|assumption]]).
  split.
  - intros i I'. pose proof (EL i I') as B. unfold out, fnormalizeAndJacobian. cbv zeta. cbn [fst]. fold r.
    destruct (near_mul_mild (v i) (B2R (v i)) 0 0 r I k1 0 0 (near_exact _ (F i I')) R (ML 0 ltac:(lra)) (ML k1 ltac:(lra)) ltac:(lra) ltac:(lra) ltac:(lra) ltac:(apply bpow_ge_0)) as [FF E].
    { apply Rle_trans with 1; [|lra]. rewrite Rabs_mult, AI. rewrite <- IN1, Rmult_comm. apply Rmult_le_compat_l; lra. }
    split; [exact FF|]. replace (B2R (v i) / N) with (B2R (v i) * I) by (unfold I; field; lra). set (Q := Rabs (B2R (v i) * I)) in *. assert (0 <= u * Q) by (apply Rmult_le_pos; [lra|apply Rabs_pos]).
    assert ((1001 / 1000 * 0 + k1 + 1001 / 1000) * (u * Q) <= (INR n + 4) * (u * Q)) by (apply Rmult_le_compat_r; [assumption|unfold k1; lra]). lra.
  - intros i j Hi Hj. pose proof (EL i Hi) as Bi. pose proof (EL j Hj) as Bj. unfold out, fnormalizeAndJacobian. cbv zeta. cbn [snd]. fold r.
    assert (D : near (fmul (if Nat.eqb i j then fone else fzero) r) ((if Nat.eqb i j then 1 else 0) * I) k1 0).
    { destruct (Nat.eqb i j); [rewrite Rmult_1_l; now apply near_one_mul|]. rewrite Rmult_0_l. apply near_zero. apply zr_mul_l; [split; reflexivity|apply R]. }
    set (k2 := 1001 / 1000 * k1 + k1 + 1001 / 1000). assert (II : I * I <= M * M) by (apply Rmult_le_compat; lra).
    pose proof (near_mul_mild r I k1 0 r I k1 0 0 R R (ML k1 ltac:(lra)) (ML k1 ltac:(lra)) ltac:(lra) ltac:(lra) ltac:(lra) ltac:(apply bpow_ge_0) ltac:(rewrite Rabs_pos_eq; nra)) as RR. fold k2 in RR.
    replace (102 / 100 * 0 + eta) with eta in RR by ring. assert (K2 : 0 <= k2 <= 2099000) by (unfold k2; lra).
    assert (II2 : 0 <= I * I) by (apply Rmult_le_pos; lra). assert (III : 0 <= I * I * I <= M * M * M) by (split; [apply Rmult_le_pos; lra|apply Rmult_le_compat; lra]).
    assert (EB : eta * M <= 1 / 10 ^ 9) by (unfold M; rewrite bp; apply Rle_trans with (bpow radix2 (-40)); [apply bpow_le; lia|cbn; lra]). assert (EI : eta * I <= eta * M) by (apply Rmult_le_compat_l; lra). assert (EI0 : 0 <= eta * I) by (apply Rmult_le_pos; lra). assert (EN : eta * N <= eta * M) by (apply Rmult_le_compat_l; lra). assert (EN0 : 0 <= eta * N) by (apply Rmult_le_pos; lra).
    assert (E1 : eta <= eta * M) by (rewrite <- (Rmult_1_r eta) at 1; apply Rmult_le_compat_l; lra).
    set (k3 := 1001 / 1000 * k2 + k1 + 1001 / 1000).
    pose proof (near_mul_mild (fmul r r) (I * I) k2 eta r I k1 0 (eta * I) RR R (ML k2 ltac:(lra)) (ML k1 ltac:(lra)) ltac:(lra) ltac:(lra) ltac:(rewrite AI; lra) ltac:(lra) ltac:(rewrite Rabs_pos_eq by lra; lra)) as R3. fold k3 in R3. assert (K3 : 0 <= k3 <= 3200000) by (unfold k3; lra).
    set (rrr := fmul (fmul r r) r) in *. set (t3 := 102 / 100 * (eta * I) + eta) in *. assert (T3 : 0 <= t3) by (unfold t3; lra).
    assert (A3 : Rabs (I * I * I) = I * I * I) by (apply Rabs_pos_eq; lra).
    assert (C4 : I * I * I * N = I * I) by (rewrite Rmult_assoc, IN1; ring). assert (C4' : Rabs (I * I * I * B2R (v i)) <= I * I). { rewrite Rabs_mult, A3. apply Rle_trans with (I * I * I * N); [apply Rmult_le_compat_l; lra|lra]. }
    set (k4 := 1001 / 1000 * k3 + 0 + 1001 / 1000). assert (TV : t3 * Rabs (B2R (v i)) <= 102 / 100 * eta + eta * N).
    { apply Rle_trans with (t3 * N); [apply Rmult_le_compat_l; lra|]. unfold t3. replace ((102 / 100 * (eta * I) + eta) * N) with (102 / 100 * eta * (I * N) + eta * N) by ring. rewrite IN1. lra. }
    pose proof (near_mul_mild rrr (I * I * I) k3 t3 (v i) (B2R (v i)) 0 0 (102 / 100 * eta + eta * N) R3 (near_exact _ (F i Hi)) (ML k3 ltac:(lra)) (ML 0 ltac:(lra)) T3 ltac:(lra) ltac:(lra) ltac:(lra) ltac:(lra)) as R4. fold k4 in R4. assert (K4 : 0 <= k4 <= 3300000) by (unfold k4; lra).
    set (t4 := 102 / 100 * (102 / 100 * eta + eta * N) + eta) in *. assert (T4 : 0 <= t4 <= 4 * (eta * M)) by (unfold t4; lra).
    assert (C5 : I * I * N = I) by (rewrite Rmult_assoc, IN1; ring). assert (C5' : Rabs (I * I * I * B2R (v i) * B2R (v j)) <= I). { rewrite Rabs_mult. apply Rle_trans with (I * I * N); [|lra]. apply Rmult_le_compat; auto using Rabs_pos. }
    set (k5 := 1001 / 1000 * k4 + 0 + 1001 / 1000). set (q := eta * M * M). assert (Q0 : q = bpow radix2 (-475)) by (unfold q, M; rewrite !bp; reflexivity).
    assert (TW : t4 * Rabs (B2R (v j)) <= 4 * q). { apply Rle_trans with (4 * (eta * M) * M); [|unfold q; lra]. apply Rmult_le_compat; auto using Rabs_pos; lra. }
    assert (QS : 0 < q <= 1) by (rewrite Q0; split; [apply bpow_gt_0|change 1 with (bpow radix2 0); apply bpow_le; lia]).
    assert (R4B : 4 <= room) by (change 4 with (bpow radix2 2); apply room_le; lia). assert (IR : I <= room) by (assert (M <= M * M * M) by lra; lra).
    pose proof (near_mul_mild (fmul rrr (v i)) _ k4 t4 (v j) (B2R (v j)) 0 0 (4 * q) R4 (near_exact _ (F j Hj)) (ML k4 ltac:(lra)) (ML 0 ltac:(lra)) ltac:(lra) ltac:(lra) ltac:(lra) ltac:(lra) ltac:(lra)) as R5. fold k5 in R5.
    destruct D as [FD ED]. destruct R5 as [F5 E5]. set (x := fmul (if Nat.eqb i j then fone else fzero) r) in *. set (y := fmul (fmul rrr (v i)) (v j)) in *. set (b := I * I * I * B2R (v i) * B2R (v j)) in *. set (a := (if Nat.eqb i j then 1 else 0) * I) in *.
    assert (AA : Rabs a <= I) by (unfold a; destruct (Nat.eqb i j); [rewrite Rmult_1_l; lra|rewrite Rmult_0_l, Rabs_R0; lra]).
    assert (UI : 0 <= u * I) by (apply Rmult_le_pos; lra).
    assert (QU : q <= / 100 * (u * I)). { rewrite Q0. apply Rle_trans with (bpow radix2 (-10) * (u * bpow radix2 (-300))); [rewrite !bp; apply bpow_le; lia|]. apply Rmult_le_compat; [apply bpow_ge_0|apply Rmult_le_pos; apply bpow_ge_0|cbn; lra|apply Rmult_le_compat_l; lra]. }
    assert (EQ : eta <= q). { unfold q. rewrite Rmult_assoc. rewrite <- (Rmult_1_r eta) at 1. apply Rmult_le_compat_l; lra. }
    assert (XE : Rabs (B2R x - a) <= k1 * (u * I)). { apply Rle_trans with (1 := ED). rewrite Rplus_0_r, Rmult_assoc. apply Rmult_le_compat_l; [lra|]. apply Rmult_le_compat_l; lra. }
    assert (YE : Rabs (B2R y - b) <= (k5 + / 10) * (u * I)). { apply Rle_trans with (1 := E5). assert (k5 * u * Rabs b <= k5 * (u * I)) by (rewrite Rmult_assoc; apply Rmult_le_compat_l; [unfold k5; lra|]; apply Rmult_le_compat_l; lra). lra. }
    assert (KS : k1 + k5 + / 10 <= 213 / 100 * INR n + 13) by (unfold k5, k4, k3, k2, k1; lra).
    assert (DE : Rabs (B2R x - B2R y - (a - b)) <= (k1 + k5 + / 10) * (u * I)). { replace (B2R x - B2R y - (a - b)) with ((B2R x - a) + - (B2R y - b)) by ring. apply Rle_trans with (1 := Rabs_triang _ _). rewrite Rabs_Ropp. lra. }
    assert (UIS : (k1 + k5 + / 10) * (u * I) <= / 10 ^ 6 * I). { rewrite <- Rmult_assoc. apply Rmult_le_compat_r; [lra|]. assert ((k1 + k5 + / 10) * u <= 3000000 * u) by (apply Rmult_le_compat_r; lra). rewrite UV in *. lra. }
    assert (AB : Rabs (a - b) <= 2 * I) by (apply Rle_trans with (1 := Rabs_triang a (- b)); rewrite Rabs_Ropp; lra).
    assert (SB : Rabs (B2R x - B2R y) <= 21 / 10 * I). { replace (B2R x - B2R y) with ((B2R x - B2R y - (a - b)) + (a - b)) by ring. apply Rle_trans with (1 := Rabs_triang _ _). lra. }
    destruct (fsub_rnd x y 302 FD F5 ltac:(lia)) as [V FF]. { apply Rle_trans with (1 := SB). change 302%Z with (2 + 300)%Z. rewrite bpow_plus. change (bpow radix2 2) with 4. fold M. lra. }
    split; [exact FF|]. rewrite V. assert (NJ : normal_jacobian n v i j = a - b). { unfold normal_jacobian, a, b, I. fold N. cbv zeta. field. lra. } rewrite NJ.
    pose proof (rnd_err (B2R x - B2R y)) as RE. replace (rnd (B2R x - B2R y) - (a - b)) with ((rnd (B2R x - B2R y) - (B2R x - B2R y)) + (B2R x - B2R y - (a - b))) by ring. apply Rle_trans with (1 := Rabs_triang _ _).
    assert (UB : u * Rabs (B2R x - B2R y) <= 21 / 10 * (u * I)) by (replace (21 / 10 * (u * I)) with (u * (21 / 10 * I)) by ring; apply Rmult_le_compat_l; lra).
    replace ((3 * INR n + 15) * u / N) with ((3 * INR n + 15) * (u * I)) by (unfold I; field; lra).
    assert ((k1 + k5 + / 10) * (u * I) <= (213 / 100 * INR n + 13) * (u * I)) by (apply Rmult_le_compat_r; lra). assert ((213 / 100 * INR n + 13 + 22 / 10) * (u * I) <= (3 * INR n + 15) * (u * I)) by (apply Rmult_le_compat_r; lra). lra.
Qed.

(** ** what goes wrong *)
(** the vector (x, 0, 0, ...) *)
Definition along (x : f64) (i : nat) : f64 := match i with O => x | _ => fzero end.
Lemma along_length n x : (1 <= n)%nat -> length_of n (along x) = Rabs (B2R x).
Proof.
  intros H. destruct n as [|m]; [lia|]. unfold length_of. set (g := fun i => B2R (along x i) * B2R (along x i)).
  assert (Z : forall k l, rsum (map g (seq (S k) l)) = 0).
  { intros k l. revert k. induction l as [|l IH]; intros k; [reflexivity|]. change (g (S k) + rsum (map g (seq (S (S k)) l)) = 0). rewrite IH. unfold g. cbn [along]. change (B2R fzero) with 0. ring. }
  change (sqrt (B2R x * B2R x + rsum (map g (seq 1 m))) = Rabs (B2R x)). rewrite Z, Rplus_0_r. apply sqrt_Rsqr_abs.
Qed.
Lemma along_sum x y t : fmul x x = y -> fadd y fzero = y -> fadd fzero y = y -> NoDup (leaves t) ->
  fsum_tree (fun i => fmul (along x i) (along x i)) t = if in_dec Nat.eq_dec 0%nat (leaves t) then y else fzero.
Proof.
  intros Q A1 A2. assert (ZZ : fadd fzero fzero = fzero) by reflexivity. induction t as [j|l IHl r IHr]; cbn [leaves fsum_tree]; intros ND.
  - destruct (in_dec Nat.eq_dec 0%nat [j]) as [I|I]; cbn [In] in I; [destruct I as [-> | []]; exact Q|]. destruct j; [exfalso; apply I; now left|reflexivity].
  - assert (NDL : NoDup (leaves l) /\ NoDup (leaves r) /\ (In 0%nat (leaves l) -> In 0%nat (leaves r) -> False)).
    { revert ND. clear. generalize (leaves r) as b. induction (leaves l) as [|a la IH]; intros b H; cbn [app] in H.
      - split; [constructor|]. split; [exact H|intros []].
      - inversion H as [|? ? NI ND]; subst. destruct (IH b ND) as (A & B & C). rewrite in_app_iff in NI. split; [constructor; tauto|]. split; [exact B|]. intros [-> | X] Y; [tauto|exact (C X Y)]. }
    destruct NDL as (NL & NR & DJ). rewrite (IHl NL), (IHr NR). destruct (in_dec Nat.eq_dec 0%nat (leaves l)) as [I|I], (in_dec Nat.eq_dec 0%nat (leaves r)) as [K|K], (in_dec Nat.eq_dec 0%nat (leaves l ++ leaves r)) as [L|L]; rewrite in_app_iff in L; try tauto; auto.
Qed.
Lemma along_norm n x y t : (1 <= n)%nat -> order_ok n t -> fmul x x = y -> fadd y fzero = y -> fadd fzero y = y -> fnormN t (along x) = fsqrt y.
Proof.
  intros H T Q A1 A2. unfold fnormN. rewrite (along_sum x y t Q A1 A2) by (apply (Permutation_NoDup (Permutation_sym T)), seq_NoDup).
  destruct (in_dec Nat.eq_dec 0%nat (leaves t)) as [|N]; [reflexivity|]. exfalso. apply N. apply (Permutation_in _ (Permutation_sym T)). apply in_seq. lia.
Qed.
Lemma flit_one e : (-1022 <= e <= 1000)%Z -> B2R (flit 1 e) = bpow radix2 e /\ is_finite (flit 1 e) = true.
Proof.
  intros H. pose proof (binary_normalize_correct 53 1024 _ _ mode_NE 1 e false) as K. cbv zeta in K. cbn [round_mode] in K.
  assert (V : F2R (Float radix2 1 e) = bpow radix2 e) by (unfold F2R; cbn [Fnum Fexp]; apply Rmult_1_l). rewrite V in K.
  assert (G : rnd (bpow radix2 e) = bpow radix2 e) by (apply rnd_id, generic_format_bpow; unfold SpecFloat.fexp, SpecFloat.emin; lia).
  rewrite Rlt_bool_true in K. 2: { change (Rabs (rnd (bpow radix2 e)) < bpow radix2 1024). rewrite G, Rabs_pos_eq by apply bpow_ge_0. apply bpow_lt. lia. }
  destruct K as (K1 & K2 & _). split; [|exact K2]. etransitivity; [exact K1|exact G].
Qed.
(** A vector of length 2^400: the vector returned is right, but its cube of the reciprocal is zero, and the Jacobian in its own direction is 2^-400 instead of 0. *)
Theorem normalize_jacobian_long_refuted n t : (1 <= n)%nat -> order_ok n t -> let v := along (flit 1 400) in
  length_of n v = bpow radix2 400 /\ B2R (fst (fnormalizeAndJacobian t v) 0%nat) = 1 /\ normal_jacobian n v 0 0 = 0 /\ B2R (snd (fnormalizeAndJacobian t v) 0%nat 0%nat) = bpow radix2 (-400).
Proof.
  intros H T v. destruct (flit_one 400 ltac:(lia)) as [V F]. assert (L : length_of n v = bpow radix2 400) by (unfold v; rewrite along_length, V, Rabs_pos_eq by (auto; apply bpow_ge_0); reflexivity).
  assert (B2SF_eq : forall a b : f64, B2SF a = B2SF b -> a = b) by (intros a b E; apply (B2SF_inj 53 1024); exact E).
  assert (NM : fnormN t v = flit 1 400). { unfold v. rewrite (along_norm n (flit 1 400) (flit 1 800) t H T); apply B2SF_eq; vm_compute; reflexivity. }
  split; [exact L|]. split; [|split].
  - unfold fnormalizeAndJacobian. cbv zeta. cbn [fst]. rewrite NM. unfold v. cbn [along]. replace (fmul (flit 1 400) (fdiv fone (flit 1 400))) with (fofZ 1) by (apply B2SF_eq; vm_compute; reflexivity). apply one_facts.
  - unfold normal_jacobian. cbv zeta. rewrite L. unfold v. cbn [along Nat.eqb]. rewrite V. field. pose proof (bpow_gt_0 radix2 400). lra.
  - unfold fnormalizeAndJacobian. cbv zeta. cbn [snd Nat.eqb]. rewrite NM. unfold v. cbn [along]. destruct (flit_one (-400) ltac:(lia)) as [V' _]. rewrite <- V'. f_equal. apply B2SF_eq. vm_compute. reflexivity.
Qed.
(** A vector of length 2^-400: again the vector is right, but the cube is infinite and the Jacobian entry, 0, is not a number. *)
Theorem normalize_jacobian_short_refuted n t : (1 <= n)%nat -> order_ok n t -> let v := along (flit 1 (-400)) in
  length_of n v = bpow radix2 (-400) /\ B2R (fst (fnormalizeAndJacobian t v) 0%nat) = 1 /\ normal_jacobian n v 0 0 = 0 /\ no_number (snd (fnormalizeAndJacobian t v) 0%nat 0%nat).
Proof.
  intros H T v. destruct (flit_one (-400) ltac:(lia)) as [V F]. assert (L : length_of n v = bpow radix2 (-400)) by (unfold v; rewrite along_length, V, Rabs_pos_eq by (auto; apply bpow_ge_0); reflexivity).
  assert (B2SF_eq : forall a b : f64, B2SF a = B2SF b -> a = b) by (intros a b E; apply (B2SF_inj 53 1024); exact E).
  assert (NM : fnormN t v = flit 1 (-400)). { unfold v. rewrite (along_norm n (flit 1 (-400)) (flit 1 (-800)) t H T); apply B2SF_eq; vm_compute; reflexivity. }
  split; [exact L|]. split; [|split].
  - unfold fnormalizeAndJacobian. cbv zeta. cbn [fst]. rewrite NM. unfold v. cbn [along]. replace (fmul (flit 1 (-400)) (fdiv fone (flit 1 (-400)))) with (fofZ 1) by (apply B2SF_eq; vm_compute; reflexivity). apply one_facts.
  - unfold normal_jacobian. cbv zeta. rewrite L. unfold v. cbn [along Nat.eqb]. rewrite V. field. pose proof (bpow_gt_0 radix2 (-400)). lra.
  - unfold fnormalizeAndJacobian. cbv zeta. cbn [snd Nat.eqb]. rewrite NM. unfold v. cbn [along]. vm_compute. reflexivity.
Qed.
(** The zero vector: no coordinate and no entry of the Jacobian is a number. *)
Theorem normalize_jacobian_zero_refuted n t : (1 <= n)%nat -> order_ok n t -> forall i j, no_number (fst (fnormalizeAndJacobian t (along fzero)) i) /\ no_number (snd (fnormalizeAndJacobian t (along fzero)) i j).
Proof.
  intros H T i j. assert (NM : fnormN t (along fzero) = fzero) by (rewrite (along_norm n fzero fzero t H T); reflexivity). unfold fnormalizeAndJacobian. cbv zeta. cbn [fst snd]. rewrite NM.
  assert (R : no_number (fdiv fone fzero)) by (apply nf_div_zero; reflexivity). split; [apply nf_mul_r; exact R|]. apply nf_sub_r. apply nf_mul_l, nf_mul_l, nf_mul_r. exact R.
Qed.

(** ** the hypotheses can be met *)
Example normalize_jacobian_met : let v i := match i with 0 => fofZ 3 | 1 => fofZ 4 | _ => fofZ 12 end%nat in order_ok 3 (SAdd (SLeaf 1) (SAdd (SLeaf 0) (SLeaf 2))) /\ finite_vector 3 v /\ INR 3 <= 1048576 /\ length_of 3 v = 13 /\ bpow radix2 (-300) <= 13 <= bpow radix2 300.
Proof.
  cbv zeta. destruct (fofZ_correct 3 ltac:(lia)) as [V3 F3]. destruct (fofZ_correct 4 ltac:(lia)) as [V4 F4']. destruct (fofZ_correct 12 ltac:(lia)) as [V12 F12].
  split; [apply perm_swap|]. split; [intros [|[|i]] _; assumption|]. split; [cbn; lra|]. split.
  - unfold length_of. cbn [seq map]. unfold rsum. cbn [fold_right]. rewrite V3, V4, V12. replace (3 * 3 + (4 * 4 + (12 * 12 + 0))) with (13 * 13) by ring. apply sqrt_square. lra.
  - split; [apply Rle_trans with (bpow radix2 0); [apply bpow_le; lia|cbn; lra]|apply Rle_trans with (bpow radix2 4); [cbn; lra|apply bpow_le; lia]].
Qed.
