(** C150: propagation of covariances in binary64. *)
From Coq Require Import Reals Psatz Lia.
From Verif Require Import Float64 Nsec_Proofs TimerTable_Num Round_Proofs DenseN Kin_Unc_Model Kin_Float_Model Kin_Float_Num Kin_FloatExp_Props Kin_FloatSlerp_Props Unc_FloatModel.
Import ListNotations.
Open Scope R_scope.

(** ** specification *)
Definition vv (a : fvecn) : vecn := fun i => B2R (a i).
Definition mv (A : fmatn) : matn := fun i j => B2R (A i j).
Definition absm (A : matn) : matn := fun i j => Rabs (A i j).
Definition absv (a : vecn) : vecn := fun i => Rabs (a i).
Definition BIGE : R := bpow radix2 200.
Definition fine_v (n : nat) (a : fvecn) : Prop := forall i, (i < n)%nat -> is_finite (a i) = true /\ Rabs (B2R (a i)) <= BIGE.
Definition fine_mn (m n : nat) (A : fmatn) : Prop := forall i j, (i < m)%nat -> (j < n)%nat -> is_finite (A i j) = true /\ Rabs (B2R (A i j)) <= BIGE.
Definition fine_m (n : nat) (A : fmatn) : Prop := fine_mn n n A.
Definition dim_ok (n : nat) : Prop := INR n <= 1048576.
(** the largest error of one entry of J * U * J.transpose() *)
Definition sandwich_bound (n : nat) (J U : matn) (i j : nat) : R :=
  101 / 50 * INR n * u * mmn n (mmn n (absm J) (absm U)) (trn (absm J)) i j + 4 * INR n * eta * (1 + sumn n (fun k => Rabs (J j k))).

(** ** powers of 1 + u *)
Definition g (k : nat) : R := (1 + u) ^ k - 1.
Lemma g_pos k : 0 <= g k.
Proof. unfold g. pose proof u53_pos. pose proof (pow_R1_Rle (1 + u) k ltac:(lra)). lra. Qed.
Lemma g_S k : g (S k) = (1 + u) * g k + u.
Proof. unfold g. cbn [pow]. ring. Qed.
Lemma g_mono k l : (k <= l)%nat -> g k <= g l.
Proof. intros H. unfold g. pose proof u53_pos. pose proof (Rle_pow (1 + u) k l ltac:(lra) H). lra. Qed.
Lemma g_small k : INR k * u <= / 200 -> g k <= 101 / 100 * INR k * u.
Proof.
  pose proof u53_pos as UP. induction k as [|k IH].
  - intros _. unfold g. cbn [pow INR]. lra.
  - rewrite S_INR. intros H. pose proof (pos_INR k) as KP. assert (KU : 0 <= INR k * u) by (apply Rmult_le_pos; lra).
    assert (K : INR k * u <= / 200) by lra. specialize (IH K). rewrite g_S. assert (0 <= u * u) by (apply Rmult_le_pos; lra).
    pose proof (Rmult_le_compat_r u _ _ ltac:(lra) IH) as M. pose proof (Rmult_le_compat_r u _ _ ltac:(lra) K) as M2. lra.
Qed.
Lemma u_tiny : u <= / 9007199254740992.
Proof. change u with (/ 9007199254740992). lra. Qed.

(** ** sums in any order *)
Lemma Rsum_sumn n f : Rsum (map f (seq 0 n)) = sumn n f.
Proof.
  induction n as [|n IH]; [reflexivity|]. rewrite seq_S, map_app, Rsum_app, IH. cbn. ring.
Qed.
Lemma fsum_err (x : nat -> f64) t : (forall i, In i (leaves t) -> is_finite (x i) = true) ->
  INR (length (leaves t)) <= 1048576 -> Rsum (map (fun i => Rabs (B2R (x i))) (leaves t)) <= bpow radix2 1000 ->
  is_finite (fsum_tree x t) = true /\
  Rabs (B2R (fsum_tree x t) - Rsum (map (fun i => B2R (x i)) (leaves t))) <= g (length (leaves t) - 1) * Rsum (map (fun i => Rabs (B2R (x i))) (leaves t)) /\
  Rabs (Rsum (map (fun i => B2R (x i)) (leaves t))) <= Rsum (map (fun i => Rabs (B2R (x i))) (leaves t)).
Proof.
  induction t as [i|l IHl r IHr]; cbn [leaves fsum_tree]; intros F L B.
  - cbn [map Rsum fold_right length Nat.sub]. split; [apply F; left; reflexivity|]. unfold g. cbn [pow]. rewrite !Rplus_0_r, Rminus_diag_eq by reflexivity. rewrite Rabs_R0. lra.
  - rewrite app_length, plus_INR in L. rewrite map_app, Rsum_app in B. rewrite !map_app, !Rsum_app, app_length.
    assert (NNl : 0 <= Rsum (map (fun i => Rabs (B2R (x i))) (leaves l))) by (apply Rsum_nonneg, Forall_map, Forall_forall; intros; apply Rabs_pos).
    assert (NNr : 0 <= Rsum (map (fun i => Rabs (B2R (x i))) (leaves r))) by (apply Rsum_nonneg, Forall_map, Forall_forall; intros; apply Rabs_pos).
    pose proof (leaves_one l) as L1. pose proof (leaves_one r) as R1.
    destruct IHl as (FL & EL & AL); [intros; apply F, in_or_app; auto|lra|lra|]. destruct IHr as (FR & ER & AR); [intros; apply F, in_or_app; auto|lra|lra|].
    set (Al := Rsum (map (fun i => Rabs (B2R (x i))) (leaves l))) in *. set (Ar := Rsum (map (fun i => Rabs (B2R (x i))) (leaves r))) in *.
    set (Sl := Rsum (map (fun i => B2R (x i)) (leaves l))) in *. set (Sr := Rsum (map (fun i => B2R (x i)) (leaves r))) in *.
    assert (Ll : (1 <= length (leaves l))%nat) by (apply INR_le; cbn; lra). assert (Lr : (1 <= length (leaves r))%nat) by (apply INR_le; cbn; lra).
    set (nl := length (leaves l)) in *. set (m := length (leaves r)) in *. pose proof u53_pos as UP. pose proof u_val as UV.
    assert (GL : g (nl - 1) <= g (nl + m - 2)) by (apply g_mono; lia). assert (GR : g (m - 1) <= g (nl + m - 2)) by (apply g_mono; lia).
    assert (GT : g (nl + m - 2) <= / 2).
    { assert (I : INR (nl + m - 2) <= 1048576). { apply Rle_trans with (INR (nl + m)); [apply le_INR; lia|rewrite plus_INR; exact L]. }
      pose proof (pos_INR (nl + m - 2)). apply Rle_trans with (101 / 100 * INR (nl + m - 2) * u); [apply g_small|]; rewrite UV; lra. }
    replace (nl + m - 1)%nat with (S (nl + m - 2)) by lia. rewrite g_S. set (G := g (nl + m - 2)) in *. pose proof (g_pos (nl + m - 2)) as GP. fold G in GP. clearbody Al Ar Sl Sr nl m G.
    pose proof (Rmult_le_compat_r Al _ _ NNl GL) as ML. pose proof (Rmult_le_compat_r Ar _ _ NNr GR) as MR. rewrite Rmult_plus_distr_l.
    assert (HL : G * Al <= / 2 * Al) by (apply Rmult_le_compat_r; lra). assert (HR : G * Ar <= / 2 * Ar) by (apply Rmult_le_compat_r; lra).
    set (GAl := G * Al) in *. set (GAr := G * Ar) in *.
    set (vl := B2R (fsum_tree x l)) in *. set (vr := B2R (fsum_tree x r)) in *.
    assert (BL : Rabs vl <= Al + GAl). { replace vl with (Sl + (vl - Sl)) by ring. eapply Rle_trans; [apply Rabs_triang|]. lra. }
    assert (BR : Rabs vr <= Ar + GAr). { replace vr with (Sr + (vr - Sr)) by ring. eapply Rle_trans; [apply Rabs_triang|]. lra. }
    pose proof (Rabs_triang vl vr) as TR.
    destruct (fadd_rnd (fsum_tree x l) (fsum_tree x r) 1001 FL FR ltac:(lia)) as [E Fi].
    { fold vl vr. replace (bpow radix2 1001) with (2 * bpow radix2 1000). - lra. - change 2 with (bpow radix2 1). rewrite <- bpow_plus. reflexivity. }
    fold vl vr in E. split; [exact Fi|]. split; [|eapply Rle_trans; [apply Rabs_triang|]; lra].
    rewrite E. pose proof (rnd_sum_rel vl vr) as RS. specialize (RS (generic_format_B2R 53 1024 (fsum_tree x l)) (generic_format_B2R 53 1024 (fsum_tree x r))).
    replace (rnd (vl + vr) - (Sl + Sr)) with ((rnd (vl + vr) - (vl + vr)) + ((vl - Sl) + (vr - Sr))) by ring.
    eapply Rle_trans; [apply Rabs_triang|]. pose proof (Rabs_triang (vl - Sl) (vr - Sr)).
    assert (M : u * Rabs (vl + vr) <= u * (Al + GAl + (Ar + GAr))) by (apply Rmult_le_compat_l; lra).
    rewrite <- Rmult_plus_distr_l. replace (((1 + u) * G + u) * (Al + Ar)) with (u * (Al + GAl + (Ar + GAr)) + (GAl + GAr)) by (unfold GAl, GAr; ring). lra.
Qed.
Lemma leaves_dim n t : Permutation (leaves t) (seq 0 n) -> length (leaves t) = n.
Proof. intros P. rewrite (Permutation_length P). apply seq_length. Qed.
Lemma leaves_sum n t f : Permutation (leaves t) (seq 0 n) -> Rsum (map f (leaves t)) = sumn n f.
Proof. intros P. rewrite (Rsum_perm _ _ (Permutation_map f P)). apply Rsum_sumn. Qed.
Lemma leaves_in n t i : Permutation (leaves t) (seq 0 n) -> In i (leaves t) -> (i < n)%nat.
Proof. intros P H. apply (Permutation_in _ P) in H. apply in_seq in H. lia. Qed.
Lemma leaves_pos n t : Permutation (leaves t) (seq 0 n) -> (1 <= n)%nat.
Proof. intros P. rewrite <- (leaves_dim n t P). apply INR_le. pose proof (leaves_one t). cbn. lra. Qed.
Lemma sum_mono n f h : (forall i, (i < n)%nat -> f i <= h i) -> sumn n f <= sumn n h.
Proof. induction n as [|n IH]; intros H; cbn; [lra|]. pose proof (H n ltac:(lia)). assert (sumn n f <= sumn n h) by (apply IH; intros; apply H; lia). lra. Qed.
Lemma sum_abs n f : Rabs (sumn n f) <= sumn n (fun i => Rabs (f i)).
Proof. induction n as [|n IH]; cbn; [rewrite Rabs_R0; lra|]. eapply Rle_trans; [apply Rabs_triang|]. lra. Qed.
Lemma sum_const n c : sumn n (fun _ => c) = INR n * c.
Proof. induction n as [|n IH]; [cbn; ring|]. rewrite S_INR. cbn [sumn]. rewrite IH. ring. Qed.
Lemma g_dim n : dim_ok n -> g n <= / 1000.
Proof. intros D. unfold dim_ok in D. pose proof (pos_INR n). pose proof u_val as UV. apply Rle_trans with (101 / 100 * INR n * u); [apply g_small|]; rewrite UV; lra. Qed.

(** ** inner products *)
Lemma fdot_err n t (a b : fvecn) : dim_ok n -> Permutation (leaves t) (seq 0 n) ->
  (forall i, (i < n)%nat -> is_finite (a i) = true /\ is_finite (b i) = true /\ Rabs (B2R (a i)) * Rabs (B2R (b i)) <= bpow radix2 900) ->
  is_finite (fdotn t a b) = true /\
  Rabs (B2R (fdotn t a b) - dotn n (vv a) (vv b)) <= g n * dotn n (absv (vv a)) (absv (vv b)) + 2 * INR n * eta.
Proof.
  intros D P A. unfold fdotn. pose proof (leaves_dim n t P) as LN. pose proof (leaves_pos n t P) as NP. pose proof u53_pos as UP. pose proof u_val as UV. pose proof eta_pos as EP. pose proof (g_dim n D) as GD. unfold dim_ok in D.
  assert (X : forall i, (i < n)%nat -> is_finite (fmul (a i) (b i)) = true /\ Rabs (B2R (fmul (a i) (b i)) - B2R (a i) * B2R (b i)) <= u * (Rabs (B2R (a i)) * Rabs (B2R (b i))) + eta /\
    Rabs (B2R (fmul (a i) (b i))) <= bpow radix2 900).
  { intros i I. destruct (A i I) as (FA & FB & BB). assert (M : Rabs (B2R (a i) * B2R (b i)) <= bpow radix2 900).
    { rewrite Rabs_mult. exact BB. }
    destruct (fmul_rnd (a i) (b i) 900 FA FB ltac:(lia) M) as [E F]. split; [exact F|]. rewrite E. split; [rewrite <- Rabs_mult; apply rnd_err|apply rnd_abs_le; [lia|exact M]]. }
  assert (BS : sumn n (fun i => Rabs (B2R (fmul (a i) (b i)))) <= bpow radix2 1000).
  { apply Rle_trans with (sumn n (fun _ => bpow radix2 900)); [apply sum_mono; intros; apply X; auto|]. rewrite sum_const. replace (bpow radix2 1000) with (bpow radix2 100 * bpow radix2 900) by (rewrite <- bpow_plus; reflexivity).
    apply Rmult_le_compat_r; [apply bpow_ge_0|]. apply Rle_trans with (1 := D). apply Rle_trans with (bpow radix2 20); [cbn; lra|apply bpow_le; lia]. }
  destruct (fsum_err (fun k => fmul (a k) (b k)) t) as (F & E & _).
  - intros i H. apply X, (leaves_in n t i P H).
  - rewrite LN. exact D.
  - rewrite (leaves_sum n t (fun i => Rabs (B2R (fmul (a i) (b i)))) P). exact BS.
  - split; [exact F|]. rewrite LN, (leaves_sum n t (fun i => Rabs (B2R (fmul (a i) (b i)))) P), (leaves_sum n t (fun i => B2R (fmul (a i) (b i))) P) in E.
    set (s := B2R (fsum_tree _ t)) in *. clearbody s. set (T := dotn n (absv (vv a)) (absv (vv b))).
    assert (T0 : 0 <= T) by (apply sum_nonneg; intros; apply Rmult_le_pos; apply Rabs_pos).
    assert (S1 : Rabs (sumn n (fun i => B2R (fmul (a i) (b i))) - dotn n (vv a) (vv b)) <= u * T + INR n * eta).
    { unfold dotn, T. rewrite <- DenseN.sum_minus. eapply Rle_trans; [apply sum_abs|]. unfold dotn. rewrite <- DenseN.sum_scal, <- sum_const, <- DenseN.sum_plus. apply sum_mono. intros i I. apply X, I. }
    assert (S2 : sumn n (fun i => Rabs (B2R (fmul (a i) (b i)))) <= (1 + u) * T + INR n * eta).
    { unfold T, dotn. rewrite <- DenseN.sum_scal, <- sum_const, <- DenseN.sum_plus. apply sum_mono. intros i I. destruct (X i I) as (_ & E1 & _). unfold absv, vv.
      replace (B2R (fmul (a i) (b i))) with (B2R (a i) * B2R (b i) + (B2R (fmul (a i) (b i)) - B2R (a i) * B2R (b i))) by ring. eapply Rle_trans; [apply Rabs_triang|]. rewrite Rabs_mult. lra. }
    set (Q := sumn n (fun i => Rabs (B2R (fmul (a i) (b i))))) in *. clearbody Q. set (p := sumn n (fun i => B2R (fmul (a i) (b i)))) in *. clearbody p. clearbody T.
    pose proof (g_pos (n - 1)) as G0. assert (GM : g (n - 1) <= / 1000) by (apply Rle_trans with (2 := GD); apply g_mono; lia).
    pose proof (Rmult_le_compat_l _ _ _ G0 S2) as M.
    replace (s - dotn n (vv a) (vv b)) with ((s - p) + (p - dotn n (vv a) (vv b))) by ring. eapply Rle_trans; [apply Rabs_triang|].
    replace (g n) with ((1 + u) * g (n - 1) + u) by (rewrite <- g_S; f_equal; lia). pose proof (pos_INR n).
    assert (NE : 0 <= INR n * eta) by (apply Rmult_le_pos; lra). assert (ME : g (n - 1) * (INR n * eta) <= / 1000 * (INR n * eta)) by (apply Rmult_le_compat_r; lra).
    replace (((1 + u) * g (n - 1) + u) * T) with (g (n - 1) * ((1 + u) * T) + u * T) by ring. rewrite Rmult_plus_distr_l in M. lra.
Qed.

(** a vector P known up to rounding, in an inner product with b, on either side *)
Lemma two_products n t (P b : fvecn) (p q : vecn) (side : bool) : dim_ok n -> Permutation (leaves t) (seq 0 n) ->
  (forall k, (k < n)%nat -> is_finite (P k) = true /\ Rabs (B2R (P k) - p k) <= g n * q k + 2 * INR n * eta /\ Rabs (p k) <= q k /\ q k <= bpow radix2 590) ->
  (forall k, (k < n)%nat -> is_finite (b k) = true /\ Rabs (B2R (b k)) <= BIGE) ->
  let r := if side then fdotn t P b else fdotn t b P in
  is_finite r = true /\
  Rabs (B2R r - dotn n p (vv b)) <= 101 / 50 * INR n * u * dotn n q (absv (vv b)) + 4 * INR n * eta * (1 + sumn n (fun k => Rabs (B2R (b k)))).
Proof.
  intros D O HP HB. cbv zeta. pose proof u53_pos as UP. pose proof u_val as UV. pose proof eta_pos as EP. pose proof (g_dim n D) as GD. pose proof (g_pos n) as G0. pose proof (pos_INR n) as NP. unfold dim_ok in D.
  assert (EU : INR n * eta <= / 1000). { apply Rle_trans with (1048576 * eta); [apply Rmult_le_compat_r; lra|]. pose proof eta_smaller. rewrite UV in H. lra. }
  assert (NE : 0 <= INR n * eta) by (apply Rmult_le_pos; lra).
  assert (Q0 : forall k, (k < n)%nat -> 0 <= q k). { intros k K. destruct (HP k K) as (_ & _ & A & _). pose proof (Rabs_pos (p k)). lra. }
  assert (BP : forall k, (k < n)%nat -> Rabs (B2R (P k)) <= (1 + g n) * q k + 2 * INR n * eta).
  { intros k K. destruct (HP k K) as (_ & E & A & _). replace (B2R (P k)) with (p k + (B2R (P k) - p k)) by ring. eapply Rle_trans; [apply Rabs_triang|]. lra. }
  assert (BB : forall k, (k < n)%nat -> Rabs (B2R (P k)) * Rabs (B2R (b k)) <= bpow radix2 900).
  { intros k K. destruct (HB k K) as [_ B]. apply Rle_trans with (bpow radix2 600 * bpow radix2 200).
    - apply Rmult_le_compat; try apply Rabs_pos; [|exact B]. apply Rle_trans with (1 := BP k K). destruct (HP k K) as (_ & _ & _ & L). specialize (Q0 k K).
      assert (g n * q k <= / 1000 * q k) by (apply Rmult_le_compat_r; lra). replace (bpow radix2 600) with (1024 * bpow radix2 590) by (change 1024 with (bpow radix2 10); rewrite <- bpow_plus; reflexivity).
      assert (1 <= bpow radix2 590) by (change 1 with (bpow radix2 0); apply bpow_le; lia). lra.
    - rewrite <- bpow_plus. apply bpow_le. lia. }
  assert (C : is_finite (if side then fdotn t P b else fdotn t b P) = true /\
    Rabs (B2R (if side then fdotn t P b else fdotn t b P) - dotn n (vv P) (vv b)) <= g n * dotn n (absv (vv P)) (absv (vv b)) + 2 * INR n * eta).
  { destruct side.
    - apply fdot_err; auto. intros i I. split; [apply HP, I|]. split; [apply HB, I|auto].
    - rewrite (dotn_comm n (vv P)), (dotn_comm n (absv (vv P))). apply fdot_err; auto. intros i I. split; [apply HB, I|]. split; [apply HP, I|]. rewrite Rmult_comm. auto. }
  destruct C as [F E]. split; [exact F|]. set (r := B2R (if side then fdotn t P b else fdotn t b P)) in *. clearbody r.
  set (Bs := sumn n (fun k => Rabs (B2R (b k)))). assert (Bs0 : 0 <= Bs) by (apply sum_nonneg; intros; apply Rabs_pos).
  set (T := dotn n q (absv (vv b))). assert (T0 : 0 <= T) by (apply sum_nonneg; intros i I; apply Rmult_le_pos; [apply Q0, I|apply Rabs_pos]).
  assert (S1 : dotn n (absv (vv P)) (absv (vv b)) <= (1 + g n) * T + 2 * INR n * eta * Bs).
  { unfold T, Bs, dotn. rewrite <- !DenseN.sum_scal, <- DenseN.sum_plus. apply sum_mono. intros i I. unfold absv, vv. specialize (BP i I). pose proof (Rmult_le_compat_r (Rabs (B2R (b i))) _ _ (Rabs_pos _) BP). lra. }
  assert (S2 : Rabs (dotn n (vv P) (vv b) - dotn n p (vv b)) <= g n * T + 2 * INR n * eta * Bs).
  { unfold T, Bs, dotn. rewrite <- DenseN.sum_minus. eapply Rle_trans; [apply sum_abs|]. rewrite <- !DenseN.sum_scal, <- DenseN.sum_plus. apply sum_mono. intros i I. unfold absv, vv.
    rewrite <- Rmult_minus_distr_r, Rabs_mult. destruct (HP i I) as (_ & E1 & _). pose proof (Rmult_le_compat_r (Rabs (B2R (b i))) _ _ (Rabs_pos _) E1). lra. }
  pose proof (Rmult_le_compat_l _ _ _ G0 S1) as M. replace (r - dotn n p (vv b)) with ((r - dotn n (vv P) (vv b)) + (dotn n (vv P) (vv b) - dotn n p (vv b))) by ring.
  eapply Rle_trans; [apply Rabs_triang|].
  assert (G2 : g n * (1 + g n) + g n <= 101 / 50 * INR n * u).
  { replace (g n * (1 + g n) + g n) with (g (n + n)). - replace (101 / 50 * INR n * u) with (101 / 100 * INR (n + n) * u) by (rewrite plus_INR; field). apply g_small. rewrite plus_INR, UV. lra. - unfold g. rewrite pow_add. ring. }
  pose proof (Rmult_le_compat_r T _ _ T0 G2) as M2. assert (NB : 0 <= INR n * eta * Bs) by (apply Rmult_le_pos; lra).
  assert (M3 : g n * (INR n * eta * Bs) <= / 1000 * (INR n * eta * Bs)) by (apply Rmult_le_compat_r; lra). lra.
Qed.
Lemma entry_size n (a b : vecn) : dim_ok n -> (forall k, (k < n)%nat -> Rabs (a k) <= BIGE) -> (forall k, (k < n)%nat -> Rabs (b k) <= BIGE) ->
  Rabs (dotn n a b) <= dotn n (absv a) (absv b) <= bpow radix2 590.
Proof.
  intros D A B. split; [eapply Rle_trans; [apply sum_abs|]; apply sum_mono; intros; unfold absv; rewrite Rabs_mult; lra|].
  apply Rle_trans with (sumn n (fun _ => bpow radix2 400)).
  - apply sum_mono. intros i I. unfold absv. change 400%Z with (200 + 200)%Z. rewrite bpow_plus. apply Rmult_le_compat; auto using Rabs_pos.
  - rewrite sum_const. replace (bpow radix2 590) with (bpow radix2 190 * bpow radix2 400) by (rewrite <- bpow_plus; reflexivity). apply Rmult_le_compat_r; [apply bpow_ge_0|].
    apply Rle_trans with (1 := D). apply Rle_trans with (bpow radix2 20); [cbn; lra|apply bpow_le; lia].
Qed.
Lemma first_product n t (a b : fvecn) : dim_ok n -> Permutation (leaves t) (seq 0 n) -> fine_v n a -> fine_v n b ->
  is_finite (fdotn t a b) = true /\ Rabs (B2R (fdotn t a b) - dotn n (vv a) (vv b)) <= g n * dotn n (absv (vv a)) (absv (vv b)) + 2 * INR n * eta /\
  Rabs (dotn n (vv a) (vv b)) <= dotn n (absv (vv a)) (absv (vv b)) <= bpow radix2 590.
Proof.
  intros D O A B. destruct (fdot_err n t a b D O) as [F E].
  - intros i I. destruct (A i I) as [FA BA], (B i I) as [FB BB]. split; [exact FA|]. split; [exact FB|]. apply Rle_trans with (BIGE * BIGE); [apply Rmult_le_compat; auto using Rabs_pos|].
    unfold BIGE. rewrite <- bpow_plus. apply bpow_le. lia.
  - split; [exact F|]. split; [exact E|]. apply entry_size; auto; [intros; apply A|intros; apply B]; auto.
Qed.

(** ** theorems: J * U * J.transpose() *)
Lemma fine_mrow m n A i : fine_mn m n A -> (i < m)%nat -> fine_v n (A i).
Proof. intros H I k K. apply H; auto. Qed.
Lemma fine_row n A i : fine_m n A -> (i < n)%nat -> fine_v n (A i).
Proof. apply fine_mrow. Qed.
Lemma fine_col n A j : fine_m n A -> (j < n)%nat -> fine_v n (fun k => A k j).
Proof. intros H I k K. apply H; auto. Qed.
Theorem float_sandwich : forall m n o1 o2 (J U : fmatn), dim_ok n -> orders_ok n o1 -> orders_ok n o2 -> fine_mn m n J -> fine_m n U ->
  forall i j, (i < m)%nat -> (j < m)%nat ->
  is_finite (fsandwich o1 o2 J U i j) = true /\
  Rabs (B2R (fsandwich o1 o2 J U i j) - mmn n (mmn n (mv J) (mv U)) (trn (mv J)) i j) <= sandwich_bound n (mv J) (mv U) i j.
Proof.
  intros m n o1 o2 J U D O1 O2 FJ FU i j I K. unfold fsandwich, fmmn at 1 3.
  apply (two_products n (o2 i j) (fmmn o1 J U i) (fun k => ftrn J k j) (mmn n (mv J) (mv U) i) (mmn n (absm (mv J)) (absm (mv U)) i) true D (O2 i j)).
  - intros k L. destruct (first_product n (o1 i k) (J i) (fun l => U l k) D (O1 i k) (fine_mrow m n J i FJ I) (fine_col n U k FU L)) as (F & E & A & B). repeat split; [exact F|exact E|exact A|exact B].
  - intros k L. apply FJ; auto.
Qed.
Theorem float_linear : forall n o o1 o2 (M : fmatn) (x : fuvec), dim_ok n -> orders_ok n o -> orders_ok n o1 -> orders_ok n o2 ->
  fine_m n M -> fine_v n (fuv_v x) -> fine_m n (fuv_E x) ->
  let y := fuv_linear o o1 o2 M x in let Y := uv_linear n (mv M) (UV (vv (fuv_v x)) (mv (fuv_E x))) in
  forall i, (i < n)%nat ->
    is_finite (fuv_v y i) = true /\
    Rabs (B2R (fuv_v y i) - uv_v Y i) <= 101 / 100 * INR n * u * mvn n (absm (mv M)) (absv (vv (fuv_v x))) i + 2 * INR n * eta /\
    forall j, (j < n)%nat -> is_finite (fuv_E y i j) = true /\ Rabs (B2R (fuv_E y i j) - uv_E Y i j) <= sandwich_bound n (mv M) (mv (fuv_E x)) i j.
Proof.
  intros n o o1 o2 M x D O O1 O2 FM FV FE y Y i I. destruct (first_product n (o i 0%nat) (M i) (fuv_v x) D (O i 0%nat) (fine_row n M i FM I) FV) as (F & E & A & B).
  refine (conj F (conj _ _)).
  - apply Rle_trans with (1 := E). apply Rplus_le_compat_r. apply Rmult_le_compat_r; [exact (Rle_trans _ _ _ (Rabs_pos _) A)|].
    apply g_small. unfold dim_ok in D. pose proof (pos_INR n). rewrite u_val. lra.
  - intros j J. apply (float_sandwich n n); auto.
Qed.
(** the error of x' F x for a matrix whose entries are off by at most b i j *)
Lemma quadratic_off n (F G : matn) (b : matn) x : (forall i j, (i < n)%nat -> (j < n)%nat -> Rabs (F i j - G i j) <= b i j) ->
  Rabs (dotn n x (mvn n F x) - dotn n x (mvn n G x)) <= dotn n (absv x) (mvn n b (absv x)).
Proof.
  intros H. unfold dotn. rewrite <- DenseN.sum_minus. eapply Rle_trans; [apply sum_abs|]. apply sum_mono. intros i I. rewrite <- Rmult_minus_distr_l, Rabs_mult. unfold absv at 1. apply Rmult_le_compat_l; [apply Rabs_pos|].
  unfold mvn. rewrite <- DenseN.sum_minus. eapply Rle_trans; [apply sum_abs|]. apply sum_mono. intros j J. rewrite <- Rmult_minus_distr_r, Rabs_mult. apply Rmult_le_compat_r; [apply Rabs_pos|]. apply H; auto.
Qed.
Theorem float_sandwich_cov : forall m n o1 o2 (J U : fmatn), dim_ok n -> orders_ok n o1 -> orders_ok n o2 -> fine_mn m n J -> fine_m n U -> covn n (mv U) ->
  let F := mv (fsandwich o1 o2 J U) in let b := sandwich_bound n (mv J) (mv U) in
  (forall i j, (i < m)%nat -> (j < m)%nat -> Rabs (F i j - F j i) <= b i j + b j i) /\
  forall x, - dotn m (absv x) (mvn m b (absv x)) <= dotn m x (mvn m F x).
Proof.
  intros m n o1 o2 J U D O1 O2 FJ FU C F b. pose proof (cov_sandwich n m (mv J) (mv U) C) as [SY PS]. set (G := mmn n (mmn n (mv J) (mv U)) (trn (mv J))) in *.
  assert (H : forall i j, (i < m)%nat -> (j < m)%nat -> Rabs (F i j - G i j) <= b i j) by (intros; apply (float_sandwich m n); auto). split.
  - intros i j I K. specialize (SY i j I K). unfold trn in SY. pose proof (H i j I K) as H1. pose proof (H j i K I) as H2. replace (F i j - F j i) with ((F i j - G i j) + - (F j i - G j i)) by (rewrite SY; ring).
    eapply Rle_trans; [apply Rabs_triang|]. rewrite Rabs_Ropp. lra.
  - intros x. pose proof (quadratic_off m F G b x H) as Q. pose proof (PS x). apply Rabs_le_inv in Q. lra.
Qed.

(** ** theorems: sums and multiples *)
Definition bitsym (n : nat) (A : fmatn) : Prop := forall i j, (i < n)%nat -> (j < n)%nat -> A i j = A j i.
Definition variances (n : nat) (A : fmatn) : Prop := forall i, (i < n)%nat -> 0 <= B2R (A i i).
Lemma rnd_nonneg r : 0 <= r -> 0 <= rnd r.
Proof. intros H. rewrite <- rnd_0. apply rnd_le, H. Qed.
Lemma rnd_nonpos r : r <= 0 -> rnd r <= 0.
Proof. intros H. rewrite <- rnd_0. apply rnd_le, H. Qed.
Lemma fine_add (a b : f64) : is_finite a = true -> is_finite b = true -> Rabs (B2R a) <= bpow radix2 1000 -> Rabs (B2R b) <= bpow radix2 1000 ->
  B2R (fadd a b) = rnd (B2R a + B2R b) /\ is_finite (fadd a b) = true.
Proof.
  intros FA FB A B. apply (fadd_rnd a b 1001 FA FB); [lia|]. eapply Rle_trans; [apply Rabs_triang|]. replace (bpow radix2 1001) with (2 * bpow radix2 1000); [lra|]. change 2 with (bpow radix2 1). rewrite <- bpow_plus. reflexivity.
Qed.
Lemma BIGE_1000 : BIGE <= bpow radix2 1000. Proof. apply bpow_le. lia. Qed.
Theorem float_add : forall n (x y : fuvec), fine_v n (fuv_v x) -> fine_v n (fuv_v y) -> fine_m n (fuv_E x) -> fine_m n (fuv_E y) ->
  (forall z, z = fuv_add x y \/ z = fuv_sub x y ->
    (forall i j, (i < n)%nat -> (j < n)%nat -> is_finite (fuv_E z i j) = true /\
      let e := B2R (fuv_E x i j) + B2R (fuv_E y i j) in Rabs (B2R (fuv_E z i j) - e) <= u * Rabs e) /\
    (bitsym n (fuv_E x) -> bitsym n (fuv_E y) -> bitsym n (fuv_E z)) /\
    (variances n (fuv_E x) -> variances n (fuv_E y) -> variances n (fuv_E z))) /\
  forall i, (i < n)%nat ->
    is_finite (fuv_v (fuv_add x y) i) = true /\ is_finite (fuv_v (fuv_sub x y) i) = true /\
    (let e := B2R (fuv_v x i) + B2R (fuv_v y i) in Rabs (B2R (fuv_v (fuv_add x y) i) - e) <= u * Rabs e) /\
    (let e := B2R (fuv_v x i) - B2R (fuv_v y i) in Rabs (B2R (fuv_v (fuv_sub x y) i) - e) <= u * Rabs e).
Proof.
  intros n x y VX VY EX EY. pose proof BIGE_1000 as BB. split.
  - intros z Z. assert (ZE : fuv_E z = fmaddn (fuv_E x) (fuv_E y)) by (destruct Z as [-> | ->]; reflexivity). rewrite ZE. clear z Z ZE.
    assert (H : forall i j, (i < n)%nat -> (j < n)%nat -> B2R (fmaddn (fuv_E x) (fuv_E y) i j) = rnd (B2R (fuv_E x i j) + B2R (fuv_E y i j)) /\ is_finite (fmaddn (fuv_E x) (fuv_E y) i j) = true).
    { intros i j I J. destruct (EX i j I J) as [FA BA], (EY i j I J) as [FB B2]. unfold fmaddn. apply fine_add; auto; lra. }
    refine (conj _ (conj _ _)).
    + intros i j I J. destruct (H i j I J) as [E F]. split; [exact F|]. cbv zeta. rewrite E. apply rnd_sum_rel; apply (generic_format_B2R 53 1024).
    + intros SX SY i j I J. unfold fmaddn. rewrite (SX i j I J), (SY i j I J). reflexivity.
    + intros PX PY i I. destruct (H i i I I) as [E F]. rewrite E. apply rnd_nonneg. specialize (PX i I). specialize (PY i I). lra.
  - intros i I. destruct (VX i I) as [FA BA], (VY i I) as [FB B2]. destruct (fine_add (fuv_v x i) (fuv_v y i) FA FB ltac:(lra) ltac:(lra)) as [E1 F1].
    destruct (fsub_rnd (fuv_v x i) (fuv_v y i) 1001 FA FB ltac:(lia)) as [E2 F2].
    { unfold Rminus. eapply Rle_trans; [apply Rabs_triang|]. rewrite Rabs_Ropp. replace (bpow radix2 1001) with (2 * bpow radix2 1000); [lra|]. change 2 with (bpow radix2 1). rewrite <- bpow_plus. reflexivity. }
    cbv zeta. cbn [fuv_v fuv_add fuv_sub]. unfold faddn, fsubn. refine (conj F1 (conj F2 (conj _ _))).
    + rewrite E1. apply rnd_sum_rel; apply (generic_format_B2R 53 1024).
    + rewrite E2. apply (rnd_sum_rel (B2R (fuv_v x i)) (- B2R (fuv_v y i))); [apply (generic_format_B2R 53 1024)|]. apply generic_format_opp, (generic_format_B2R 53 1024).
Qed.
Lemma rnd_twice r s : Rabs (rnd (rnd (r * s) * s) - r * s * s) <= 201 / 100 * u * Rabs (r * s * s) + 2 * eta * (1 + Rabs s).
Proof.
  pose proof u53_pos as UP. pose proof u_val as UV. pose proof eta_pos as EP. pose proof (rnd_err (r * s)) as E1. pose proof (rnd_err (rnd (r * s) * s)) as E2. set (a := rnd (r * s)) in *. clearbody a.
  replace (rnd (a * s) - r * s * s) with ((rnd (a * s) - a * s) + (a - r * s) * s) by ring. eapply Rle_trans; [apply Rabs_triang|]. rewrite (Rabs_mult (a - r * s)).
  pose proof (Rmult_le_compat_r (Rabs s) _ _ (Rabs_pos s) E1) as M. set (T := Rabs (r * s * s)). assert (TE : Rabs (r * s) * Rabs s = T) by (unfold T; rewrite <- Rabs_mult; reflexivity).
  assert (T0 : 0 <= T) by apply Rabs_pos. replace ((u * Rabs (r * s) + eta) * Rabs s) with (u * T + eta * Rabs s) in M by (rewrite <- TE; ring). assert (A : Rabs (a * s) <= (1 + u) * T + eta * Rabs s).
  { replace (a * s) with (r * s * s + (a - r * s) * s) by ring. eapply Rle_trans; [apply Rabs_triang|]. rewrite (Rabs_mult (a - r * s)). fold T. lra. }
  pose proof (Rmult_le_compat_l u _ _ ltac:(lra) A) as M2. pose proof (Rabs_pos s) as S0. assert (ES : 0 <= eta * Rabs s) by (apply Rmult_le_pos; lra). assert (UT : 0 <= u * T) by (apply Rmult_le_pos; lra).
  assert (M3 : u * (u * T) <= / 1000 * (u * T)) by (apply Rmult_le_compat_r; [exact UT|rewrite UV; lra]). assert (M4 : u * (eta * Rabs s) <= / 1000 * (eta * Rabs s)) by (apply Rmult_le_compat_r; [exact ES|rewrite UV; lra]). lra.
Qed.
Lemma mul_fine (a b : f64) (ea eb : Z) : (ea + eb < 1024)%Z -> (-1021 <= ea + eb)%Z -> is_finite a = true -> is_finite b = true -> Rabs (B2R a) <= bpow radix2 ea -> Rabs (B2R b) <= bpow radix2 eb ->
  B2R (fmul a b) = rnd (B2R a * B2R b) /\ is_finite (fmul a b) = true /\ Rabs (B2R (fmul a b)) <= bpow radix2 (ea + eb).
Proof.
  intros L1 L2 FA FB A B. assert (M : Rabs (B2R a * B2R b) <= bpow radix2 (ea + eb)). { rewrite Rabs_mult, bpow_plus. apply Rmult_le_compat; auto using Rabs_pos. }
  destruct (fmul_rnd a b (ea + eb) FA FB ltac:(lia) M) as [E F]. split; [exact E|]. split; [exact F|]. rewrite E. apply rnd_abs_le; [lia|exact M].
Qed.
Lemma square_nonneg r s : 0 <= s -> 0 <= rnd (rnd (r * s) * r).
Proof.
  intros H. apply rnd_nonneg. destruct (Rle_or_lt 0 r) as [P|P].
  - apply Rmult_le_pos; [apply rnd_nonneg, Rmult_le_pos|]; auto.
  - replace (rnd (r * s) * r) with (- rnd (r * s) * - r) by ring. apply Rmult_le_pos; [|lra]. assert (rnd (r * s) <= 0) by (apply rnd_nonpos; replace (r * s) with (- (- r * s)) by ring; assert (0 <= - r * s) by (apply Rmult_le_pos; lra); lra). lra.
Qed.
Theorem float_scale : forall n (x : fuvec) (s : f64), fine_v n (fuv_v x) -> fine_m n (fuv_E x) -> is_finite s = true -> Rabs (B2R s) <= BIGE ->
  let y := fuv_scale x s in
  (forall i j, (i < n)%nat -> (j < n)%nat -> is_finite (fuv_E y i j) = true /\
    let e := B2R (fuv_E x i j) * B2R s * B2R s in Rabs (B2R (fuv_E y i j) - e) <= 201 / 100 * u * Rabs e + 2 * eta * (1 + Rabs (B2R s))) /\
  (bitsym n (fuv_E x) -> bitsym n (fuv_E y)) /\ (variances n (fuv_E x) -> variances n (fuv_E y)) /\
  forall i, (i < n)%nat -> is_finite (fuv_v y i) = true /\ let e := B2R (fuv_v x i) * B2R s in Rabs (B2R (fuv_v y i) - e) <= u * Rabs e + eta.
Proof.
  intros n x s VX EX FS BS y.
  assert (H : forall i j, (i < n)%nat -> (j < n)%nat -> B2R (fuv_E y i j) = rnd (rnd (B2R (fuv_E x i j) * B2R s) * B2R s) /\ is_finite (fuv_E y i j) = true).
  { intros i j I J. destruct (EX i j I J) as [FA BA]. destruct (mul_fine (fuv_E x i j) s 200 200 ltac:(lia) ltac:(lia) FA FS BA BS) as (E1 & F1 & B1).
    destruct (mul_fine (fmul (fuv_E x i j) s) s 400 200 ltac:(lia) ltac:(lia) F1 FS B1 BS) as (E2 & F2 & _). rewrite E1 in E2. split; [exact E2|exact F2]. }
  refine (conj _ (conj _ (conj _ _))).
  - intros i j I J. destruct (H i j I J) as [E F]. split; [exact F|]. cbv zeta. rewrite E. apply rnd_twice.
  - intros SX i j I J. cbn [fuv_E fuv_scale y]. unfold y. cbn [fuv_E fuv_scale]. unfold fmscalen. rewrite (SX i j I J). reflexivity.
  - intros PX i I. destruct (H i i I I) as [E F]. rewrite E, (Rmult_comm (B2R (fuv_E x i i))). specialize (PX i I). apply square_nonneg, PX.
  - intros i I. destruct (VX i I) as [FA BA]. destruct (mul_fine (fuv_v x i) s 200 200 ltac:(lia) ltac:(lia) FA FS BA BS) as (E1 & F1 & _). split; [exact F1|]. cbv zeta. unfold y. cbn [fuv_v fuv_scale]. unfold fscalen. rewrite E1. apply rnd_err.
Qed.

(** ** theorems: inner products *)
Lemma quad_form n (v w : vecn) (E : matn) : dotn n v (mvn n E w) = dotn n (mvn n E w) v.
Proof. apply dotn_comm. Qed.
(** the variance of v . x for a certain v *)
Definition dot_bound (n : nat) (E : matn) (v : vecn) : R :=
  101 / 50 * INR n * u * dotn n (absv v) (mvn n (absm E) (absv v)) + 4 * INR n * eta * (1 + sumn n (absv v)).
Lemma form_err n tv o (E : fmatn) (v : fvecn) : dim_ok n -> Permutation (leaves tv) (seq 0 n) -> orders_ok n o -> fine_m n E -> fine_v n v ->
  is_finite (fdotn tv v (fmvn o E v)) = true /\ Rabs (B2R (fdotn tv v (fmvn o E v)) - dotn n (vv v) (mvn n (mv E) (vv v))) <= dot_bound n (mv E) (vv v).
Proof.
  intros D P O FE FV. unfold dot_bound. rewrite (quad_form n (absv (vv v))), (quad_form n (vv v)).
  apply (two_products n tv (fmvn o E v) v (mvn n (mv E) (vv v)) (mvn n (absm (mv E)) (absv (vv v))) false D P); [|exact FV].
  intros k K. destruct (first_product n (o k 0%nat) (E k) v D (O k 0%nat) (fine_row n E k FE K) FV) as (F & G & A & B). repeat split; [exact F|exact G|exact A|exact B].
Qed.
Lemma form_size n (E : fmatn) (v : fvecn) : dim_ok n -> fine_m n E -> fine_v n v -> Rabs (dotn n (vv v) (mvn n (mv E) (vv v))) <= dotn n (absv (vv v)) (mvn n (absm (mv E)) (absv (vv v))) <= bpow radix2 900.
Proof.
  intros D FE FV. split.
  - eapply Rle_trans; [apply sum_abs|]. apply sum_mono. intros i I. rewrite Rabs_mult. apply Rmult_le_compat_l; [apply Rabs_pos|]. unfold mvn. eapply Rle_trans; [apply sum_abs|]. apply sum_mono. intros j J. rewrite Rabs_mult. unfold absm, absv. lra.
  - apply Rle_trans with (sumn n (fun _ => BIGE * bpow radix2 590)).
    + apply sum_mono. intros i I. destruct (FV i I) as [_ BV]. apply Rmult_le_compat; [apply Rabs_pos|apply sum_nonneg; intros; apply Rmult_le_pos; apply Rabs_pos|exact BV|].
      destruct (entry_size n (mv E i) (vv v) D) as [_ S]; [intros; apply FE; auto|intros; apply FV; auto|]. exact S.
    + rewrite sum_const. unfold BIGE. rewrite <- bpow_plus. replace (bpow radix2 900) with (bpow radix2 110 * bpow radix2 (200 + 590)) by (rewrite <- bpow_plus; reflexivity).
      apply Rmult_le_compat_r; [apply bpow_ge_0|]. apply Rle_trans with (1 := D). apply Rle_trans with (bpow radix2 20); [cbn; lra|apply bpow_le; lia].
Qed.
Lemma dot_err n t (a b : fvecn) : dim_ok n -> Permutation (leaves t) (seq 0 n) -> fine_v n a -> fine_v n b ->
  is_finite (fdotn t a b) = true /\ Rabs (B2R (fdotn t a b) - dotn n (vv a) (vv b)) <= 101 / 100 * INR n * u * dotn n (absv (vv a)) (absv (vv b)) + 2 * INR n * eta.
Proof.
  intros D P A B. destruct (first_product n t a b D P A B) as (F & E & S & _). split; [exact F|]. apply Rle_trans with (1 := E). apply Rplus_le_compat_r. apply Rmult_le_compat_r; [exact (Rle_trans _ _ _ (Rabs_pos _) S)|].
  apply g_small. unfold dim_ok in D. pose proof (pos_INR n). rewrite u_val. lra.
Qed.
Theorem float_dotv : forall n t tv o (x : fuvec) (v : fvecn), dim_ok n -> Permutation (leaves t) (seq 0 n) -> Permutation (leaves tv) (seq 0 n) -> orders_ok n o ->
  fine_v n (fuv_v x) -> fine_m n (fuv_E x) -> fine_v n v ->
  let s := fuv_dotv t tv o x v in let S := uv_dotv n (UV (vv (fuv_v x)) (mv (fuv_E x))) (vv v) in
  is_finite (fus_v s) = true /\ is_finite (fus_E s) = true /\
  Rabs (B2R (fus_v s) - us_v S) <= 101 / 100 * INR n * u * dotn n (absv (vv (fuv_v x))) (absv (vv v)) + 2 * INR n * eta /\
  Rabs (B2R (fus_E s) - us_E S) <= dot_bound n (mv (fuv_E x)) (vv v) /\
  (covn n (mv (fuv_E x)) -> - dot_bound n (mv (fuv_E x)) (vv v) <= B2R (fus_E s)).
Proof.
  intros n t tv o x v D P PV O FV FE FW s S. destruct (dot_err n t (fuv_v x) v D P FV FW) as [F1 E1]. destruct (form_err n tv o (fuv_E x) v D PV O FE FW) as [F2 E2].
  refine (conj F1 (conj F2 (conj E1 (conj E2 _)))). intros [_ C]. specialize (C (vv v)). apply Rabs_le_inv in E2. cbn [fus_E fuv_dotv s]. unfold s. cbn [fus_E fuv_dotv]. lra.
Qed.
Theorem float_dot : forall n t t1 t2 o1 o2 (x y : fuvec), dim_ok n -> Permutation (leaves t) (seq 0 n) -> Permutation (leaves t1) (seq 0 n) -> Permutation (leaves t2) (seq 0 n) -> orders_ok n o1 -> orders_ok n o2 ->
  fine_v n (fuv_v x) -> fine_m n (fuv_E x) -> fine_v n (fuv_v y) -> fine_m n (fuv_E y) ->
  let s := fuv_dot t t1 t2 o1 o2 x y in let S := uv_dot n (UV (vv (fuv_v x)) (mv (fuv_E x))) (UV (vv (fuv_v y)) (mv (fuv_E y))) in
  let b := dot_bound n (mv (fuv_E y)) (vv (fuv_v x)) + dot_bound n (mv (fuv_E x)) (vv (fuv_v y)) in
  is_finite (fus_v s) = true /\ is_finite (fus_E s) = true /\
  Rabs (B2R (fus_v s) - us_v S) <= 101 / 100 * INR n * u * dotn n (absv (vv (fuv_v x))) (absv (vv (fuv_v y))) + 2 * INR n * eta /\
  Rabs (B2R (fus_E s) - us_E S) <= u * Rabs (us_E S) + (1 + u) * b.
Proof.
  intros n t t1 t2 o1 o2 x y D P P1 P2 O1 O2 VX EX VY EY s S b. destruct (dot_err n t (fuv_v x) (fuv_v y) D P VX VY) as [F1 E1].
  destruct (form_err n t1 o1 (fuv_E y) (fuv_v x) D P1 O1 EY VX) as [F2 E2]. destruct (form_err n t2 o2 (fuv_E x) (fuv_v y) D P2 O2 EX VY) as [F3 E3].
  destruct (form_size n (fuv_E y) (fuv_v x) D EY VX) as [S2 S2']. destruct (form_size n (fuv_E x) (fuv_v y) D EX VY) as [S3 S3'].
  assert (BD : forall T (w : vecn), T <= bpow radix2 900 -> 0 <= T -> (forall i, (i < n)%nat -> Rabs (w i) <= BIGE) -> 101 / 50 * INR n * u * T + 4 * INR n * eta * (1 + sumn n (absv w)) <= bpow radix2 901).
  { intros T w HT T0 HW. pose proof D as D'. unfold dim_ok in D'. pose proof (pos_INR n) as NP. pose proof u53_pos as UP. pose proof u_val as UV. pose proof eta_pos as EP.
    assert (A1 : 101 / 50 * INR n * u <= / 2) by (rewrite UV; lra). assert (A2 : 101 / 50 * INR n * u * T <= / 2 * T) by (apply Rmult_le_compat_r; lra).
    assert (SW : 0 <= sumn n (absv w) <= bpow radix2 220). { split; [apply sum_nonneg; intros; apply Rabs_pos|]. apply Rle_trans with (sumn n (fun _ => BIGE)); [apply sum_mono; exact HW|]. rewrite sum_const. replace (bpow radix2 220) with (bpow radix2 20 * BIGE) by (unfold BIGE; rewrite <- bpow_plus; reflexivity). apply Rmult_le_compat_r; [apply bpow_ge_0|]. apply Rle_trans with (1 := D). cbn; lra. }
    assert (A3 : 4 * INR n * eta <= 1). { pose proof eta_smaller as ES. rewrite UV in ES. assert (INR n * eta <= 1048576 * eta) by (apply Rmult_le_compat_r; lra). lra. }
    assert (A4 : 4 * INR n * eta * (1 + sumn n (absv w)) <= 1 * (1 + sumn n (absv w))) by (apply Rmult_le_compat_r; lra).
    assert (B9 : bpow radix2 901 = 2 * bpow radix2 900) by (change 2 with (bpow radix2 1); rewrite <- bpow_plus; reflexivity). assert (1 <= bpow radix2 220) by (change 1 with (bpow radix2 0); apply bpow_le; lia).
    assert (B8 : 4 * bpow radix2 220 <= bpow radix2 900) by (change 4 with (bpow radix2 2); rewrite <- bpow_plus; apply bpow_le; lia). lra. }
  assert (D2 : dot_bound n (mv (fuv_E y)) (vv (fuv_v x)) <= bpow radix2 901) by (apply BD; [exact S2'|exact (Rle_trans _ _ _ (Rabs_pos _) S2)|intros i I; apply VX, I]).
  assert (D3 : dot_bound n (mv (fuv_E x)) (vv (fuv_v y)) <= bpow radix2 901) by (apply BD; [exact S3'|exact (Rle_trans _ _ _ (Rabs_pos _) S3)|intros i I; apply VY, I]).
  set (f2 := fdotn t1 (fuv_v x) (fmvn o1 (fuv_E y) (fuv_v x))) in *. set (f3 := fdotn t2 (fuv_v y) (fmvn o2 (fuv_E x) (fuv_v y))) in *.
  set (e2 := dotn n (vv (fuv_v x)) (mvn n (mv (fuv_E y)) (vv (fuv_v x)))) in *. set (e3 := dotn n (vv (fuv_v y)) (mvn n (mv (fuv_E x)) (vv (fuv_v y)))) in *.
  assert (K : forall v e b, Rabs (v - e) <= b -> b <= bpow radix2 901 -> Rabs e <= bpow radix2 900 -> Rabs v <= bpow radix2 1000).
  { intros v e b0 X Y Z. replace v with (e + (v - e)) by ring. eapply Rle_trans; [apply Rabs_triang|]. assert (2 * bpow radix2 901 <= bpow radix2 1000) by (change 2 with (bpow radix2 1); rewrite <- bpow_plus; apply bpow_le; lia). assert (bpow radix2 900 <= bpow radix2 901) by (apply bpow_le; lia). lra. }
  destruct (fine_add f2 f3 F2 F3 (K _ _ _ E2 D2 ltac:(lra)) (K _ _ _ E3 D3 ltac:(lra))) as [E F]. refine (conj F1 (conj F (conj E1 _))).
  change (us_E S) with (e2 + e3). change (fus_E s) with (fadd f2 f3). unfold b. rewrite E. pose proof (rnd_sum_rel (B2R f2) (B2R f3) (generic_format_B2R 53 1024 f2) (generic_format_B2R 53 1024 f3)) as R1.
  set (v2 := B2R f2) in *. set (v3 := B2R f3) in *. set (d2 := dot_bound n (mv (fuv_E y)) (vv (fuv_v x))) in *. set (d3 := dot_bound n (mv (fuv_E x)) (vv (fuv_v y))) in *.
  replace (rnd (v2 + v3) - (e2 + e3)) with ((rnd (v2 + v3) - (v2 + v3)) + ((v2 - e2) + (v3 - e3))) by ring. eapply Rle_trans; [apply Rabs_triang|]. pose proof (Rabs_triang (v2 - e2) (v3 - e3)).
  assert (A : Rabs (v2 + v3) <= Rabs (e2 + e3) + (d2 + d3)). { replace (v2 + v3) with ((e2 + e3) + ((v2 - e2) + (v3 - e3))) by ring. eapply Rle_trans; [apply Rabs_triang|]. lra. }
  pose proof (Rmult_le_compat_l u _ _ ltac:(pose proof u53_pos; lra) A) as M. lra.
Qed.

(** ** theorems: what is lost *)
Definition mat2 (a b c d : f64) : fmatn := fun i j => match i, j with O, O => a | O, _ => b | _, O => c | _, _ => d end.
Definition o2 : orders := fun _ _ => SAdd (SLeaf 0) (SLeaf 1).
Lemma o2_ok : orders_ok 2 o2. Proof. intros i j. apply Permutation_refl. Qed.
Definition third (a b : Z) : f64 := fdiv (fofZ a) (fofZ b).
(** (2,3)(2,3)' and the matrix ((-3/5, 2/5), (1/5, 1/5)): the first row is orthogonal to (2,3) up to rounding *)
Definition E_refuted : fmatn := mat2 (fofZ 4) (fofZ 6) (fofZ 6) (fofZ 9).
Definition M_refuted : fmatn := mat2 (third (-3) 5) (third 2 5) (third 1 5) (third 1 5).
Lemma fine_mat2 (a b c d : f64) : (is_finite a && is_finite b && is_finite c && is_finite d)%bool = true -> Rabs (B2R a) <= 100 -> Rabs (B2R b) <= 100 -> Rabs (B2R c) <= 100 -> Rabs (B2R d) <= 100 -> fine_m 2 (mat2 a b c d).
Proof.
  intros F A B C D. apply andb_prop in F. destruct F as [F FD]. apply andb_prop in F. destruct F as [F FC]. apply andb_prop in F. destruct F as [FA FB].
  assert (H : 100 <= BIGE) by (apply Rle_trans with (bpow radix2 10); [cbn; lra|apply bpow_le; lia]).
  intros i j I J. destruct i as [|[|i]]; [| |lia]; (destruct j as [|[|j]]; [| |lia]); cbn [mat2]; split; auto; lra.
Qed.
Ltac b2r := match goal with |- context [B2R ?x] => let v := eval vm_compute in (B2R x) in change (B2R x) with v end.
Lemma cov_rank_one (a b : R) (E : fmatn) : B2R (E 0%nat 0%nat) = a * a -> B2R (E 0%nat 1%nat) = a * b -> B2R (E 1%nat 0%nat) = a * b -> B2R (E 1%nat 1%nat) = b * b -> covn 2 (mv E).
Proof.
  intros H1 H2 H3 H4. apply (cov_ext 2 (outern (fun i => match i with O => a | _ => b end) (fun i => match i with O => a | _ => b end))); [|apply cov_outer].
  intros i j I J. unfold outern, mv. destruct i as [|[|i]]; [| |lia]; (destruct j as [|[|j]]; [| |lia]); lra.
Qed.
Theorem float_linear_refuted : exists o (M E : fmatn), orders_ok 2 o /\ fine_m 2 M /\ fine_m 2 E /\ bitsym 2 E /\ covn 2 (mv E) /\
  B2R (fsandwich o o M E 0%nat 0%nat) < 0 /\ B2R (fsandwich o o M E 0%nat 1%nat) < B2R (fsandwich o o M E 1%nat 0%nat).
Proof.
  exists o2, M_refuted, E_refuted. split; [exact o2_ok|].
  split; [apply fine_mat2; [vm_compute; reflexivity|..]; vm_compute; apply Rabs_le; lra|].
  split; [apply fine_mat2; [vm_compute; reflexivity|..]; vm_compute; apply Rabs_le; lra|].
  split. { intros i j I J. destruct i as [|[|i]]; [| |lia]; (destruct j as [|[|j]]; [| |lia]); reflexivity. }
  split; [apply (cov_rank_one 2 3); vm_compute; lra|].
  split; vm_compute; lra.
Qed.
Lemma quad2 (A : matn) a b : dotn 2 (fun i => match i with O => a | _ => b end) (mvn 2 A (fun i => match i with O => a | _ => b end)) =
  A 0%nat 0%nat * (a * a) + (A 0%nat 1%nat + A 1%nat 0%nat) * (a * b) + A 1%nat 1%nat * (b * b).
Proof. unfold dotn, mvn, sumn. ring. Qed.
Lemma not_psd (F : fmatn) : B2R (F 1%nat 0%nat) = B2R (F 0%nat 1%nat) -> 0 < B2R (F 0%nat 0%nat) ->
  B2R (F 0%nat 0%nat) * B2R (F 1%nat 1%nat) < B2R (F 0%nat 1%nat) * B2R (F 0%nat 1%nat) -> exists x, dotn 2 x (mvn 2 (mv F) x) < 0.
Proof.
  intros S P D. exists (fun i => match i with O => - B2R (F 0%nat 1%nat) | _ => B2R (F 0%nat 0%nat) end). rewrite quad2. unfold mv. rewrite S.
  set (p := B2R (F 0%nat 0%nat)) in *. set (q := B2R (F 0%nat 1%nat)) in *. set (r := B2R (F 1%nat 1%nat)) in *. clearbody p q r.
  assert (0 < p * (q * q - p * r)) by (apply Rmult_lt_0_compat; lra).
  replace (p * (- q * - q) + (q + q) * (- q * p) + r * (p * p)) with (- (p * (q * q - p * r))) by ring. lra.
Qed.
(** (1,2)(1,2)' + 2^-52 (2,3)(2,3)' and 1/5 times (5,3)(5,3)' *)
Definition E_add1 : fmatn := mat2 (fofZ 1) (fofZ 2) (fofZ 2) (fofZ 4).
Definition E_add2 : fmatn := mat2 (flit 4 (-52)) (flit 6 (-52)) (flit 6 (-52)) (flit 9 (-52)).
Definition E_scale : fmatn := mat2 (fofZ 25) (fofZ 15) (fofZ 15) (fofZ 9).
Theorem float_add_refuted : exists (A B : fmatn), fine_m 2 A /\ fine_m 2 B /\ bitsym 2 A /\ bitsym 2 B /\ covn 2 (mv A) /\ covn 2 (mv B) /\ exists x, dotn 2 x (mvn 2 (mv (fmaddn A B)) x) < 0.
Proof.
  exists E_add1, E_add2.
  split; [apply fine_mat2; [vm_compute; reflexivity|..]; vm_compute; apply Rabs_le; lra|].
  split; [apply fine_mat2; [vm_compute; reflexivity|..]; vm_compute; apply Rabs_le; lra|].
  split. { intros i j I J. destruct i as [|[|i]]; [| |lia]; (destruct j as [|[|j]]; [| |lia]); reflexivity. }
  split. { intros i j I J. destruct i as [|[|i]]; [| |lia]; (destruct j as [|[|j]]; [| |lia]); reflexivity. }
  split; [apply (cov_rank_one 1 2); vm_compute; lra|].
  split; [apply (cov_rank_one (2 / 67108864) (3 / 67108864)); vm_compute; lra|].
  apply not_psd; vm_compute; lra.
Qed.
Theorem float_scale_refuted : exists (E : fmatn) (s : f64), fine_m 2 E /\ bitsym 2 E /\ covn 2 (mv E) /\ is_finite s = true /\ Rabs (B2R s) <= 1 /\
  exists x, dotn 2 x (mvn 2 (mv (fmscalen (fmscalen E s) s)) x) < 0.
Proof.
  exists E_scale, (third 1 5).
  split; [apply fine_mat2; [vm_compute; reflexivity|..]; vm_compute; apply Rabs_le; lra|].
  split. { intros i j I J. destruct i as [|[|i]]; [| |lia]; (destruct j as [|[|j]]; [| |lia]); reflexivity. }
  split; [apply (cov_rank_one 5 3); vm_compute; lra|].
  split; [vm_compute; reflexivity|]. split; [vm_compute; apply Rabs_le; lra|].
  apply not_psd; vm_compute; lra.
Qed.
Theorem float_dotv_refuted : exists t o (E : fmatn) (v : fvecn), Permutation (leaves t) (seq 0 2) /\ orders_ok 2 o /\ fine_m 2 E /\ fine_v 2 v /\ bitsym 2 E /\ covn 2 (mv E) /\
  B2R (fus_E (fuv_dotv t t o (FUV v E) v)) < 0.
Proof.
  exists (SAdd (SLeaf 0) (SLeaf 1)), o2, E_refuted, (fun i => match i with O => third (-3) 5 | _ => third 2 5 end).
  split; [apply Permutation_refl|]. split; [exact o2_ok|].
  split; [apply fine_mat2; [vm_compute; reflexivity|..]; vm_compute; apply Rabs_le; lra|].
  split. { assert (H : 100 <= BIGE) by (apply Rle_trans with (bpow radix2 10); [cbn; lra|apply bpow_le; lia]).
    intros i I. destruct i as [|[|i]]; [| |lia]; (split; [vm_compute; reflexivity|]); apply Rle_trans with (2 := H); vm_compute; apply Rabs_le; lra. }
  split. { intros i j I J. destruct i as [|[|i]]; [| |lia]; (destruct j as [|[|j]]; [| |lia]); reflexivity. }
  split; [apply (cov_rank_one 2 3); vm_compute; lra|]. vm_compute; lra.
Qed.

(** ** theorems: uncertain scalars keep a nonnegative variance *)
Definition fine_s (a : f64) : Prop := is_finite a = true /\ Rabs (B2R a) <= BIGE.
Definition fine_us (x : fuscal) : Prop := fine_s (fus_v x) /\ fine_s (fus_E x) /\ 0 <= B2R (fus_E x).
Lemma square_err r s (a b : f64) : is_finite a = true -> is_finite b = true -> B2R a = r -> B2R b = s -> Rabs r <= bpow radix2 400 -> Rabs s <= BIGE -> 0 <= s ->
  is_finite (fmul (fmul a b) a) = true /\ 0 <= B2R (fmul (fmul a b) a) <= bpow radix2 1000 /\ Rabs (B2R (fmul (fmul a b) a) - r * s * r) <= 201 / 100 * u * (r * s * r) + 2 * eta * (1 + Rabs r).
Proof.
  intros FA FB <- <- BA BB S0. destruct (mul_fine a b 400 200 ltac:(lia) ltac:(lia) FA FB BA BB) as (E1 & F1 & B1). destruct (mul_fine (fmul a b) a 600 400 ltac:(lia) ltac:(lia) F1 FA B1 BA) as (E2 & F2 & B2).
  assert (NN : 0 <= B2R (fmul (fmul a b) a)) by (rewrite E2, E1; apply square_nonneg, S0). split; [exact F2|]. split; [split; [exact NN|]; rewrite Rabs_pos_eq in B2 by exact NN; exact B2|].
  rewrite E2, E1. set (r := B2R a) in *. set (s := B2R b) in *. clearbody r s. assert (P : 0 <= r * s * r). { replace (r * s * r) with (s * (r * r)) by ring. apply Rmult_le_pos; [exact S0|]. apply (Rle_0_sqr r). }
  pose proof (rnd_err (r * s)) as G1. pose proof (rnd_err (rnd (r * s) * r)) as G2. set (m := rnd (r * s)) in *. clearbody m. pose proof u53_pos as UP. pose proof u_val as UV. pose proof eta_pos as EP. pose proof (Rabs_pos r) as R0.
  replace (rnd (m * r) - r * s * r) with ((rnd (m * r) - m * r) + (m - r * s) * r) by ring. eapply Rle_trans; [apply Rabs_triang|]. rewrite (Rabs_mult (m - r * s)).
  pose proof (Rmult_le_compat_r (Rabs r) _ _ R0 G1) as M. assert (TE : Rabs (r * s) * Rabs r = r * s * r) by (rewrite <- Rabs_mult; apply Rabs_pos_eq, P). set (T := r * s * r) in *. clearbody T.
  replace ((u * Rabs (r * s) + eta) * Rabs r) with (u * T + eta * Rabs r) in M by (rewrite <- TE; ring).
  assert (A : Rabs (m * r) <= (1 + u) * T + eta * Rabs r). { replace (m * r) with (r * s * r + (m - r * s) * r) by ring. eapply Rle_trans; [apply Rabs_triang|]. rewrite !(Rabs_mult _ r). rewrite TE. lra. }
  pose proof (Rmult_le_compat_l u _ _ ltac:(lra) A) as M2. assert (ES : 0 <= eta * Rabs r) by (apply Rmult_le_pos; lra). assert (UT : 0 <= u * T) by (apply Rmult_le_pos; lra).
  assert (M3 : u * (u * T) <= / 1000 * (u * T)) by (apply Rmult_le_compat_r; [exact UT|rewrite UV; lra]). assert (M4 : u * (eta * Rabs r) <= / 1000 * (eta * Rabs r)) by (apply Rmult_le_compat_r; [exact ES|rewrite UV; lra]). lra.
Qed.
(** the sum of two computed variances *)
Lemma sum_two (f h : f64) ef eh df dh : is_finite f = true -> is_finite h = true -> 0 <= B2R f <= bpow radix2 1000 -> 0 <= B2R h <= bpow radix2 1000 -> 0 <= ef -> 0 <= eh ->
  Rabs (B2R f - ef) <= df -> Rabs (B2R h - eh) <= dh ->
  is_finite (fadd f h) = true /\ 0 <= B2R (fadd f h) /\ Rabs (B2R (fadd f h) - (ef + eh)) <= u * (ef + eh) + (1 + u) * (df + dh).
Proof.
  intros FF FH BF BH EF EH DF DH. pose proof u53_pos as UP. destruct (fine_add f h FF FH) as [E F]; [rewrite Rabs_pos_eq; lra|rewrite Rabs_pos_eq; lra|]. split; [exact F|]. rewrite E. split; [apply rnd_nonneg; lra|].
  pose proof (rnd_sum_rel (B2R f) (B2R h) (generic_format_B2R 53 1024 f) (generic_format_B2R 53 1024 h)) as R1. rewrite (Rabs_pos_eq (B2R f + B2R h)) in R1 by lra.
  apply Rabs_le_inv in DF. apply Rabs_le_inv in DH. assert (U2 : u * (B2R f + B2R h) <= u * (ef + eh + (df + dh))) by (apply Rmult_le_compat_l; lra). apply Rabs_le_inv in R1. apply Rabs_le. lra.
Qed.
Lemma BIGE_400 r : Rabs r <= BIGE -> Rabs r <= bpow radix2 400.
Proof. intros H. apply Rle_trans with (1 := H). apply bpow_le. lia. Qed.
Definition exact_us (x : fuscal) : uscal := US (B2R (fus_v x)) (B2R (fus_E x)).
Theorem float_scalar : forall x y : fuscal, fine_us x -> fine_us y ->
  (forall z Z, (z, Z) = (fus_add x y, us_add (exact_us x) (exact_us y)) \/ (z, Z) = (fus_sub x y, us_sub (exact_us x) (exact_us y)) ->
    is_finite (fus_v z) = true /\ is_finite (fus_E z) = true /\ 0 <= B2R (fus_E z) /\
    Rabs (B2R (fus_v z) - us_v Z) <= u * Rabs (us_v Z) /\ Rabs (B2R (fus_E z) - us_E Z) <= u * us_E Z) /\
  (let z := fus_mul x y in let Z := us_mul (exact_us x) (exact_us y) in
    is_finite (fus_v z) = true /\ is_finite (fus_E z) = true /\ 0 <= B2R (fus_E z) /\
    Rabs (B2R (fus_v z) - us_v Z) <= u * Rabs (us_v Z) + eta /\
    Rabs (B2R (fus_E z) - us_E Z) <= 302 / 100 * u * us_E Z + 3 * eta * (2 + Rabs (B2R (fus_v x)) + Rabs (B2R (fus_v y)))).
Proof.
  intros x y ((FX & BX) & (FEX & BEX) & PX) ((FY & BY) & (FEY & BEY) & PY). pose proof BIGE_1000 as BB. pose proof u53_pos as UP. pose proof u_val as UV. pose proof eta_pos as EP. split.
  - assert (SE : B2R (fadd (fus_E x) (fus_E y)) = rnd (B2R (fus_E x) + B2R (fus_E y)) /\ is_finite (fadd (fus_E x) (fus_E y)) = true) by (apply fine_add; auto; lra). destruct SE as [E F].
    assert (PE : 0 <= B2R (fadd (fus_E x) (fus_E y))) by (rewrite E; apply rnd_nonneg; lra).
    assert (RE : Rabs (B2R (fadd (fus_E x) (fus_E y)) - (B2R (fus_E x) + B2R (fus_E y))) <= u * (B2R (fus_E x) + B2R (fus_E y))).
    { rewrite E. rewrite <- (Rabs_pos_eq (B2R (fus_E x) + B2R (fus_E y))) at 3 by lra. apply rnd_sum_rel; apply (generic_format_B2R 53 1024). }
    intros z Z [H|H]; injection H as -> ->; cbn [fus_v fus_E us_v us_E fus_add fus_sub us_add us_sub exact_us].
    + destruct (fine_add (fus_v x) (fus_v y) FX FY ltac:(lra) ltac:(lra)) as [E1 F1]. refine (conj F1 (conj F (conj PE (conj _ RE)))). rewrite E1. apply rnd_sum_rel; apply (generic_format_B2R 53 1024).
    + destruct (fsub_rnd (fus_v x) (fus_v y) 1001 FX FY ltac:(lia)) as [E2 F2].
      { unfold Rminus. eapply Rle_trans; [apply Rabs_triang|]. rewrite Rabs_Ropp. replace (bpow radix2 1001) with (2 * bpow radix2 1000); [lra|]. change 2 with (bpow radix2 1). rewrite <- bpow_plus. reflexivity. }
      refine (conj F2 (conj F (conj PE (conj _ RE)))). rewrite E2. apply (rnd_sum_rel (B2R (fus_v x)) (- B2R (fus_v y))); [apply (generic_format_B2R 53 1024)|]. apply generic_format_opp, (generic_format_B2R 53 1024).
  - cbv zeta. cbn [fus_v fus_E us_v us_E fus_mul fus_dot us_mul us_dot exact_us].
    destruct (mul_fine (fus_v x) (fus_v y) 200 200 ltac:(lia) ltac:(lia) FX FY BX BY) as (E1 & F1 & _).
    destruct (square_err _ _ (fus_v y) (fus_E x) FY FEX eq_refl eq_refl (BIGE_400 _ BY) BEX PX) as (FA & BA & EA). destruct (square_err _ _ (fus_v x) (fus_E y) FX FEY eq_refl eq_refl (BIGE_400 _ BX) BEY PY) as (FB & BC & EB).
    assert (SQ : forall r s, 0 <= s -> 0 <= r * s * r) by (intros r s S0; replace (r * s * r) with (s * (r * r)) by ring; apply Rmult_le_pos; [exact S0|apply (Rle_0_sqr r)]).
    destruct (sum_two _ _ _ _ _ _ FA FB BA BC (SQ _ _ PX) (SQ _ _ PY) EA EB) as (F2 & P2 & E2).
    refine (conj F1 (conj F2 (conj P2 (conj _ _)))); [rewrite E1; apply rnd_err|]. apply Rle_trans with (1 := E2).
    pose proof (SQ (B2R (fus_v y)) _ PX) as QA. pose proof (SQ (B2R (fus_v x)) _ PY) as QB. set (a := B2R (fus_v y) * B2R (fus_E x) * B2R (fus_v y)) in *. set (c := B2R (fus_v x) * B2R (fus_E y) * B2R (fus_v x)) in *. clearbody a c.
    pose proof (Rabs_pos (B2R (fus_v x))). pose proof (Rabs_pos (B2R (fus_v y))). set (p := Rabs (B2R (fus_v x))) in *. set (q := Rabs (B2R (fus_v y))) in *. clearbody p q.
    assert (0 <= eta * p) by (apply Rmult_le_pos; lra). assert (0 <= eta * q) by (apply Rmult_le_pos; lra). rewrite UV. lra.
Qed.
(** r s r for a factor r known up to rounding *)
Lemma square_near r r0 s D e : 0 <= s -> 0 <= D <= / 1000 -> 0 <= e -> Rabs (r - r0) <= D * Rabs r0 + e -> Rabs (r * s * r - r0 * s * r0) <= 201 / 100 * D * (r0 * s * r0) + s * (e * (3 * Rabs r0 + e)).
Proof.
  intros S0 HD E0 H. set (d := r - r0) in *. replace (r * s * r - r0 * s * r0) with (s * (2 * (d * r0) + d * d)) by (unfold d; ring). clearbody d. rewrite Rabs_mult, (Rabs_pos_eq s) by exact S0.
  assert (TE : r0 * s * r0 = s * (Rabs r0 * Rabs r0)) by (rewrite <- Rabs_mult, Rabs_pos_eq by apply (Rle_0_sqr r0); ring). rewrite TE. pose proof (Rabs_pos r0) as R0. set (q := Rabs r0) in *.
  replace (201 / 100 * D * (s * (q * q)) + s * (e * (3 * q + e))) with (s * (201 / 100 * D * (q * q) + e * (3 * q + e))) by ring. apply Rmult_le_compat_l; [exact S0|].
  eapply Rle_trans; [apply Rabs_triang|]. rewrite !Rabs_mult, (Rabs_pos_eq 2) by lra. fold q. pose proof (Rabs_pos d) as D0. set (x := Rabs d) in *. clearbody x q.
  assert (A : x * q <= (D * q + e) * q) by (apply Rmult_le_compat_r; lra). assert (B : x * x <= (D * q + e) * (D * q + e)) by (apply Rmult_le_compat; lra).
  assert (DD : D * D * (q * q) <= / 1000 * D * (q * q)) by (apply Rmult_le_compat_r; [apply Rmult_le_pos; lra|apply Rmult_le_compat_r; lra]). assert (eq0 : 0 <= e * q) by (apply Rmult_le_pos; lra).
  assert (De : D * (e * q) <= / 1000 * (e * q)) by (apply Rmult_le_compat_r; lra). assert (0 <= D * (q * q)) by (apply Rmult_le_pos; [lra|apply Rmult_le_pos; lra]).
  replace ((D * q + e) * q) with (D * (q * q) + e * q) in A by ring. replace ((D * q + e) * (D * q + e)) with (D * D * (q * q) + 2 * (D * (e * q)) + e * e) in B by ring. lra.
Qed.
Lemma one_val : B2R (fofZ 1) = 1 /\ is_finite (fofZ 1) = true. Proof. apply fofZ_correct. cbn. lia. Qed.
Definition DIVS : R := bpow radix2 (-100).
(** 1 / b and a / b^2 as the division operators compute them *)
Lemma inverse_near (b : f64) : is_finite b = true -> DIVS <= Rabs (B2R b) -> Rabs (B2R b) <= BIGE ->
  is_finite (fdiv (fofZ 1) b) = true /\ Rabs (B2R (fdiv (fofZ 1) b)) <= bpow radix2 100 /\ Rabs (1 / B2R b) <= bpow radix2 100 /\ Rabs (B2R (fdiv (fofZ 1) b) - 1 / B2R b) <= u * Rabs (1 / B2R b) + eta.
Proof.
  intros F L B. assert (L0 : 0 < DIVS) by apply bpow_gt_0. assert (NZ : B2R b <> 0) by (intros H; rewrite H, Rabs_R0 in L; lra). destruct one_val as [V1 FN].
  assert (Q : Rabs (1 / B2R b) <= bpow radix2 100). { unfold Rdiv. rewrite Rabs_mult, Rabs_R1, Rmult_1_l, Rabs_inv. replace (bpow radix2 100) with (/ DIVS) by (unfold DIVS; rewrite <- bpow_opp; reflexivity). apply Rinv_le; [exact L0|exact L]. }
  destruct (fdiv_rnd (fofZ 1) b 100 FN NZ ltac:(lia)) as [E G]; [rewrite V1; exact Q|]. rewrite V1 in E. split; [exact G|]. rewrite E. split; [apply rnd_abs_le; [lia|exact Q]|]. split; [exact Q|apply rnd_err].
Qed.
Lemma quotient_near (a b : f64) : fine_s a -> is_finite b = true -> DIVS <= Rabs (B2R b) -> Rabs (B2R b) <= BIGE ->
  let d := fdiv (fneg a) (fmul b b) in is_finite d = true /\ Rabs (B2R d) <= bpow radix2 400 /\ Rabs (B2R a / (B2R b * B2R b)) <= bpow radix2 400 /\
  Rabs (B2R d - - (B2R a / (B2R b * B2R b))) <= 201 / 100 * u * Rabs (B2R a / (B2R b * B2R b)) + eta.
Proof.
  intros [FA BA] F L B d. unfold d. assert (L0 : 0 < DIVS) by apply bpow_gt_0. destruct (mul_fine b b 200 200 ltac:(lia) ltac:(lia) F F B B) as (E3 & F3 & _).
  assert (P : DIVS * DIVS <= Rabs (B2R b * B2R b)) by (rewrite Rabs_mult; apply Rmult_le_compat; lra). assert (PP : DIVS * DIVS = bpow radix2 (-200)) by (unfold DIVS; rewrite <- bpow_plus; reflexivity). rewrite PP in P.
  assert (Q : bpow radix2 (-200) <= Rabs (B2R (fmul b b))).
  { rewrite E3. apply abs_round_ge_generic; try typeclasses eauto; [apply generic_format_bpow; unfold SpecFloat.fexp, SpecFloat.emin; lia|exact P]. }
  assert (L2 : 0 < bpow radix2 (-200)) by apply bpow_gt_0. assert (NQ : B2R (fmul b b) <> 0) by (intros H; rewrite H, Rabs_R0 in Q; lra). assert (NB : B2R b <> 0) by (intros H; rewrite H, Rabs_R0 in L; lra).
  assert (FN2 : is_finite (fneg a) = true /\ B2R (fneg a) = - B2R a) by (unfold fneg; rewrite is_finite_Bopp, B2R_Bopp; auto). destruct FN2 as [FNX VNX].
  assert (QB : forall w, bpow radix2 (-200) <= Rabs w -> Rabs (B2R a / w) <= bpow radix2 400).
  { intros w W. unfold Rdiv. rewrite Rabs_mult, Rabs_inv. change 400%Z with (200 + 200)%Z. rewrite bpow_plus. apply Rmult_le_compat; [apply Rabs_pos|apply Rlt_le, Rinv_0_lt_compat; lra|exact BA|]. replace (bpow radix2 200) with (/ bpow radix2 (-200)) by (rewrite <- bpow_opp; reflexivity). apply Rinv_le; [exact L2|exact W]. }
  assert (QN : Rabs (B2R (fneg a) / B2R (fmul b b)) <= bpow radix2 400). { rewrite VNX. unfold Rdiv. rewrite Ropp_mult_distr_l_reverse, Rabs_Ropp. apply QB, Q. }
  destruct (fdiv_rnd (fneg a) (fmul b b) 400 FNX NQ ltac:(lia) QN) as [E G]. split; [exact G|]. split; [rewrite E; apply rnd_abs_le; [lia|exact QN]|]. split; [apply QB, P|]. rewrite E.
  pose proof (rnd_err (B2R (fneg a) / B2R (fmul b b))) as R1. rewrite VNX in *. rewrite E3 in *.
  pose proof (rnd_rel (B2R b * B2R b)) as R2. specialize (R2 ltac:(apply Rle_trans with (2 := P); apply bpow_le; lia)). set (w := B2R b * B2R b) in *. set (wf := rnd w) in *. clearbody wf w. set (x := B2R a) in *. clearbody x.
  pose proof u53_pos as UP. pose proof u_val as UV. set (q := x / w). assert (W0 : w <> 0) by (intros H; rewrite H, Rabs_R0 in P; lra).
  assert (WL : (1 - u) * Rabs w <= Rabs wf). { replace wf with (w + (wf - w)) by ring. pose proof (Rabs_triang_inv w (- (wf - w))) as TI. replace (w - - (wf - w)) with (w + (wf - w)) in TI by ring. rewrite Rabs_Ropp in TI. lra. }
  assert (D : Rabs (- x / wf - - q) <= 1001 / 1000 * u * Rabs q).
  { replace (- x / wf - - q) with (q * ((wf - w) / wf)) by (unfold q; field; split; assumption). rewrite Rabs_mult, (Rmult_comm _ (Rabs q)). apply Rmult_le_compat_l; [apply Rabs_pos|]. unfold Rdiv. rewrite Rabs_mult, Rabs_inv.
    apply (Rmult_le_reg_r (Rabs wf)); [lra|]. rewrite Rmult_assoc, Rinv_l by lra. rewrite Rmult_1_r. apply Rle_trans with (1 := R2).
    assert (M : 1001 / 1000 * u * ((1 - u) * Rabs w) <= 1001 / 1000 * u * Rabs wf) by (apply Rmult_le_compat_l; lra). apply Rle_trans with (2 := M). rewrite <- Rmult_assoc. apply Rmult_le_compat_r; [apply Rabs_pos|].
    replace (1001 / 1000 * u * (1 - u)) with (u * (1001 / 1000 * (1 - u))) by ring. rewrite <- (Rmult_1_r u) at 1. apply Rmult_le_compat_l; [lra|rewrite UV; lra]. }
  assert (A : Rabs (- x / wf) <= (1 + 1001 / 1000 * u) * Rabs q). { replace (- x / wf) with (- q + (- x / wf - - q)) by ring. eapply Rle_trans; [apply Rabs_triang|]. rewrite Rabs_Ropp. lra. }
  pose proof (Rmult_le_compat_l u _ _ ltac:(lra) A) as M. pose proof (Rabs_pos q) as Q0. assert (UQ : 0 <= u * Rabs q) by (apply Rmult_le_pos; lra). assert (UUQ : u * (u * Rabs q) <= / 1000000 * (u * Rabs q)) by (apply Rmult_le_compat_r; [exact UQ|rewrite UV; lra]).
  replace (rnd (- x / wf) - - q) with ((rnd (- x / wf) - - x / wf) + (- x / wf - - q)) by ring. eapply Rle_trans; [apply Rabs_triang|]. lra.
Qed.
(** one squared term of a quotient's variance *)
Lemma term_near (d s : f64) r0 D : is_finite d = true -> fine_s s -> 0 <= B2R s -> Rabs (B2R d) <= bpow radix2 400 -> Rabs r0 <= bpow radix2 400 -> 0 <= D <= 201 / 100 * u -> Rabs (B2R d - r0) <= D * Rabs r0 + eta ->
  is_finite (fmul (fmul d s) d) = true /\ 0 <= B2R (fmul (fmul d s) d) <= bpow radix2 1000 /\ 0 <= r0 * B2R s * r0 /\ Rabs (B2R (fmul (fmul d s) d) - r0 * B2R s * r0) <= 61 / 10 * u * (r0 * B2R s * r0) + bpow radix2 (-450).
Proof.
  intros FD [FS BS] S0 BD BR HD H. destruct (square_err _ _ d s FD FS eq_refl eq_refl BD BS S0) as (F & B & E). split; [exact F|]. split; [exact B|]. set (v := B2R (fmul (fmul d s) d)) in *. clearbody v. set (r := B2R d) in *. set (t := B2R s) in *. clearbody r t.
  pose proof u53_pos as UP. pose proof u_val as UV. pose proof eta_pos as EP. assert (HD' : 0 <= D <= / 1000) by (rewrite UV in HD; lra). pose proof (square_near r r0 t D eta S0 HD' (Rlt_le _ _ EP) H) as N.
  assert (P : 0 <= r0 * t * r0) by (replace (r0 * t * r0) with (t * (r0 * r0)) by ring; apply Rmult_le_pos; [exact S0|apply (Rle_0_sqr r0)]). split; [exact P|]. set (T := r0 * t * r0) in *. clearbody T.
  assert (Sm : t * (eta * (3 * Rabs r0 + eta)) <= bpow radix2 (-460)).
  { assert (T2 : t <= bpow radix2 200) by (rewrite Rabs_pos_eq in BS by exact S0; exact BS). assert (W : 3 * Rabs r0 + eta <= bpow radix2 402). { replace (bpow radix2 402) with (4 * bpow radix2 400) by (change 4 with (bpow radix2 2); rewrite <- bpow_plus; reflexivity). assert (eta <= bpow radix2 400) by (apply bpow_le; lia). lra. }
    assert (W2 : eta * (3 * Rabs r0 + eta) <= eta * bpow radix2 402) by (apply Rmult_le_compat_l; lra). pose proof (Rabs_pos r0). apply Rle_trans with (bpow radix2 200 * (eta * bpow radix2 402)); [apply Rmult_le_compat; [exact S0|apply Rmult_le_pos; lra|exact T2|exact W2]|].
    rewrite <- !bpow_plus. apply bpow_le. lia. }
  assert (Sm2 : 2 * eta * (1 + Rabs r) <= bpow radix2 (-460)).
  { assert (W : 1 + Rabs r <= bpow radix2 401). { replace (bpow radix2 401) with (2 * bpow radix2 400) by (change 2 with (bpow radix2 1); rewrite <- bpow_plus; reflexivity). assert (1 <= bpow radix2 400) by (change 1 with (bpow radix2 0); apply bpow_le; lia). lra. }
    apply Rle_trans with (2 * eta * bpow radix2 401); [apply Rmult_le_compat_l; lra|]. change 2 with (bpow radix2 1). rewrite <- !bpow_plus. apply bpow_le. lia. }
  assert (S4 : 8 * bpow radix2 (-460) <= bpow radix2 (-450)) by (change 8 with (bpow radix2 3); rewrite <- bpow_plus; apply bpow_le; lia). set (sm := bpow radix2 (-460)) in *. assert (SM0 : 0 <= sm) by apply bpow_ge_0. set (sl := bpow radix2 (-450)) in *. clearbody sm sl.
  assert (N2 : Rabs (r * t * r - T) <= 4041 / 1000 * u * T + sm). { apply Rle_trans with (1 := N). assert (201 / 100 * D * T <= 4041 / 1000 * u * T) by (apply Rmult_le_compat_r; lra). lra. }
  assert (UT : 0 <= u * T) by (apply Rmult_le_pos; lra). assert (A : r * t * r <= T + (4041 / 1000 * u * T + sm)) by (apply Rabs_le_inv in N2; lra).
  assert (M : u * (r * t * r) <= u * (T + (4041 / 1000 * u * T + sm))) by (apply Rmult_le_compat_l; lra). assert (UUT : u * (u * T) <= / 1000 * (u * T)) by (apply Rmult_le_compat_r; [exact UT|rewrite UV; lra]). assert (USM : u * sm <= 1 * sm) by (apply Rmult_le_compat_r; [exact SM0|rewrite UV; lra]).
  replace (v - T) with ((v - r * t * r) + (r * t * r - T)) by ring. eapply Rle_trans; [apply Rabs_triang|]. lra.
Qed.
Theorem float_scalar_div : forall x y : fuscal, fine_us x -> fine_us y -> DIVS <= Rabs (B2R (fus_v y)) ->
  exists Z, us_div (exact_us x) (exact_us y) = Some Z /\
  let z := fus_div x y in is_finite (fus_v z) = true /\ is_finite (fus_E z) = true /\ 0 <= B2R (fus_E z) /\
    Rabs (B2R (fus_v z) - us_v Z) <= u * Rabs (us_v Z) + eta /\ Rabs (B2R (fus_E z) - us_E Z) <= 8 * u * us_E Z + bpow radix2 (-448).
Proof.
  intros x y ((FX & BX) & (FEX & BEX) & PX) ((FY & BY) & (FEY & BEY) & PY) L.
  assert (L0 : 0 < DIVS) by apply bpow_gt_0. assert (NZ : B2R (fus_v y) <> 0) by (intros H; rewrite H, Rabs_R0 in L; lra).
  unfold us_div. cbn [us_v us_E exact_us]. destruct (Req_EM_T (B2R (fus_v y)) 0) as [H|_]; [contradiction|]. eexists. split; [reflexivity|]. cbv zeta. cbn [us_v us_E fus_v fus_E fus_div].
  assert (DB : Rabs (B2R (fus_v x) / B2R (fus_v y)) <= bpow radix2 300).
  { unfold Rdiv. rewrite Rabs_mult, Rabs_inv. change 300%Z with (200 + 100)%Z. rewrite bpow_plus. apply Rmult_le_compat; [apply Rabs_pos|apply Rlt_le, Rinv_0_lt_compat; lra|exact BX|]. replace (bpow radix2 100) with (/ DIVS) by (unfold DIVS; rewrite <- bpow_opp; reflexivity). apply Rinv_le; [exact L0|exact L]. }
  destruct (fdiv_rnd (fus_v x) (fus_v y) 300 FX NZ ltac:(lia) DB) as [E2 F2].
  destruct (inverse_near (fus_v y) FY L BY) as (FI & BI & BI' & EI). destruct (quotient_near (fus_v x) (fus_v y) (conj FX BX) FY L BY) as (FQ & BQ & BQ' & EQ).
  pose proof u53_pos as UP. pose proof u_val as UV.
  assert (B4 : forall r, Rabs r <= bpow radix2 100 -> Rabs r <= bpow radix2 400) by (intros r H; apply Rle_trans with (1 := H); apply bpow_le; lia).
  destruct (term_near (fdiv (fofZ 1) (fus_v y)) (fus_E x) (1 / B2R (fus_v y)) u FI (conj FEX BEX) PX (B4 _ BI) (B4 _ BI') ltac:(lra) EI) as (FA & BA & NA & EA).
  destruct (term_near (fdiv (fneg (fus_v x)) (fmul (fus_v y) (fus_v y))) (fus_E y) (- (B2R (fus_v x) / (B2R (fus_v y) * B2R (fus_v y)))) (201 / 100 * u) FQ (conj FEY BEY) PY BQ) as (FB & BC & NC & EB).
  { rewrite Rabs_Ropp. exact BQ'. } { lra. } { rewrite Rabs_Ropp. exact EQ. }
  replace (- B2R (fus_v x) / (B2R (fus_v y) * B2R (fus_v y))) with (- (B2R (fus_v x) / (B2R (fus_v y) * B2R (fus_v y)))) by (field; exact NZ).
  destruct (sum_two _ _ _ _ _ _ FA FB BA BC NA NC EA EB) as (F5 & P5 & E5). refine (conj F2 (conj F5 (conj P5 (conj _ _)))); [rewrite E2; apply rnd_err|]. apply Rle_trans with (1 := E5).
  set (a := 1 / B2R (fus_v y) * B2R (fus_E x) * (1 / B2R (fus_v y))) in *. set (c := - (B2R (fus_v x) / (B2R (fus_v y) * B2R (fus_v y))) * B2R (fus_E y) * - (B2R (fus_v x) / (B2R (fus_v y) * B2R (fus_v y)))) in *. clearbody a c.
  assert (S4 : 4 * bpow radix2 (-450) <= bpow radix2 (-448)) by (change 4 with (bpow radix2 2); rewrite <- bpow_plus; apply bpow_le; lia). assert (SM0 : 0 <= bpow radix2 (-450)) by apply bpow_ge_0. set (sm := bpow radix2 (-450)) in *. set (sl := bpow radix2 (-448)) in *. clearbody sm sl. rewrite UV. lra.
Qed.
(** operations with a certain number or vector on the right *)
Theorem float_certain : forall n (x : fuvec) (v : fvecn) (s : fuscal) (r : f64),
  fuv_E (fuv_addv x v) = fuv_E x /\ fuv_E (fuv_subv x v) = fuv_E x /\ fus_E (fus_addv s r) = fus_E s /\ fus_E (fus_subv s r) = fus_E s /\
  (fine_v n (fuv_v x) -> fine_v n v -> forall i, (i < n)%nat ->
    (let e := B2R (fuv_v x i) + B2R (v i) in is_finite (fuv_v (fuv_addv x v) i) = true /\ Rabs (B2R (fuv_v (fuv_addv x v) i) - e) <= u * Rabs e) /\
    (let e := B2R (fuv_v x i) - B2R (v i) in is_finite (fuv_v (fuv_subv x v) i) = true /\ Rabs (B2R (fuv_v (fuv_subv x v) i) - e) <= u * Rabs e)) /\
  (fine_us s -> fine_s r ->
    (let e := B2R (fus_v s) + B2R r in is_finite (fus_v (fus_addv s r)) = true /\ Rabs (B2R (fus_v (fus_addv s r)) - e) <= u * Rabs e) /\
    (let e := B2R (fus_v s) - B2R r in is_finite (fus_v (fus_subv s r)) = true /\ Rabs (B2R (fus_v (fus_subv s r)) - e) <= u * Rabs e) /\
    (let z := fus_mulr s r in let Z := us_mulr (exact_us s) (B2R r) in is_finite (fus_v z) = true /\ is_finite (fus_E z) = true /\ 0 <= B2R (fus_E z) /\
      Rabs (B2R (fus_v z) - us_v Z) <= u * Rabs (us_v Z) + eta /\ Rabs (B2R (fus_E z) - us_E Z) <= 201 / 100 * u * us_E Z + 2 * eta * (1 + Rabs (B2R r))) /\
    (DIVS <= Rabs (B2R r) -> exists Z, us_divv (exact_us s) (B2R r) = Some Z /\ let z := fus_divv s r in is_finite (fus_v z) = true /\ is_finite (fus_E z) = true /\ 0 <= B2R (fus_E z) /\
      Rabs (B2R (fus_v z) - us_v Z) <= u * Rabs (us_v Z) + eta /\ Rabs (B2R (fus_E z) - us_E Z) <= 61 / 10 * u * us_E Z + bpow radix2 (-450))).
Proof.
  intros n x v s r. pose proof BIGE_1000 as BB. pose proof u53_pos as UP.
  assert (AD : forall a b : f64, fine_s a -> fine_s b -> (let e := B2R a + B2R b in is_finite (fadd a b) = true /\ Rabs (B2R (fadd a b) - e) <= u * Rabs e) /\ (let e := B2R a - B2R b in is_finite (fsub a b) = true /\ Rabs (B2R (fsub a b) - e) <= u * Rabs e)).
  { intros a b [FA BA] [FB B2]. cbv zeta. split.
    - destruct (fine_add a b FA FB ltac:(lra) ltac:(lra)) as [E F]. split; [exact F|]. rewrite E. apply rnd_sum_rel; apply (generic_format_B2R 53 1024).
    - destruct (fsub_rnd a b 1001 FA FB ltac:(lia)) as [E F].
      { unfold Rminus. eapply Rle_trans; [apply Rabs_triang|]. rewrite Rabs_Ropp. replace (bpow radix2 1001) with (2 * bpow radix2 1000); [lra|]. change 2 with (bpow radix2 1). rewrite <- bpow_plus. reflexivity. }
      split; [exact F|]. rewrite E. apply (rnd_sum_rel (B2R a) (- B2R b)); [apply (generic_format_B2R 53 1024)|]. apply generic_format_opp, (generic_format_B2R 53 1024). }
  refine (conj eq_refl (conj eq_refl (conj eq_refl (conj eq_refl (conj _ _))))).
  - intros FX FV i I. apply (AD (fuv_v x i) (v i)); [exact (FX i I)|exact (FV i I)].
  - intros ((FS & BS) & (FE & BE) & P) (FR & BR). destruct (AD (fus_v s) r (conj FS BS) (conj FR BR)) as [A1 A2]. refine (conj A1 (conj A2 (conj _ _))).
    + cbv zeta. cbn [fus_v fus_E us_v us_E fus_mulr fus_dotv us_mulr us_dotv exact_us]. destruct (mul_fine (fus_v s) r 200 200 ltac:(lia) ltac:(lia) FS FR BS BR) as (E1 & F1 & _).
      destruct (square_err _ _ r (fus_E s) FR FE eq_refl eq_refl (BIGE_400 _ BR) BE P) as (FA & BA & EA). refine (conj F1 (conj FA (conj (proj1 BA) (conj _ EA)))). rewrite E1. apply rnd_err.
    + intros L. assert (L0 : 0 < DIVS) by apply bpow_gt_0. assert (NZ : B2R r <> 0) by (intros H; rewrite H, Rabs_R0 in L; lra). unfold us_divv. cbn [us_v us_E exact_us]. destruct (Req_EM_T (B2R r) 0) as [H|_]; [contradiction|]. eexists. split; [reflexivity|].
      cbv zeta. cbn [us_v us_E fus_v fus_E fus_divv].
      assert (DB : Rabs (B2R (fus_v s) / B2R r) <= bpow radix2 300).
      { unfold Rdiv. rewrite Rabs_mult, Rabs_inv. change 300%Z with (200 + 100)%Z. rewrite bpow_plus. apply Rmult_le_compat; [apply Rabs_pos|apply Rlt_le, Rinv_0_lt_compat; lra|exact BS|]. replace (bpow radix2 100) with (/ DIVS) by (unfold DIVS; rewrite <- bpow_opp; reflexivity). apply Rinv_le; [exact L0|exact L]. }
      destruct (fdiv_rnd (fus_v s) r 300 FS NZ ltac:(lia) DB) as [E2 F2]. destruct (inverse_near r FR L BR) as (FI & BI & BI' & EI).
      assert (B4 : forall w, Rabs w <= bpow radix2 100 -> Rabs w <= bpow radix2 400) by (intros w H; apply Rle_trans with (1 := H); apply bpow_le; lia).
      destruct (term_near (fdiv (fofZ 1) r) (fus_E s) (1 / B2R r) u FI (conj FE BE) P (B4 _ BI) (B4 _ BI') ltac:(lra) EI) as (FA & BA & NA & EA).
      refine (conj F2 (conj FA (conj (proj1 BA) (conj _ EA)))). rewrite E2. apply rnd_err.
Qed.
(** hypotheses met *)
Example float_unc_hypotheses : dim_ok 2 /\ orders_ok 2 o2 /\ fine_m 2 M_refuted /\ fine_m 2 E_refuted /\ covn 2 (mv E_refuted) /\ variances 2 E_refuted /\ fine_us (FUS (fofZ 3) (fofZ 2)).
Proof.
  split; [unfold dim_ok; cbn; lra|]. split; [exact o2_ok|].
  split; [apply fine_mat2; [vm_compute; reflexivity|..]; vm_compute; apply Rabs_le; lra|].
  split; [apply fine_mat2; [vm_compute; reflexivity|..]; vm_compute; apply Rabs_le; lra|].
  split; [apply (cov_rank_one 2 3); vm_compute; lra|].
  split. { intros i I. destruct i as [|[|i]]; [| |lia]; vm_compute; lra. }
  assert (H : 100 <= BIGE) by (apply Rle_trans with (bpow radix2 10); [cbn; lra|apply bpow_le; lia]).
  split; [|split]; [split; [vm_compute; reflexivity|apply Rle_trans with (2 := H); vm_compute; apply Rabs_le; lra]| |vm_compute; lra]. split; [vm_compute; reflexivity|apply Rle_trans with (2 := H); vm_compute; apply Rabs_le; lra].
Qed.
