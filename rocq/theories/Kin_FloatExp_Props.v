(** C138: rotation vectors to quaternions, and the integration of rotation vectors, in binary64. *)
From Coq Require Import Reals Psatz List Permutation.
From Verif Require Import Float64 Nsec_Proofs TimerTable_Num Round_Proofs Kin_Angle_Props Kin_Float_Model Kin_FloatExp_Model.
From Verif Require Import LinAlg Kin_Quat_Props Kin_Trans_Model Kin_Trans_Props Kin_Float_Geom Kin_Float_Num Kin_Float_Props Kin_Quat_Model.
Import ListNotations.
Open Scope R_scope.

(** ** what is assumed of the C library: sin and cos are within two roundings of the exact ones; Eigen adds every square once *)
Definition accurate (f : f64 -> f64) (g : R -> R) : Prop := forall x, is_finite x = true -> is_finite (f x) = true /\ Rabs (B2R (f x) - g (B2R x)) <= 2 * u * Rabs (g (B2R x)) + eta.
Definition lib_ok (L : lib) : Prop := accurate (m_sin L) sin /\ accurate (m_cos L) cos /\ Permutation (leaves (order3 L)) [0; 1; 2]%nat.

(** ** the norm *)
Lemma bpow_split a b : bpow radix2 (a + b) = bpow radix2 a * bpow radix2 b. Proof. apply bpow_plus. Qed.
Lemma sqrt0_val (z : f64) : is_finite z = true -> B2R z = 0 -> B2R (fsqrt z) = 0 /\ is_finite (fsqrt z) = true.
Proof.
  intros F Z. pose proof (Bsqrt_correct 53 1024 _ _ mode_NE z) as (Q1 & Q2 & _). split.
  - unfold fsqrt. rewrite Q1, Z, sqrt_0. apply (round_0 radix2 _ _).
  - unfold fsqrt. rewrite Q2. destruct z as [b|b| |b m e p]; try discriminate F; auto. destruct b; auto. exfalso. cbn [B2R] in Z.
    assert (F2R (Float radix2 (cond_Zopp true (Z.pos m)) e) < 0) by (apply F2R_lt_0; reflexivity). lra.
Qed.
Definition tiny400 := bpow radix2 (-400).
Lemma fnorm3_err L a : lib_ok L -> finite3 a -> norm3 (val3 a) <= bpow radix2 290 ->
  let th := fnorm3 L a in
  is_finite th = true /\ 0 <= B2R th /\
  (tiny400 <= norm3 (val3 a) -> Rabs (B2R th - norm3 (val3 a)) <= 42 / 10 * u * norm3 (val3 a)) /\
  (norm3 (val3 a) < tiny400 -> B2R th <= bpow radix2 (-300)).
Proof.
  intros (_ & _ & OK) (A0 & A1 & A2) NU th. set (N := norm3 (val3 a)) in *. pose proof (norm3_pos (val3 a) : 0 <= N) as N0.
  pose proof u_val as UV. pose proof u53_pos as UP. pose proof eta_pos as EP. pose proof eta_small as ES.
  assert (NB : N * N <= BIG).
  { apply Rle_trans with (bpow radix2 290 * bpow radix2 290); [apply Rmult_le_compat; lra|]. rewrite <- bpow_plus. apply bpow_le. lia. }
  set (x := fun i => fmul (fat3 a i) (fat3 a i)). set (b := fun i => B2R (fat3 a i) * B2R (fat3 a i)).
  assert (B0 : forall i, 0 <= b i) by (intros i; unfold b; nra).
  assert (FI : forall i, is_finite (fat3 a i) = true) by (intros [|[|i]]; assumption).
  assert (BS : Rsum (map b (leaves (order3 L))) = N * N).
  { rewrite (Rsum_perm _ _ (Permutation_map b OK)). unfold N. rewrite norm3_sq. unfold dot3, val3, b. cbn [map Rsum fold_right fat3 vx vy vz]. ring. }
  assert (BI : forall i, b i <= N * N).
  { intros i. unfold N. rewrite norm3_sq. unfold dot3, val3, b. cbn [vx vy vz]. pose proof (B0 0%nat). pose proof (B0 1%nat). pose proof (B0 2%nat). unfold b in *. cbn [fat3] in *.
    destruct i as [|[|i]]; cbn [fat3]; lra. }
  assert (XB : forall i, nr (x i) (b i) (b i) (101 / 100) 2).
  { intros i. assert (AA : Rabs (B2R (fat3 a i)) * Rabs (B2R (fat3 a i)) = b i) by (unfold b, Rabs; destruct (Rcase_abs _); ring).
    unfold x. pose proof (nr_mul_exact (fat3 a i) (fat3 a i) (FI i) (FI i)) as NM. rewrite AA in NM. apply NM. specialize (BI i). lra. }
  assert (LN : INR (length (leaves (order3 L))) = 3) by (rewrite (Permutation_length OK); cbn; lra).
  destruct (tree_nr x b (order3 L) B0 XB) as [(FZ & _ & EZ) _]; [lra|lra|]. rewrite LN, BS in EZ.
  assert (TH : th = fsqrt (fsum_tree x (order3 L))) by reflexivity. clearbody th. subst th. set (z := fsum_tree x (order3 L)) in *.
  assert (NN : 0 <= N * N) by nra. assert (UN : 0 <= u * (N * N)) by (apply Rmult_le_pos; lra).
  assert (Zge : 0 <= B2R z).
  { assert (G : forall t, (forall i, In i (leaves t) -> True) -> INR (length (leaves t)) <= 8 -> Rsum (map b (leaves t)) <= BIG -> 0 <= B2R (fsum_tree x t)).
    { induction t as [i|l IHl r IHr]; intros _ LT SB.
      - cbn [fsum_tree]. unfold x. destruct (fmul_rnd (fat3 a i) (fat3 a i) 700 (FI i) (FI i) ltac:(lia)) as [V _].
        { rewrite Rabs_pos_eq by (apply Rle_0_sqr). apply Rle_trans with (1 := BI i). apply Rle_trans with (1 := NB). unfold BIG. apply bpow_le. lia. }
        rewrite V, <- rnd_0. apply rnd_le. apply Rle_0_sqr.
      - cbn [leaves fsum_tree] in *. rewrite app_length, plus_INR in LT. rewrite map_app, Rsum_app in SB. pose proof (leaves_one l). pose proof (leaves_one r).
        assert (PL : 0 <= Rsum (map b (leaves l))) by (apply Rsum_nonneg, Forall_map, Forall_forall; auto).
        assert (PR : 0 <= Rsum (map b (leaves r))) by (apply Rsum_nonneg, Forall_map, Forall_forall; auto).
        destruct (tree_nr x b l B0 XB) as [NL _]; [lra|lra|]. destruct (tree_nr x b r B0 XB) as [NR _]; [lra|lra|].
        specialize (IHl ltac:(auto) ltac:(lra) ltac:(lra)). specialize (IHr ltac:(auto) ltac:(lra) ltac:(lra)).
        pose proof (nr_value _ _ _ _ _ NL ltac:(lra) ltac:(lra)) as VL. pose proof (nr_value _ _ _ _ _ NR ltac:(lra) ltac:(lra)) as VR.
        destruct (fadd_rnd (fsum_tree x l) (fsum_tree x r) 700 (proj1 NL) (proj1 NR) ltac:(lia)) as [V _].
        { apply Rle_trans with (1 := Rabs_triang _ _). pose proof BIG_room. pose proof BIG_eta. lra. }
        rewrite V, <- rnd_0. apply rnd_le. lra. }
    apply G; auto; lra. }
  assert (FS : is_finite (fsqrt z) = true /\ B2R (fsqrt z) = rnd (sqrt (B2R z))).
  { destruct (Req_dec (B2R z) 0) as [E|E].
    - destruct (sqrt0_val z FZ E) as [V F]. rewrite V, E, sqrt_0, rnd_0. auto.
    - destruct (fsqrt_rnd z FZ ltac:(lra)). auto. }
  destruct FS as [FS VS]. split; [exact FS|]. split; [rewrite VS, <- rnd_0; apply rnd_le; apply sqrt_pos|]. split.
  - intros NL. assert (NP : 0 < N) by (pose proof (bpow_gt_0 radix2 (-400)); unfold tiny400 in NL; lra).
    assert (NS : bpow radix2 (-800) <= N * N).
    { apply Rle_trans with (bpow radix2 (-400) * bpow radix2 (-400)); [rewrite <- bpow_plus; apply bpow_le; lia|]. pose proof (bpow_gt_0 radix2 (-400)). unfold tiny400 in NL. apply Rmult_le_compat; lra. }
    assert (EN : 10 * eta <= 1 / 100 * u * (N * N)).
    { apply Rle_trans with (1 / 100 * u * bpow radix2 (-800)); [|apply Rmult_le_compat_l; lra].
      assert (bpow radix2 (-1075) <= bpow radix2 (-20) * (u * bpow radix2 (-800))) by (rewrite <- !bpow_plus; apply bpow_le; lia).
      replace (bpow radix2 (-20)) with (/ 1048576) in * by (cbn; lra). pose proof (Rmult_lt_0_compat _ _ UP (bpow_gt_0 radix2 (-800))). lra. }
    assert (EZ' : Rabs (B2R z - N * N) <= 31 / 10 * u * (N * N)) by lra.
    assert (ZB : N * N * (99 / 100) <= B2R z <= N * N * (101 / 100)).
    { apply Rabs_le_inv in EZ'. assert (31 / 10 * u * (N * N) <= 1 / 100 * (N * N)) by (apply Rmult_le_compat_r; [nra|rewrite UV; lra]). lra. }
    assert (RL : 9 / 10 * N <= sqrt (B2R z)).
    { rewrite <- (sqrt_square (9 / 10 * N)) by lra. apply sqrt_le_1_alt. lra. }
    assert (RE : Rabs (sqrt (B2R z) - N) <= 31 / 10 * u * N).
    { pose proof (sqrt_sqrt (B2R z) ltac:(lra)) as SS. set (r := sqrt (B2R z)) in *.
      apply Rmult_le_reg_r with (r + N); [lra|]. rewrite <- (Rabs_pos_eq (r + N)) at 1 by lra. rewrite <- Rabs_mult.
      replace ((r - N) * (r + N)) with (B2R z - N * N) by (rewrite <- SS; ring). apply Rle_trans with (1 := EZ').
      replace (31 / 10 * u * N * (r + N)) with (31 / 10 * u * (N * N) + 31 / 10 * u * N * r) by ring.
      assert (0 <= 31 / 10 * u * N * r) by (repeat apply Rmult_le_pos; lra). lra. }
    assert (RU : sqrt (B2R z) <= 11 / 10 * N) by (apply Rabs_le_inv in RE; assert (31 / 10 * u * N <= 1 / 10 * N) by (apply Rmult_le_compat_r; [lra|rewrite UV; lra]); lra).
    rewrite VS. pose proof (rnd_rel (sqrt (B2R z))) as R. rewrite (Rabs_pos_eq (sqrt (B2R z))) in R by lra.
    assert (RB : bpow radix2 (-1022) <= sqrt (B2R z)).
    { apply Rle_trans with (2 := RL). unfold tiny400 in NL. assert (2 * bpow radix2 (-1022) <= bpow radix2 (-400)).
      { change 2 with (bpow radix2 1). rewrite <- bpow_plus. apply bpow_le. lia. } pose proof (bpow_gt_0 radix2 (-1022)). lra. }
    specialize (R RB). assert (u * sqrt (B2R z) <= u * (11 / 10 * N)) by (apply Rmult_le_compat_l; lra).
    replace (rnd (sqrt (B2R z)) - N) with ((rnd (sqrt (B2R z)) - sqrt (B2R z)) + (sqrt (B2R z) - N)) by ring. apply Rle_trans with (1 := Rabs_triang _ _).
    assert (0 <= u * N) by (apply Rmult_le_pos; lra). lra.
  - intros NL. rewrite VS. assert (ZU : B2R z <= bpow radix2 (-600)).
    { apply Rabs_le_inv in EZ. assert (N * N <= bpow radix2 (-800)). { replace (bpow radix2 (-800)) with (bpow radix2 (-400) * bpow radix2 (-400)) by (rewrite <- bpow_plus; reflexivity). unfold tiny400 in NL. apply Rmult_le_compat; lra. }
      assert (u * (N * N) <= 1 * (N * N)) by (apply Rmult_le_compat_r; lra).
      assert (H6 : 1024 * bpow radix2 (-800) <= bpow radix2 (-600)) by (change 1024 with (bpow radix2 10); rewrite <- bpow_plus; apply bpow_le; lia).
      assert (H7 : eta <= bpow radix2 (-800)) by (apply bpow_le; lia). lra. }
    assert (SU : sqrt (B2R z) <= bpow radix2 (-300)).
    { rewrite <- (sqrt_square (bpow radix2 (-300))) by apply bpow_ge_0. apply sqrt_le_1_alt. rewrite <- bpow_plus. exact ZU. }
    assert (RB : rnd (sqrt (B2R z)) <= rnd (bpow radix2 (-300))) by now apply rnd_le.
    rewrite (rnd_id (bpow radix2 (-300))) in RB; [exact RB|]. apply generic_format_bpow. unfold SpecFloat.fexp, SpecFloat.emin. lia.
Qed.

(** ** from a rotation vector to a quaternion *)
Lemma norm3_as4 x y z : norm4 (V4 x y z 0) = norm3 (V3 x y z).
Proof. unfold norm4, norm3. f_equal. vring. Qed.
Lemma norm4_parts q : norm4 q <= norm3 (head3 q) + Rabs (e3 q).
Proof.
  destruct q as [x y z w]. assert (E : V4 x y z w = add4 (V4 x y z 0) (V4 0 0 0 w)) by vring. rewrite E at 1. cbn [head3 e3].
  apply Rle_trans with (1 := norm4_triangle _ _). rewrite norm3_as4. apply Rplus_le_compat; [right; reflexivity|].
  unfold norm4. replace (dot4 (V4 0 0 0 w) (V4 0 0 0 w)) with (Rsqr w) by (unfold Rsqr; vring). rewrite sqrt_Rsqr_abs. lra.
Qed.
Definition fscaled (a : F3) (na : f64) : F3 := mkF3 (fmul (fx a) na) (fmul (fy a) na) (fmul (fz a) na).
Lemma scaled_err a na S e : finite3 a -> is_finite na = true -> 0 < norm3 (val3 a) -> Rabs (B2R na * norm3 (val3 a) - S) <= e -> Rabs (B2R na * norm3 (val3 a)) <= 2 ->
  finite3 (fscaled a na) /\ norm3 (sub3 (val3 (fscaled a na)) (scale3 (S / norm3 (val3 a)) (val3 a))) <= e + u * Rabs (B2R na * norm3 (val3 a)) + 2 * eta.
Proof.
  intros (A0 & A1 & A2) FN N0 E K2. pose proof (comp3 (val3 a)) as (C0 & C1 & C2). cbn [val3 vx vy vz] in C0, C1, C2. set (n := norm3 (val3 a)) in *.
  set (k := B2R na * n) in *. pose proof u53_pos as UP. pose proof eta_pos as EP. pose proof (Rabs_pos k) as KP. pose proof (Rabs_pos (k - S)) as E0.
  assert (NV : B2R na = k / n) by (unfold k; field; lra).
  assert (C : forall c : f64, is_finite c = true -> Rabs (B2R c) <= n -> is_finite (fmul c na) = true /\
     Rabs (B2R (fmul c na) - S / n * B2R c) <= (e + u * Rabs k) * Rabs (/ n * B2R c) + eta).
  { intros c F B. assert (W : Rabs (/ n * B2R c) <= 1).
    { rewrite Rabs_mult, Rabs_inv, (Rabs_pos_eq n) by lra. apply Rmult_le_reg_l with n; [lra|]. rewrite <- Rmult_assoc, Rinv_r by lra. lra. }
    assert (P : B2R c * B2R na = / n * B2R c * k) by (rewrite NV; field; lra).
    assert (PB : Rabs (B2R c * B2R na) <= bpow radix2 1).
    { rewrite P, Rabs_mult. change (bpow radix2 1) with 2. apply Rle_trans with (1 * 2); [|lra]. apply Rmult_le_compat; auto using Rabs_pos. }
    destruct (fmul_rnd c na 1 F FN ltac:(lia) PB) as [V FV]. split; [exact FV|]. rewrite V. pose proof (rnd_err (B2R c * B2R na)) as R. rewrite P in *. rewrite (Rabs_mult (/ n * B2R c) k) in R.
    set (w := / n * B2R c) in *. replace (S / n * B2R c) with (w * S) by (unfold w; field; lra).
    replace (rnd (w * k) - w * S) with ((rnd (w * k) - w * k) + w * (k - S)) by ring. apply Rle_trans with (1 := Rabs_triang _ _). rewrite (Rabs_mult w (k - S)).
    assert (Rabs w * Rabs (k - S) <= Rabs w * e) by (apply Rmult_le_compat_l; [apply Rabs_pos|exact E]).
    replace ((e + u * Rabs k) * Rabs w) with (Rabs w * e + u * (Rabs w * Rabs k)) by ring. lra. }
  destruct (C _ A0 C0) as [F0 E1]. destruct (C _ A1 C1) as [F1 E2]. destruct (C _ A2 C2) as [F2 E3]. split; [repeat split; assumption|].
  set (b := V4 (/ n * B2R (fx a)) (/ n * B2R (fy a)) (/ n * B2R (fz a)) 0).
  assert (NB : norm4 b = 1).
  { unfold b. rewrite norm3_as4. replace (V3 _ _ _) with (scale3 (/ n) (val3 a)) by reflexivity. rewrite norm3_scale_abs, Rabs_inv, (Rabs_pos_eq n) by lra. fold n. field. lra. }
  assert (UK : 0 <= u * Rabs k) by (apply Rmult_le_pos; lra).
  pose proof (norm4_rel (V4 (B2R (fmul (fx a) na) - S / n * B2R (fx a)) (B2R (fmul (fy a) na) - S / n * B2R (fy a)) (B2R (fmul (fz a) na) - S / n * B2R (fz a)) 0) b (e + u * Rabs k) eta ltac:(lra) ltac:(lra) E1 E2 E3) as G.
  rewrite NB, norm3_as4 in G. cbn [e3 b] in G. rewrite Rabs_R0 in G. specialize (G ltac:(unfold b; cbn [e3]; rewrite ?Rabs_R0, Rmult_0_r; lra)).
  apply Rle_trans with (e + u * Rabs k + 2 * eta); [|lra]. rewrite Rmult_1_r in G. exact G.
Qed.
Lemma eta_smaller : eta <= u / 1000000000.
Proof.
  apply Rle_trans with (bpow radix2 (-100)); [apply bpow_le; lia|]. rewrite u_val. replace (bpow radix2 (-100)) with (/ 1267650600228229401496703205376) by (cbn; lra). lra.
Qed.
Lemma eps4_val : B2R feps4 = / 8192 /\ is_finite feps4 = true.
Proof. split; [|vm_compute; reflexivity]. vm_compute. lra. Qed.
Lemma f48_val : Rabs (B2R f48 - 1 / 48) <= u / 8 /\ is_finite f48 = true.
Proof.
  split; [|vm_compute; reflexivity]. assert (V : B2R f48 = 6004799503160661 / 288230376151711744) by (vm_compute; lra). rewrite V, u_val. apply Rabs_le. lra.
Qed.
Lemma half_arg L th : lib_ok L -> is_finite th = true -> 0 <= B2R th <= bpow radix2 300 -> 
  let h := fmul th fhalf in is_finite h = true /\ Rabs (B2R h - B2R th / 2) <= u * (B2R th / 2) + eta /\
  (let c := m_cos L h in is_finite c = true /\ Rabs (B2R c - cos (B2R h)) <= 201 / 100 * u) /\
  (let s := m_sin L h in is_finite s = true /\ Rabs (B2R s - sin (B2R h)) <= 2 * u * Rabs (sin (B2R h)) + eta).
Proof.
  intros (SO & CO & _) F [T0 T1] h. destruct fhalf_correct as [HV HF]. pose proof u53_pos as UP. pose proof eta_small as ES. pose proof u_val as UV.
  assert (P : B2R th * B2R fhalf = B2R th / 2) by (rewrite HV; field).
  destruct (fmul_rnd th fhalf 300 F HF ltac:(lia)) as [V FV]; [rewrite P, Rabs_pos_eq by lra; lra|]. rewrite P in V.
  pose proof (rnd_err (B2R th / 2)) as R. rewrite (Rabs_pos_eq (B2R th / 2)) in R by lra. split; [exact FV|]. split; [unfold h; rewrite V; exact R|].
  destruct (CO h FV) as [FC EC]. destruct (SO h FV) as [FS EN]. split; [|now split]. split; [exact FC|].
  assert (C1 : Rabs (cos (B2R h)) <= 1) by (apply Rabs_le, COS_bound). pose proof (Rabs_pos (cos (B2R h))).
  assert (2 * u * Rabs (cos (B2R h)) <= 2 * u * 1) by (apply Rmult_le_compat_l; lra). lra.
Qed.
Definition small_error (n : R) : R := if Rlt_dec n (/ 8191) then n * n * n / 24 else 0.
Lemma norm_of_sq x e : 0 <= x -> Rabs (x * x - 1) <= e -> Rabs (x - 1) <= e.
Proof.
  intros X H. apply Rle_trans with (2 := H). replace (x * x - 1) with ((x - 1) * (x + 1)) by ring. rewrite Rabs_mult, (Rabs_pos_eq (x + 1)) by lra.
  rewrite <- (Rmult_1_r (Rabs (x - 1))) at 1. apply Rmult_le_compat_l; [apply Rabs_pos|lra].
Qed.

(** both branches, for a rotation vector other than zero *)
Lemma exp_small L a : lib_ok L -> finite3 a -> 0 < norm3 (val3 a) <= bpow radix2 290 -> fltb (fnorm3 L a) feps4 = true ->
  let q := faxisAngle2quat L a in let n := norm3 (val3 a) in
  let Q := V4 (sin (n / 2) / n * vx (val3 a)) (sin (n / 2) / n * vy (val3 a)) (sin (n / 2) / n * vz (val3 a)) (cos (n / 2)) in
  finite4 q /\ n < / 8191 /\ dist4 (val4 q) Q <= n * n * n / 24 + 4 * u /\ Rabs (norm4 (val4 q) - 1) <= 5 * u.
Proof.
  intros OK FA [N0 NU] LT q n Q. destruct (fnorm3_err L a OK FA NU) as (FT & T0 & TN & TT). fold n in NU, N0, TN, TT.
  set (th := fnorm3 L a) in *. destruct eps4_val as [EV EF]. destruct f48_val as [V48 F48]. destruct fhalf_correct as [HV HF].
  pose proof u53_pos as UP. pose proof u_val as UV. pose proof eta_pos as EP. pose proof eta_smaller as ES.
  apply (proj1 (ltb_val _ _ FT EF)) in LT as T1. rewrite EV in T1. set (T := B2R th) in *.
  assert (B3 : bpow radix2 (-300) <= u / 1000000000).
  { apply Rle_trans with (bpow radix2 (-100)); [apply bpow_le; lia|]. rewrite UV. replace (bpow radix2 (-100)) with (/ 1267650600228229401496703205376) by (cbn; lra). lra. }
  assert (B4 : tiny400 <= bpow radix2 (-300)) by (apply bpow_le; lia).
  (* T and n are close *)
  assert (TD : Rabs (T - n) <= 42 / 10 * u * n + u / 1000000000 /\ n < / 8191 /\ n * (T * T) <= n * (n * n) + n * u / 1000000).
  { destruct (Rle_or_lt tiny400 n) as [L1|L1].
    - specialize (TN L1). assert (NT : n < / 8191).
      { apply Rabs_le_inv in TN. assert (42 / 10 * u * n <= 1 / 1000000 * n) by (apply Rmult_le_compat_r; [lra|rewrite UV; lra]). lra. }
      split; [lra|]. split; [exact NT|]. replace (n * u / 1000000) with (n * (u / 1000000)) by field. rewrite <- Rmult_plus_distr_l. apply Rmult_le_compat_l; [lra|].
      apply Rabs_le_inv in TN. assert (T <= n + 42 / 10 * u * n) by lra. assert (0 <= u * n) by (apply Rmult_le_pos; lra).
      apply Rle_trans with ((n + 42 / 10 * u * n) * (n + 42 / 10 * u * n)); [apply Rmult_le_compat; lra|].
      replace ((n + 42 / 10 * u * n) * (n + 42 / 10 * u * n)) with (n * n + u * (n * n * (84 / 10 + 1764 / 100 * u))) by field.
      assert (NN : n * n <= / 8191 * / 8191) by (apply Rmult_le_compat; lra).
      assert (n * n * (84 / 10 + 1764 / 100 * u) <= / 8191 * / 8191 * 9) by (apply Rmult_le_compat; try lra; nra).
      assert (u * (n * n * (84 / 10 + 1764 / 100 * u)) <= u * (/ 1000000)) by (apply Rmult_le_compat_l; lra). lra.
    - specialize (TT L1). assert (NT : n < / 8191) by lra. split; [|split; [exact NT|]].
      + assert (0 <= 42 / 10 * u * n) by (repeat apply Rmult_le_pos; lra). apply Rabs_le. lra.
      + assert (T * T <= u / 1000000) by (apply Rle_trans with (1 * (u / 1000000)); [apply Rmult_le_compat; lra|lra]).
        assert (n * (T * T) <= n * (u / 1000000)) by (apply Rmult_le_compat_l; lra). assert (0 <= n * (n * n)) by (repeat apply Rmult_le_pos; lra). lra. }
  destruct TD as (TD & NT & TTn).
  assert (N2 : n * n <= / 8191 * / 8191) by (apply Rmult_le_compat; lra). assert (N3 : 0 <= n * n * n) by (repeat apply Rmult_le_pos; lra).
  assert (T2 : 0 <= T * T <= / 8192 * / 8192) by (split; [nra|apply Rmult_le_compat; lra]).
  (* na *)
  assert (ONE : 1 <= bpow radix2 3) by (change (bpow radix2 3) with 8; lra).
  destruct (fmul_rnd th th 3 FT FT ltac:(lia)) as [V1 F1]; [fold T; rewrite Rabs_pos_eq by lra; lra|]. fold T in V1.
  pose proof (rnd_err (T * T)) as R1. rewrite <- V1, (Rabs_pos_eq (T * T)) in R1 by lra. set (p1 := fmul th th) in *.
  assert (UT2 : u * (T * T) <= u * (/ 8192 * / 8192)) by (apply Rmult_le_compat_l; lra).
  assert (P1 : Rabs (B2R p1 - T * T) <= u / 1000000) by lra.
  assert (P1B : Rabs (B2R p1) <= 1 / 1000000) by (apply Rabs_le_inv in P1; apply Rabs_le; lra).
  assert (P2' : Rabs (B2R p1 * B2R f48 - T * T / 48) <= u / 1000000).
  { replace (B2R p1 * B2R f48 - T * T / 48) with (B2R p1 * (B2R f48 - 1 / 48) + (B2R p1 - T * T) * (1 / 48)) by field.
    apply Rle_trans with (1 := Rabs_triang _ _). rewrite !Rabs_mult, (Rabs_pos_eq (1 / 48)) by lra.
    assert (Rabs (B2R p1) * Rabs (B2R f48 - 1 / 48) <= 1 / 1000000 * (u / 8)) by (apply Rmult_le_compat; auto using Rabs_pos). lra. }
  assert (P2A : Rabs (B2R p1 * B2R f48) <= 1 / 1000000) by (apply Rabs_le_inv in P2'; apply Rabs_le; lra).
  destruct (fmul_rnd p1 f48 3 F1 F48 ltac:(lia)) as [V2 F2]; [lra|]. pose proof (rnd_err (B2R p1 * B2R f48)) as R2. rewrite <- V2 in R2. set (p2 := fmul p1 f48) in *.
  assert (u * Rabs (B2R p1 * B2R f48) <= u * (1 / 1000000)) by (apply Rmult_le_compat_l; lra).
  assert (P2 : Rabs (B2R p2 - T * T / 48) <= u / 100000).
  { replace (B2R p2 - T * T / 48) with ((B2R p2 - B2R p1 * B2R f48) + (B2R p1 * B2R f48 - T * T / 48)) by ring. apply Rle_trans with (1 := Rabs_triang _ _). lra. }
  assert (P3A : Rabs (1 / 2 + B2R p2) <= 51 / 100) by (apply Rabs_le_inv in P2; apply Rabs_le; lra).
  destruct (fadd_rnd fhalf p2 3 HF F2 ltac:(lia)) as [V3 F3]; [rewrite HV; lra|]. rewrite HV in V3. pose proof (rnd_err (1 / 2 + B2R p2)) as R3. rewrite <- V3 in R3.
  assert (u * Rabs (1 / 2 + B2R p2) <= u * (51 / 100)) by (apply Rmult_le_compat_l; lra).
  set (na := fadd fhalf p2) in *.
  assert (NA : Rabs (B2R na - (1 / 2 + T * T / 48)) <= 52 / 100 * u).
  { replace (B2R na - (1 / 2 + T * T / 48)) with ((B2R na - (1 / 2 + B2R p2)) + (B2R p2 - T * T / 48)) by ring. apply Rle_trans with (1 := Rabs_triang _ _). lra. }
  (* the scale *)
  destruct (sin_cubic (n / 2)) as (SL & SU); [lra|]. set (s := sin (n / 2)) in *.
  assert (KS : Rabs (B2R na * n - s) <= n * n * n / 24 + 53 / 100 * u * n).
  { replace (B2R na * n - s) with ((B2R na - (1 / 2 + T * T / 48)) * n + (n / 2 - s) + n * (T * T) / 48) by field.
    apply Rle_trans with (1 := Rabs_triang _ _). apply Rle_trans with (Rabs ((B2R na - (1 / 2 + T * T / 48)) * n) + Rabs (n / 2 - s) + Rabs (n * (T * T) / 48)).
    { apply Rplus_le_compat_r, Rabs_triang. }
    rewrite Rabs_mult, (Rabs_pos_eq n) by lra. assert (Rabs (B2R na - (1 / 2 + T * T / 48)) * n <= 52 / 100 * u * n) by (apply Rmult_le_compat_r; lra).
    rewrite (Rabs_pos_eq (n / 2 - s)) by lra. assert (0 <= n * (T * T)) by (apply Rmult_le_pos; lra). rewrite (Rabs_pos_eq (n * (T * T) / 48)) by lra. assert (0 <= n * u) by (apply Rmult_le_pos; lra). lra. }
  assert (N34 : n * n * n / 24 <= n / 1000000).
  { replace (n * n * n / 24) with (n * (n * n / 24)) by field. replace (n / 1000000) with (n * (1 / 1000000)) by field. apply Rmult_le_compat_l; lra. }
  assert (un : 0 <= u * n <= n / 1000000) by (split; [apply Rmult_le_pos; lra|]; replace (n / 1000000) with (/ 1000000 * n) by field; apply Rmult_le_compat_r; lra).
  assert (KB : Rabs (B2R na * n) <= n) by (apply Rabs_le_inv in KS; assert (0 <= s) by nra; apply Rabs_le; lra).
  destruct (scaled_err a na s _ FA F3 N0 KS ltac:(fold n; lra)) as [FV EVV]. fold n in EVV.
  (* the cosine *)
  destruct (half_arg L th OK FT) as (FH & HE & (FC & CE) & _).
  { fold T. split; [lra|]. apply Rle_trans with 1; [lra|]. change 1 with (bpow radix2 0). apply bpow_le. lia. }
  fold T in HE. set (h := fmul th fhalf) in *.
  assert (HN : Rabs (B2R h - n / 2) <= u / 100).
  { replace (B2R h - n / 2) with ((B2R h - T / 2) + (T - n) * (1 / 2)) by field. apply Rle_trans with (1 := Rabs_triang _ _). rewrite (Rabs_mult (T - n)), (Rabs_pos_eq (1 / 2)) by lra.
    assert (u * (T / 2) <= u * (/ 8192)) by (apply Rmult_le_compat_l; lra). assert (u * n <= u * (/ 8191)) by (apply Rmult_le_compat_l; lra). lra. }
  pose proof (cos_dist (B2R h) (n / 2)) as CD.
  assert (EC : Rabs (B2R (m_cos L h) - cos (n / 2)) <= 203 / 100 * u).
  { replace (B2R (m_cos L h) - cos (n / 2)) with ((B2R (m_cos L h) - cos (B2R h)) + (cos (B2R h) - cos (n / 2))) by ring. apply Rle_trans with (1 := Rabs_triang _ _). lra. }
  assert (EQ : q = mkF4 (fx (fscaled a na)) (fy (fscaled a na)) (fz (fscaled a na)) (m_cos L h)).
  { unfold q, faxisAngle2quat. fold th. rewrite LT. reflexivity. }
  clearbody q. subst q. destruct FV as (G0 & G1 & G2). split; [repeat split; assumption|]. split; [exact NT|].
  set (v := fscaled a na) in *. set (E := sub4 (val4 (mkF4 (fx v) (fy v) (fz v) (m_cos L h))) Q).
  assert (EVE : norm3 (head3 E) <= n * n * n / 24 + 53 / 100 * u * n + u * Rabs (B2R na * n) + 2 * eta) by exact EVV.
  assert (UKN : u * Rabs (B2R na * n) <= u * n) by (apply Rmult_le_compat_l; lra).
  assert (ECE : Rabs (e3 E) <= 203 / 100 * u) by exact EC.
  assert (UN1 : u * n <= u * (/ 8191)) by (apply Rmult_le_compat_l; lra).
  pose proof (norm4_parts E) as NE. split; [unfold dist4; fold E; lra|].
  (* the length *)
  apply norm_of_sq; [apply norm4_pos|]. rewrite norm4_sq.
  assert (QU : dot4 Q Q = 1).
  { unfold Q, dot4. cbn [e0 e1 e2 e3]. replace (_ + _ + _ + _) with (s / n * (s / n) * dot3 (val3 a) (val3 a) + cos (n / 2) * cos (n / 2)) by (unfold s, dot3; ring).
    rewrite <- norm3_sq. fold n. replace (s / n * (s / n) * (n * n)) with (s * s) by (field; lra). apply sin2_cos2. }
  assert (SPL : dot4 (val4 (mkF4 (fx v) (fy v) (fz v) (m_cos L h))) (val4 (mkF4 (fx v) (fy v) (fz v) (m_cos L h))) - 1 = 2 * (dot3 (head3 Q) (head3 E) + e3 Q * e3 E) + dot4 E E).
  { rewrite <- QU. unfold E. generalize (val4 (mkF4 (fx v) (fy v) (fz v) (m_cos L h))). intros y. clearbody Q. vring. }
  rewrite SPL. pose proof (cauchy3 (head3 Q) (head3 E)) as CA.
  assert (QN : norm3 (head3 Q) <= n / 2).
  { replace (head3 Q) with (scale3 (s / n) (val3 a)) by reflexivity. rewrite norm3_scale_abs. fold n. unfold Rdiv at 1. rewrite Rabs_mult, Rabs_inv, (Rabs_pos_eq n), Rmult_assoc, Rinv_l, Rmult_1_r by lra.
    rewrite Rabs_pos_eq; [lra|nra]. }
  pose proof (norm3_pos (head3 Q)) as QP. pose proof (norm3_pos (head3 E)) as EP3. pose proof (norm4_pos E) as EP4.
  assert (N4 : n / 2 * (n * n * n / 24) <= 5 / 100 * u).
  { replace (n / 2 * (n * n * n / 24)) with (n * n * (n * n) / 48) by field. assert (n * n * (n * n) <= / 8191 * / 8191 * (/ 8191 * / 8191)) by (apply Rmult_le_compat; try lra; nra). rewrite UV. lra. }
  assert (QE : norm3 (head3 Q) * norm3 (head3 E) <= n / 2 * (n * n * n / 24 + 2 * (u * n) + u / 1000)) by (apply Rmult_le_compat; lra).
  assert (n / 2 * (2 * (u * n) + u / 1000) <= 1 * (2 * (u * n) + u / 1000)) by (apply Rmult_le_compat_r; lra).
  assert (CC : Rabs (e3 Q * e3 E) <= 203 / 100 * u).
  { rewrite Rabs_mult. apply Rle_trans with (1 * Rabs (e3 E)); [|lra]. apply Rmult_le_compat_r; [apply Rabs_pos|]. apply Rabs_le. apply COS_bound. }
  assert (DE : 0 <= dot4 E E <= u / 1000).
  { rewrite <- norm4_sq. split; [nra|]. assert (SM : norm4 E <= / 1000000000 * (1 / 1000)).
    { assert (n * n * n <= / 8191 * / 8191 * / 8191) by (apply Rmult_le_compat; try lra; nra). rewrite UV in *. lra. }
    apply Rle_trans with (/ 1000000000 * (1 / 1000) * (/ 1000000000 * (1 / 1000))); [apply Rmult_le_compat; lra|]. rewrite UV. lra. }
  replace (n / 2 * (n * n * n / 24 + 2 * (u * n) + u / 1000)) with (n / 2 * (n * n * n / 24) + n / 2 * (2 * (u * n) + u / 1000)) in QE by ring.
  apply Rabs_le_inv in CA, CC. apply Rabs_le. lra.
Qed.
Lemma exp_big L a : lib_ok L -> finite3 a -> 0 < norm3 (val3 a) <= bpow radix2 100 -> fltb (fnorm3 L a) feps4 = false ->
  let q := faxisAngle2quat L a in let n := norm3 (val3 a) in
  let Q := V4 (sin (n / 2) / n * vx (val3 a)) (sin (n / 2) / n * vy (val3 a)) (sin (n / 2) / n * vz (val3 a)) (cos (n / 2)) in
  finite4 q /\ dist4 (val4 q) Q <= (11 + 6 * n) * u /\ Rabs (norm4 (val4 q) - 1) <= 11 * u.
Proof.
  intros OK FA [N0 NU] LT q n Q.
  assert (NU' : norm3 (val3 a) <= bpow radix2 290) by (apply Rle_trans with (1 := NU); apply bpow_le; lia).
  destruct (fnorm3_err L a OK FA NU') as (FT & T0 & TN & TT). clear NU'. fold n in NU, N0, TN, TT.
  set (th := fnorm3 L a) in *. destruct eps4_val as [EV EF].
  pose proof u53_pos as UP. pose proof u_val as UV. pose proof eta_pos as EP. pose proof eta_smaller as ES.
  apply (proj2 (ltb_val _ _ FT EF)) in LT as T1. rewrite EV in T1. set (T := B2R th) in *.
  assert (B3 : bpow radix2 (-300) < / 8192). { apply Rlt_trans with (bpow radix2 (-20)); [apply bpow_lt; lia|]. replace (bpow radix2 (-20)) with (/ 1048576) by (cbn; lra). lra. }
  destruct (Rlt_or_le n tiny400) as [SM|NL]; [specialize (TT SM); lra|]. specialize (TN NL). clear TT NL.
  assert (UN : 0 <= u * n <= n / 1000000) by (split; [apply Rmult_le_pos; lra|]; replace (n / 1000000) with (/ 1000000 * n) by field; apply Rmult_le_compat_r; lra).
  assert (TB : 999 / 1000 * n <= T <= 1001 / 1000 * n) by (apply Rabs_le_inv in TN; lra).
  assert (NB : / 8201 <= n) by lra.
  assert (UNB : u * / 8201 <= u * n) by (apply Rmult_le_compat_l; lra).
  destruct (half_arg L th OK FT) as (FH & HE & (FC & CE) & (FS & SE)).
  { fold T. split; [lra|]. apply Rle_trans with (2 * bpow radix2 100); [lra|]. change 2 with (bpow radix2 1). rewrite <- bpow_plus. apply bpow_le. lia. }
  fold T in HE. set (h := fmul th fhalf) in *. set (s := m_sin L h) in *.
  assert (HN : Rabs (B2R h - n / 2) <= 27 / 10 * (u * n)).
  { replace (B2R h - n / 2) with ((B2R h - T / 2) + (T - n) * (1 / 2)) by field. apply Rle_trans with (1 := Rabs_triang _ _). rewrite (Rabs_mult (T - n)), (Rabs_pos_eq (1 / 2)) by lra.
    assert (u * (T / 2) <= u * (51 / 100 * n)) by (apply Rmult_le_compat_l; lra). lra. }
  (* the sine *)
  set (sh := sin (B2R h)) in *. assert (SH : Rabs sh <= 1) by (apply Rabs_le, SIN_bound). pose proof (Rabs_pos sh) as SH0.
  assert (USH : u * Rabs sh <= u * 1) by (apply Rmult_le_compat_l; lra).
  assert (SE' : Rabs (B2R s - sh) <= 201 / 100 * u) by lra.
  assert (SB : Rabs (B2R s) <= 1001 / 1000). { apply Rabs_le_inv in SE'. apply Rabs_le_inv in SH. rewrite UV in SE'. apply Rabs_le. lra. }
  (* the quotient *)
  assert (TP : 0 < T) by lra. assert (IT : / T <= 8192). { rewrite <- (Rinv_inv 8192). apply Rinv_le; lra. }
  assert (IT0 : 0 < / T) by now apply Rinv_0_lt_compat.
  assert (DB : Rabs (B2R s / T) <= bpow radix2 14).
  { unfold Rdiv. rewrite Rabs_mult, (Rabs_pos_eq (/ T)) by lra. change (bpow radix2 14) with 16384. apply Rle_trans with (2 * 8192); [|lra]. apply Rmult_le_compat; try lra. apply Rabs_pos. }
  destruct (fdiv_rnd s th 14 FS ltac:(fold T; lra) ltac:(lia) DB) as [VD FD]. fold T in VD. set (na := fdiv s th) in *.
  pose proof (rnd_err (B2R s / T)) as RD. rewrite <- VD in RD.
  set (w := n / T). assert (WE : Rabs (w - 1) <= 43 / 10 * u).
  { unfold w. replace (n / T - 1) with (- (T - n) * / T) by (field; lra). rewrite Rabs_mult, Rabs_Ropp, (Rabs_pos_eq (/ T)) by lra.
    apply Rmult_le_reg_r with T; [lra|]. rewrite Rmult_assoc, Rinv_l, Rmult_1_r by lra. apply Rle_trans with (1 := TN).
    assert (43 / 10 * u * (999 / 1000 * n) <= 43 / 10 * u * T) by (apply Rmult_le_compat_l; lra). lra. }
  assert (WB : 0 <= w <= 1001 / 1000) by (apply Rabs_le_inv in WE; rewrite UV in WE; lra).
  assert (ETN : n * eta <= u / 1000).
  { apply Rle_trans with (bpow radix2 100 * bpow radix2 (-1075)); [apply Rmult_le_compat_r; lra|]. rewrite <- bpow_plus. apply Rle_trans with (bpow radix2 (-100)); [apply bpow_le; lia|].
    rewrite UV. replace (bpow radix2 (-100)) with (/ 1267650600228229401496703205376) by (cbn; lra). lra. }
  set (k := B2R na * n).
  assert (KS : Rabs (k - sh) <= 75 / 10 * u).
  { replace (k - sh) with ((B2R na - B2R s / T) * n + B2R s * (w - 1) + (B2R s - sh)) by (unfold k, w; field; lra).
    apply Rle_trans with (1 := Rabs_triang _ _). pose proof (Rabs_triang ((B2R na - B2R s / T) * n) (B2R s * (w - 1))) as TR. rewrite !Rabs_mult, (Rabs_pos_eq n) in TR by lra.
    assert (X1 : Rabs (B2R na - B2R s / T) * n <= 11 / 10 * u).
    { apply Rle_trans with ((u * Rabs (B2R s / T) + eta) * n); [apply Rmult_le_compat_r; lra|].
      replace ((u * Rabs (B2R s / T) + eta) * n) with (u * (Rabs (B2R s) * w) + n * eta).
      2: { unfold w, Rdiv. rewrite Rabs_mult, (Rabs_pos_eq (/ T)) by lra. ring. }
      assert (Rabs (B2R s) * w <= 1001 / 1000 * (1001 / 1000)) by (apply Rmult_le_compat; try lra; apply Rabs_pos).
      assert (u * (Rabs (B2R s) * w) <= u * (1001 / 1000 * (1001 / 1000))) by (apply Rmult_le_compat_l; lra). lra. }
    assert (X2 : Rabs (B2R s) * Rabs (w - 1) <= 1001 / 1000 * (43 / 10 * u)) by (apply Rmult_le_compat; auto using Rabs_pos). lra. }
  assert (KB : Rabs k <= 1001 / 1000). { apply Rabs_le_inv in KS. apply Rabs_le_inv in SH. rewrite UV in KS. apply Rabs_le. lra. }
  destruct (scaled_err a na sh _ FA FD N0 KS ltac:(fold n k; lra)) as [FV EVV]. fold n k in EVV.
  assert (UK : u * Rabs k <= u * (1001 / 1000)) by (apply Rmult_le_compat_l; lra).
  assert (EQ : q = mkF4 (fx (fscaled a na)) (fy (fscaled a na)) (fz (fscaled a na)) (m_cos L h)).
  { unfold q, faxisAngle2quat. fold th. rewrite LT. reflexivity. }
  clearbody q. subst q. destruct FV as (G0 & G1 & G2). split; [repeat split; assumption|].
  set (v := fscaled a na) in *. set (q := val4 (mkF4 (fx v) (fy v) (fz v) (m_cos L h))).
  set (Q1 := V4 (sh / n * vx (val3 a)) (sh / n * vy (val3 a)) (sh / n * vz (val3 a)) (cos (B2R h))).
  assert (D1 : dist4 q Q1 <= 107 / 10 * u).
  { unfold dist4. apply Rle_trans with (1 := norm4_parts _). apply Rle_trans with (norm3 (sub3 (val3 v) (scale3 (sh / n) (val3 a))) + Rabs (B2R (m_cos L h) - cos (B2R h))); [right; reflexivity|]. lra. }
  assert (QU : forall x, dot4 (V4 (sin x / n * vx (val3 a)) (sin x / n * vy (val3 a)) (sin x / n * vz (val3 a)) (cos x)) (V4 (sin x / n * vx (val3 a)) (sin x / n * vy (val3 a)) (sin x / n * vz (val3 a)) (cos x)) = 1).
  { intros x. unfold dot4. cbn [e0 e1 e2 e3]. replace (_ + _ + _ + _) with (sin x / n * (sin x / n) * dot3 (val3 a) (val3 a) + cos x * cos x) by (unfold dot3; ring).
    rewrite <- norm3_sq. fold n. replace (sin x / n * (sin x / n) * (n * n)) with (sin x * sin x) by (field; lra). apply sin2_cos2. }
  assert (D2 : dist4 Q1 Q <= 54 / 10 * (u * n)).
  { unfold dist4. apply Rle_trans with (1 := norm4_parts _).
    apply Rle_trans with (norm3 (scale3 ((sh - sin (n / 2)) / n) (val3 a)) + Rabs (cos (B2R h) - cos (n / 2))).
    { right. f_equal. f_equal. unfold Q1, Q, scale3, sub4, head3. cbn [e0 e1 e2 vx vy vz]. f_equal; field; lra. }
    rewrite norm3_scale_abs. fold n. unfold Rdiv. rewrite Rabs_mult, Rabs_inv, (Rabs_pos_eq n), Rmult_assoc, Rinv_l, Rmult_1_r by lra.
    pose proof (sin_dist (B2R h) (n / 2)) as SD. pose proof (cos_dist (B2R h) (n / 2)) as CD. fold sh in SD. unfold Rdiv in SD, CD, HN. lra. }
  split.
  - pose proof (dist4_tri q Q1 Q). lra.
  - pose proof (dist4_norm q Q1) as DN. rewrite (norm4_unit Q1) in DN by (apply QU). lra.
Qed.
(** the scale of the first branch: at least one half *)
Lemma na_small th : is_finite th = true -> 0 <= B2R th <= 1 -> let na := fadd fhalf (fmul (fmul th th) f48) in is_finite na = true /\ 1 / 2 <= B2R na <= 1.
Proof.
  intros FT [T0 T1] na. destruct f48_val as [V48 F48]. destruct fhalf_correct as [HV HF]. pose proof u53_pos as UP. pose proof u_val as UV.
  assert (B1 : B2R th * B2R th <= 1 * 1) by (apply Rmult_le_compat; lra). assert (B0 : 0 <= B2R th * B2R th) by now apply Rmult_le_pos.
  assert (ONE : rnd 1 = 1) by (apply rnd_id, (format_IZR 1); lia).
  destruct (fmul_rnd th th 0 FT FT ltac:(lia)) as [W1 F1]; [rewrite Rabs_pos_eq by lra; change (bpow radix2 0) with 1; lra|].
  assert (C : 0 <= B2R (fmul th th) <= 1) by (rewrite W1; split; [rewrite <- rnd_0|rewrite <- ONE]; apply rnd_le; lra).
  assert (K48 : 0 <= B2R f48 <= 1 / 4) by (apply Rabs_le_inv in V48; rewrite UV in V48; lra).
  assert (B2 : 0 <= B2R (fmul th th) * B2R f48 <= 1 * (1 / 4)) by (split; [apply Rmult_le_pos|apply Rmult_le_compat]; lra).
  destruct (fmul_rnd (fmul th th) f48 0 F1 F48 ltac:(lia)) as [W2 F2]; [rewrite Rabs_pos_eq by lra; change (bpow radix2 0) with 1; lra|].
  assert (Q4 : rnd (1 / 4) = 1 / 4). { replace (1 / 4) with (bpow radix2 (-2)) by (cbn; lra). apply rnd_id, generic_format_bpow. unfold SpecFloat.fexp, SpecFloat.emin. lia. }
  assert (D : 0 <= B2R (fmul (fmul th th) f48) <= 1 / 4) by (rewrite W2; split; [rewrite <- rnd_0|rewrite <- Q4]; apply rnd_le; lra).
  set (p := fmul (fmul th th) f48) in *. assert (VN : B2R na = rnd (1 / 2 + B2R p) /\ is_finite na = true).
  { destruct (fadd_rnd fhalf p 0 HF F2 ltac:(lia)) as [W3 F3]; [rewrite HV, Rabs_pos_eq by lra; change (bpow radix2 0) with 1; lra|]. rewrite HV in W3. now split. }
  destruct VN as [VN FN]. split; [exact FN|]. rewrite VN.
  assert (Q2 : rnd (1 / 2) = 1 / 2). { replace (1 / 2) with (bpow radix2 (-1)) by (cbn; lra). apply rnd_id, generic_format_bpow. unfold SpecFloat.fexp, SpecFloat.emin. lia. }
  split; [rewrite <- Q2 at 1|rewrite <- ONE]; apply rnd_le; lra.
Qed.
Lemma exp_zero L a : lib_ok L -> finite3 a -> val3 a = zero3 -> let q := faxisAngle2quat L a in
  finite4 q /\ dist4 (val4 q) quatIdentity <= 3 * u.
Proof.
  intros OK FA Z q. assert (N0 : norm3 (val3 a) = 0) by (rewrite Z; apply norm3_0).
  destruct (fnorm3_err L a OK FA) as (FT & T0 & _ & TT); [rewrite N0; apply bpow_ge_0|]. rewrite N0 in TT. specialize (TT (bpow_gt_0 radix2 (-400))).
  destruct eps4_val as [EV EF]. pose proof u53_pos as UP. pose proof u_val as UV. pose proof eta_pos as EP. pose proof eta_smaller as ES.
  assert (B3 : bpow radix2 (-300) <= u / 1000000000).
  { apply Rle_trans with (bpow radix2 (-100)); [apply bpow_le; lia|]. rewrite UV. replace (bpow radix2 (-100)) with (/ 1267650600228229401496703205376) by (cbn; lra). lra. }
  set (th := fnorm3 L a) in *.
  assert (LT : fltb th feps4 = true). { destruct (fltb th feps4) eqn:E; auto. apply (proj2 (ltb_val _ _ FT EF)) in E. rewrite EV in E. lra. }
  destruct (na_small th FT) as [FN NB]; [lra|].
  destruct (half_arg L th OK FT) as (FH & HE & (FC & CE) & _). { split; [lra|]. apply Rle_trans with (1 := TT). apply bpow_le. lia. }
  set (na := fadd fhalf (fmul (fmul th th) f48)) in *. set (h := fmul th fhalf) in *.
  assert (EQ : q = mkF4 (fx (fscaled a na)) (fy (fscaled a na)) (fz (fscaled a na)) (m_cos L h)).
  { unfold q, faxisAngle2quat. fold th. rewrite LT. reflexivity. }
  assert (M : forall c : f64, is_finite c = true -> B2R c = 0 -> B2R (fmul c na) = 0 /\ is_finite (fmul c na) = true).
  { intros c F V. destruct (fmul_rnd c na 0 F FN ltac:(lia)) as [W1 F1]; [rewrite V, Rmult_0_l, Rabs_R0; apply bpow_ge_0|]. rewrite V, Rmult_0_l, rnd_0 in W1. now split. }
  destruct FA as (A0 & A1 & A2). unfold val3, zero3 in Z. injection Z as Z0 Z1 Z2.
   destruct (M _ A0 Z0) as [X0 G0]. destruct (M _ A1 Z1) as [X1 G1]. destruct (M _ A2 Z2) as [X2 G2].
  clearbody q. subst q. split; [repeat split; assumption|].
  unfold dist4. apply Rle_trans with (1 := norm4_parts _).
  replace (norm3 (head3 (sub4 (val4 (mkF4 (fx (fscaled a na)) (fy (fscaled a na)) (fz (fscaled a na)) (m_cos L h))) quatIdentity))) with 0.
  2: { unfold val4, fscaled. cbn [f0 f1 f2 f3 fx fy fz]. rewrite X0, X1, X2. transitivity (norm3 zero3); [symmetry; apply norm3_0|]. f_equal. unfold zero3, head3, sub4, quatIdentity. cbn [e0 e1 e2 e3]. f_equal; ring. }
  change (e3 (sub4 (val4 (mkF4 (fx (fscaled a na)) (fy (fscaled a na)) (fz (fscaled a na)) (m_cos L h))) quatIdentity)) with (B2R (m_cos L h) - 1).
  pose proof (cos_dist (B2R h) 0) as CD. rewrite cos_0, Rminus_0_r in CD.
  assert (HB : Rabs (B2R h) <= u / 100). { apply Rabs_le_inv in HE. assert (u * (B2R th / 2) <= u * (1 / 1000)) by (apply Rmult_le_compat_l; lra). apply Rabs_le. lra. }
  replace (B2R (m_cos L h) - 1) with ((B2R (m_cos L h) - cos (B2R h)) + (cos (B2R h) - 1)) by ring. pose proof (Rabs_triang (B2R (m_cos L h) - cos (B2R h)) (cos (B2R h) - 1)). lra.
Qed.

(** ** C138 *)
Lemma small_error_pos n : 0 <= n -> 0 <= small_error n.
Proof. intros N. unfold small_error. destruct (Rlt_dec n (/ 8191)); [|lra]. assert (0 <= n * n * n) by (repeat apply Rmult_le_pos; lra). lra. Qed.
(** from a rotation vector to a quaternion: finite, of length one up to eleven roundings, and within a few roundings (and the angle's own error)
    of the exact one, except for vectors shorter than 2^-13, where a cubic error is added *)
Theorem float_exp_partial L a Q : lib_ok L -> finite3 a -> norm3 (val3 a) <= bpow radix2 100 -> rotation_quaternion (val3 a) Q ->
  let q := faxisAngle2quat L a in let n := norm3 (val3 a) in
  finite4 q /\ Rabs (norm4 (val4 q) - 1) <= 11 * u /\ dist4 (val4 q) Q <= (11 + 6 * n) * u + small_error n.
Proof.
  intros OK FA NU RQ q n. pose proof u53_pos as UP. pose proof (norm3_pos (val3 a) : 0 <= n) as NP. pose proof (small_error_pos n NP) as SP. assert (UN : 0 <= u * n) by now apply Rmult_le_pos; lra.
  destruct RQ as [[Z ->] | [N0 ->]].
  - destruct (exp_zero L a OK FA Z) as [F D]. fold q in F, D. split; [exact F|]. split; [|lra].
    pose proof (dist4_norm (val4 q) quatIdentity) as DN. rewrite (norm4_unit quatIdentity) in DN by apply unit_identity. lra.
  - destruct (fltb (fnorm3 L a) feps4) eqn:LT.
    + destruct (exp_small L a OK FA) as (F & NL & D & N); auto. { split; [exact N0|]. apply Rle_trans with (1 := NU). apply bpow_le. lia. }
      fold q n in F, NL, D, N. split; [exact F|]. split; [lra|]. fold n. unfold small_error in *. destruct (Rlt_dec n (/ 8191)); [|contradiction]. lra.
    + destruct (exp_big L a OK FA (conj N0 NU) LT) as (F & D & N). fold q n in F, D, N. split; [exact F|]. split; [lra|]. fold n. lra.
Qed.

(** *** one step of an integration *)
Lemma fupdate_err L q dq : finite4 q -> finite4 (faxisAngle2quat L dq) -> short (val4 q) -> short (val4 (faxisAngle2quat L dq)) ->
  finite4 (fupdateQuat L q dq) /\ dist4 (val4 (fupdateQuat L q dq)) (qplus (val4 (faxisAngle2quat L dq)) (val4 q)) <= 9 * u.
Proof.
  unfold fupdateQuat. cbv zeta. generalize (faxisAngle2quat L dq). intros p.
  intros (Q0 & Q1 & Q2 & Q3) (P0 & P1 & P2 & P3) SQ SP. pose proof (short_prod _ _ SP SQ) as SS. pose proof u53_pos as UP.
  assert (C : forall a b c d x y z w : f64, 
    (norm4 (V4 (B2R a) (B2R b) (B2R c) (B2R d)) = norm4 (val4 p)) -> norm4 (V4 (B2R x) (B2R y) (B2R z) (B2R w)) = norm4 (val4 q) ->
    Rabs (B2R x) * Rabs (B2R a) + Rabs (B2R b) * Rabs (B2R y) + Rabs (B2R c) * Rabs (B2R z) + Rabs (B2R d) * Rabs (B2R w) <= 1003 / 1000).
  { intros a b c d x y z w E1 E2. rewrite (Rmult_comm (Rabs (B2R x))). apply Rle_trans with (2 := SS). apply sum4; [rewrite E1|rewrite E2]; apply Rle_refl. }
  assert (N : forall q a b c d, dot4 (V4 a b c d) (V4 a b c d) = dot4 (val4 q) (val4 q) -> norm4 (V4 a b c d) = norm4 (val4 q)) by (intros; unfold norm4; now f_equal).
  destruct (prod4 false true false (f0 q) (f3 p) (f0 p) (f3 q) (f1 p) (f2 q) (f2 p) (f1 q)) as [A0 B0]; auto.
  { apply C; apply N; unfold dot4, val4; cbn [e0 e1 e2 e3]; ring. }
  destruct (prod4 false false true (f1 q) (f3 p) (f0 p) (f2 q) (f1 p) (f3 q) (f2 p) (f0 q)) as [A1 B1]; auto.
  { apply C; apply N; unfold dot4, val4; cbn [e0 e1 e2 e3]; ring. }
  destruct (prod4 true false false (f2 q) (f3 p) (f0 p) (f1 q) (f1 p) (f0 q) (f2 p) (f3 q)) as [A2 B2]; auto.
  { apply C; apply N; unfold dot4, val4; cbn [e0 e1 e2 e3]; ring. }
  destruct (prod4 true true true (f3 q) (f3 p) (f0 p) (f0 q) (f1 p) (f1 q) (f2 p) (f2 q)) as [A3 B3]; auto.
  { apply C; apply N; unfold dot4, val4; cbn [e0 e1 e2 e3]; ring. }
  split; [repeat split; assumption|].
  apply Rle_trans with (2 * (41 / 10 * u)); [|lra]. unfold dist4. cbn [fop rop] in *. unfold qplus.
  apply norm4_le; [lra| | | |]; unfold sub4, val4; cbn [e0 e1 e2 e3 f0 f1 f2 f3].
  - eapply Rle_trans; [right|exact B0]. f_equal. ring.
  - eapply Rle_trans; [right|exact B1]. f_equal. ring.
  - eapply Rle_trans; [right|exact B2]. f_equal. ring.
  - eapply Rle_trans; [right|exact B3]. f_equal. ring.
Qed.

(** Specification: turning an orientation by one rotation vector after the other *)
Inductive turned : vec4 -> list vec3 -> vec4 -> Prop :=
| turned_none Q : turned Q [] Q
| turned_by a E Q l R : rotation_quaternion a E -> turned (qplus E Q) l R -> turned Q (a :: l) R.
(** what one step may add to the distance from the exact orientation *)
Definition step_error (n : R) : R := (21 + 7 * n) * u + 1001 / 1000 * small_error n.
Definition step_errors (l : list F3) : R := Rsum (map (fun a => step_error (norm3 (val3 a))) l).
Definition rotation_ok (a : F3) : Prop := finite3 a /\ norm3 (val3 a) <= bpow radix2 100.
Lemma rotation_quaternion_exists a : exists E, rotation_quaternion a E.
Proof.
  destruct (Req_dec (norm3 a) 0) as [Z|Z].
  - exists quatIdentity. left. split; auto. destruct (comp3 a) as (A & B & C). rewrite Z in A, B, C. destruct a as [x y z]. cbn [vx vy vz] in *. unfold zero3.
    pose proof (Rabs_pos x). pose proof (Rabs_pos y). pose proof (Rabs_pos z).
    
    f_equal; match goal with |- ?v = 0 => destruct (Req_dec v 0) as [|NZ]; [assumption|]; pose proof (Rabs_pos_lt v NZ); lra end.
  - eexists. right. split; [pose proof (norm3_pos a); lra|reflexivity].
Qed.
Lemma update_step L q a Q E : lib_ok L -> finite4 q -> Rabs (norm4 (val4 q) - 1) <= 1 / 10000 -> rotation_ok a -> rotation_quaternion (val3 a) E ->
  finite4 (fupdateQuat L q a) /\ Rabs (norm4 (val4 (fupdateQuat L q a)) - 1) <= Rabs (norm4 (val4 q) - 1) + 21 * u /\
  dist4 (val4 (fupdateQuat L q a)) (qplus E Q) <= dist4 (val4 q) Q + step_error (norm3 (val3 a)).
Proof.
  intros OK FQ NQ [FA NA] RQ. pose proof u53_pos as UP. pose proof u_val as UV. destruct (float_exp_partial L a E OK FA NA RQ) as (FE & NE & DE).
  set (d := faxisAngle2quat L a) in *. set (n := norm3 (val3 a)) in *. pose proof (norm3_pos (val3 a) : 0 <= n) as NP. pose proof (small_error_pos n NP) as SP.
  assert (SQ : short (val4 q)) by (apply Rabs_le_inv in NQ; unfold short; lra).
  assert (SD : short (val4 d)) by (apply Rabs_le_inv in NE; rewrite UV in NE; unfold short; lra).
  destruct (fupdate_err L q a FQ FE SQ SD) as [F D]. fold d in D. split; [exact F|]. split.
  - pose proof (dist4_norm (val4 (fupdateQuat L q a)) (qplus (val4 d) (val4 q))) as DN. rewrite qplus_norm in DN. set (r := norm4 (val4 (fupdateQuat L q a))) in *.
    set (x := norm4 (val4 d)) in *. set (y := norm4 (val4 q)) in *. replace (r - 1) with ((r - x * y) + ((x - 1) * (y - 1) + (x - 1)) + (y - 1)) by ring.
    apply Rle_trans with (1 := Rabs_triang _ _). pose proof (Rabs_triang (r - x * y) ((x - 1) * (y - 1) + (x - 1))) as T1. pose proof (Rabs_triang ((x - 1) * (y - 1)) (x - 1)) as T2. rewrite Rabs_mult in T2.
    assert (Rabs (x - 1) * Rabs (y - 1) <= 11 * u * (1 / 10000)) by (apply Rmult_le_compat; auto using Rabs_pos). lra.
  - pose proof (dist4_tri (val4 (fupdateQuat L q a)) (qplus (val4 d) (val4 q)) (qplus E Q)) as T. pose proof (qplus_dist (val4 d) (val4 q) E Q) as QD.
    rewrite (norm4_unit E (rotation_quaternion_unit _ _ RQ)) in QD. pose proof (dist4_pos (val4 d) E) as DP.
    assert (dist4 (val4 d) E * norm4 (val4 q) <= ((11 + 6 * n) * u + small_error n) * (1001 / 1000)) by (apply Rmult_le_compat; try lra; [apply norm4_pos|exact SQ]).
    assert (0 <= n * u) by (apply Rmult_le_pos; lra). unfold step_error. lra.
Qed.
(** an orientation turned by up to 2^30 rotation vectors: finite; the length drifts by at most 21 roundings per step (it is never renormalised); the distance from
    the exact orientation is at most the initial one plus the errors of the steps *)
Theorem float_turned_partial L l : lib_ok L -> forall q Q R, finite4 q -> Rabs (norm4 (val4 q) - 1) <= 8 * u -> Forall rotation_ok l -> INR (length l) <= 1073741824 ->
  turned Q (map val3 l) R ->
  let r := fold_left (fupdateQuat L) l q in
  finite4 r /\ Rabs (norm4 (val4 r) - 1) <= (8 + 21 * INR (length l)) * u /\ dist4 (val4 r) R <= dist4 (val4 q) Q + step_errors l.
Proof.
  intros OK. pose proof u53_pos as UP. pose proof u_val as UV.
  assert (G : forall l k q Q R, 0 <= k -> k + INR (length l) <= 1073741824 -> finite4 q -> Rabs (norm4 (val4 q) - 1) <= (8 + 21 * k) * u -> Forall rotation_ok l -> turned Q (map val3 l) R ->
    let r := fold_left (fupdateQuat L) l q in
    finite4 r /\ Rabs (norm4 (val4 r) - 1) <= (8 + 21 * (k + INR (length l))) * u /\ dist4 (val4 r) R <= dist4 (val4 q) Q + step_errors l).
  { clear l. induction l as [|a l IH]; intros k q Q R K0 K1 FQ NQ OKl TR; cbn [fold_left].
    - inversion TR; subst. cbn. split; [exact FQ|]. split; [|lra]. rewrite Rplus_0_r. exact NQ.
    - cbn [map] in TR. inversion TR as [|a' E Q' l' R' RQ TR' E1 E2 E3]; subst. inversion OKl as [|? ? OKa OKl']; subst.
      change (length (a :: l)) with (S (length l)) in *. rewrite S_INR in *. pose proof (pos_INR (length l)) as LP.
      assert (NQ' : Rabs (norm4 (val4 q) - 1) <= 1 / 10000) by (apply Rle_trans with (1 := NQ); rewrite UV; lra).
      destruct (update_step L q a Q E OK FQ NQ' OKa RQ) as (F & N & D).
      destruct (IH (k + 1) (fupdateQuat L q a) (qplus E Q) R) as (F' & N' & D'); auto; try lra. split; [exact F'|]. split.
      + replace (k + (INR (length l) + 1)) with (k + 1 + INR (length l)) by ring. exact N'.
      + change (step_errors (a :: l)) with (step_error (norm3 (val3 a)) + step_errors l). lra. }
  intros q Q R FQ NQ OKl LN TR. destruct (G l 0 q Q R ltac:(lra) ltac:(lra) FQ ltac:(lra) OKl TR) as (F & N & D). rewrite Rplus_0_l in N. auto.
Qed.

(** *** Transformation::oplus *)
Lemma fadd3_err s t : finite3 s -> finite3 t -> norm3 (val3 s) <= bpow radix2 600 -> norm3 (val3 t) <= bpow radix2 600 ->
  finite3 (fadd3 s t) /\ dist3 (val3 (fadd3 s t)) (add3 (val3 s) (val3 t)) <= u * norm3 (add3 (val3 s) (val3 t)) + 2 * eta.
Proof.
  intros (S0 & S1 & S2) (T0 & T1 & T2) NS NT. pose proof (comp3 (val3 s)) as (A0 & A1 & A2). pose proof (comp3 (val3 t)) as (B0 & B1 & B2). cbn [val3 vx vy vz] in *.
  assert (TW : bpow radix2 600 + bpow radix2 600 = bpow radix2 601) by (change 601%Z with (1 + 600)%Z; rewrite bpow_plus; change (bpow radix2 1) with 2; ring).
  assert (C : forall x y : f64, is_finite x = true -> is_finite y = true -> Rabs (B2R x) <= bpow radix2 600 -> Rabs (B2R y) <= bpow radix2 600 ->
    is_finite (fadd x y) = true /\ Rabs (B2R (fadd x y) - (B2R x + B2R y)) <= u * Rabs (B2R x + B2R y) + eta).
  { intros x y FX FY BX BY. destruct (fadd_rnd x y 601 FX FY ltac:(lia)) as [V F]; [pose proof (Rabs_triang (B2R x) (B2R y)); lra|]. split; [exact F|]. rewrite V. apply rnd_err. }
  destruct (C _ _ S0 T0 ltac:(lra) ltac:(lra)) as [F0 E0]. destruct (C _ _ S1 T1 ltac:(lra) ltac:(lra)) as [F1 E1]. destruct (C _ _ S2 T2 ltac:(lra) ltac:(lra)) as [F2 E2].
  split; [repeat split; assumption|]. pose proof u53_pos. pose proof eta_pos.
  pose proof (norm4_rel (V4 (B2R (fadd (fx s) (fx t)) - (B2R (fx s) + B2R (fx t))) (B2R (fadd (fy s) (fy t)) - (B2R (fy s) + B2R (fy t))) (B2R (fadd (fz s) (fz t)) - (B2R (fz s) + B2R (fz t))) 0)
    (V4 (B2R (fx s) + B2R (fx t)) (B2R (fy s) + B2R (fy t)) (B2R (fz s) + B2R (fz t)) 0) u eta ltac:(lra) ltac:(lra) E0 E1 E2) as G.
  rewrite !norm3_as4 in G. cbn [e3] in G. rewrite Rabs_R0 in G. specialize (G ltac:(lra)). exact G.
Qed.
Definition sum3 (l : list vec3) : vec3 := fold_right add3 zero3 l.
Definition travel (l : list (F3 * F3)) : R := Rsum (map (fun d => norm3 (val3 (fst d))) l).
(** a transformation updated by a list of (translation, rotation) increments *)
Definition updates (L : lib) (x : ftrafo) (l : list (F3 * F3)) : ftrafo := fold_left (fun x d => ft_oplus L x (fst d) (snd d)) l x.
Lemma add3_shift a b c d : dist3 (add3 a (add3 b c)) (add3 d c) = dist3 (add3 a b) d.
Proof. unfold dist3, norm3. f_equal. vring. Qed.
Theorem float_oplus_partial L l : lib_ok L -> forall x Q R, finite4 (fq x) -> Rabs (norm4 (val4 (fq x)) - 1) <= 8 * u -> finite3 (ft x) ->
  Forall (fun d => finite3 (fst d) /\ rotation_ok (snd d)) l -> INR (length l) <= 1073741824 -> norm3 (val3 (ft x)) + travel l <= bpow radix2 500 ->
  turned Q (map val3 (map snd l)) R ->
  let y := updates L x l in
  finite4 (fq y) /\ finite3 (ft y) /\ Rabs (norm4 (val4 (fq y)) - 1) <= (8 + 21 * INR (length l)) * u /\
  dist4 (val4 (fq y)) R <= dist4 (val4 (fq x)) Q + step_errors (map snd l) /\
  dist3 (val3 (ft y)) (add3 (val3 (ft x)) (sum3 (map val3 (map fst l)))) <= 2 * INR (length l) * u * (norm3 (val3 (ft x)) + travel l) + 4 * INR (length l) * eta.
Proof.
  intros OK. pose proof u53_pos as UP. pose proof u_val as UV. pose proof eta_pos as EP. pose proof eta_small as ES.
  assert (GQ : forall l x, fq (updates L x l) = fold_left (fupdateQuat L) (map snd l) (fq x)).
  { clear l. induction l as [|d l IH]; intros x; [reflexivity|]. unfold updates in *. cbn [fold_left map]. rewrite IH. reflexivity. }
  assert (GT : forall l x, ft (updates L x l) = fold_left fadd3 (map fst l) (ft x)).
  { clear l. induction l as [|d l IH]; intros x; [reflexivity|]. unfold updates in *. cbn [fold_left map]. rewrite IH. reflexivity. }
  assert (LIN : forall l t k D, finite3 t -> Forall (fun d => finite3 (fst d)) l -> 0 <= k -> k + INR (length l) <= 1073741824 -> 0 <= D ->
      norm3 (val3 t) + travel l <= (1 + 2 * k * u) * D + 4 * k * eta -> D <= bpow radix2 501 ->
      finite3 (fold_left fadd3 (map fst l) t) /\ dist3 (val3 (fold_left fadd3 (map fst l) t)) (add3 (val3 t) (sum3 (map val3 (map fst l)))) <= 2 * INR (length l) * u * D + 4 * INR (length l) * eta).
  { clear l. induction l as [|d l IH]; intros t k D FT FL K0 K1 D1 B DB; cbn [fold_left map].
    - split; [exact FT|]. cbn. replace (add3 (val3 t) zero3) with (val3 t) by (generalize (val3 t); vring). rewrite dist3_refl. lra.
    - inversion FL as [|? ? FD FL']; subst. change (length (d :: l)) with (S (length l)) in *. rewrite S_INR in *. pose proof (pos_INR (length l)) as LP.
      change (travel (d :: l)) with (norm3 (val3 (fst d)) + travel l) in B. change (sum3 (val3 (fst d) :: map val3 (map fst l))) with (add3 (val3 (fst d)) (sum3 (map val3 (map fst l)))).
      assert (TP : 0 <= travel l) by (apply Rsum_nonneg, Forall_map, Forall_forall; intros; apply norm3_pos).
      set (t' := fadd3 t (fst d)). set (nt := norm3 (val3 t)) in *. set (nd := norm3 (val3 (fst d))) in *.
      pose proof (norm3_pos (val3 t) : 0 <= nt) as NT0. pose proof (norm3_pos (val3 (fst d)) : 0 <= nd) as ND0.
      assert (KU : 0 <= k * u <= 1 / 1000000) by (split; [apply Rmult_le_pos; lra|rewrite UV; lra]).
      assert (KE : 0 <= k * eta <= 1 / 1000000). { split; [apply Rmult_le_pos; lra|]. apply Rle_trans with (1073741824 * (u / 1000000)); [apply Rmult_le_compat; lra|]. rewrite UV. lra. }
      assert (KD : 0 <= k * u * D <= 1 / 1000000 * D) by (split; [apply Rmult_le_pos; lra|apply Rmult_le_compat_r; lra]).
      assert (ROOMY : nt + nd + travel l <= 11 / 10 * D + 4 * (k * eta)) by lra.
      assert (SMALL : 4 * (k * eta) <= 1) by lra. assert (B501 : 1 <= bpow radix2 501) by (change 1 with (bpow radix2 0); apply bpow_le; lia).
      assert (HUGE : 11 / 10 * bpow radix2 501 + 1 <= bpow radix2 600).
      { apply Rle_trans with (bpow radix2 2 * bpow radix2 501); [change (bpow radix2 2) with 4; pose proof (bpow_gt_0 radix2 501); lra|]. rewrite <- bpow_plus. apply bpow_le. lia. }
      destruct (fadd3_err t (fst d) FT FD) as [F' E']; [fold nt; lra|fold nd; lra|]. fold t' in F', E'.
      pose proof (norm3_triangle (val3 t) (val3 (fst d))) as TR. fold nt nd in TR. set (sm := norm3 (add3 (val3 t) (val3 (fst d)))) in *.
      assert (USM : u * sm <= 11 / 10 * (u * D) + eta / 10).
      { apply Rle_trans with (u * (11 / 10 * D + 4 * (k * eta))); [apply Rmult_le_compat_l; lra|]. assert (k * u * eta <= 1 / 1000000 * eta) by (apply Rmult_le_compat_r; lra). lra. }
      pose proof (dist3_norm (val3 t') (add3 (val3 t) (val3 (fst d)))) as DN. fold sm in DN.
      assert (UD : 0 <= u * D) by (apply Rmult_le_pos; lra).
      destruct (IH t' (k + 1) D F' FL' ltac:(lra) ltac:(lra) D1) as [FF EE]; [lra|exact DB|]. split; [exact FF|].
      pose proof (dist3_tri (val3 (fold_left fadd3 (map fst l) t')) (add3 (val3 t') (sum3 (map val3 (map fst l)))) (add3 (val3 t) (add3 (val3 (fst d)) (sum3 (map val3 (map fst l)))))) as TRI.
      assert (SH : dist3 (add3 (val3 t') (sum3 (map val3 (map fst l)))) (add3 (val3 t) (add3 (val3 (fst d)) (sum3 (map val3 (map fst l))))) = dist3 (val3 t') (add3 (val3 t) (val3 (fst d)))).
      { rewrite (dist3_sym (add3 (val3 t') _)), add3_shift. apply dist3_sym. }
      rewrite SH in TRI. lra. }
  intros x Q R FQ NQ FT OKl LN TB TR. cbv zeta. rewrite GQ, GT.
  assert (OK1 : Forall rotation_ok (map snd l)) by (apply Forall_map; eapply Forall_impl; [|exact OKl]; cbn; tauto).
  assert (OK2 : Forall (fun d => finite3 (fst d)) l) by (eapply Forall_impl; [|exact OKl]; cbn; tauto).
  destruct (float_turned_partial L (map snd l) OK (fq x) Q R FQ NQ OK1) as (F & N & D); [rewrite map_length; exact LN|exact TR|]. rewrite map_length in N.
  split; [exact F|].
  pose proof (norm3_pos (val3 (ft x))) as P1. assert (TP : 0 <= travel l) by (apply Rsum_nonneg, Forall_map, Forall_forall; intros; apply norm3_pos).
  destruct (LIN l (ft x) 0 (norm3 (val3 (ft x)) + travel l) FT OK2 ltac:(lra) ltac:(lra) ltac:(lra)) as [F' E']; [lra| |].
  { apply Rle_trans with (1 := TB). apply bpow_le. lia. }
  auto.
Qed.

(** *** a C library that satisfies the assumption: sin and cos rounded correctly *)
Definition to_f64 (x : R) : f64 := binary_normalize 53 1024 (eq_refl _) (eq_refl _) mode_NE (Ztrunc (scaled_mantissa radix2 (SpecFloat.fexp 53 1024) (rnd x))) (cexp radix2 (SpecFloat.fexp 53 1024) (rnd x)) false.
Lemma to_f64_val x : Rabs x <= 1 -> is_finite (to_f64 x) = true /\ B2R (to_f64 x) = rnd x.
Proof.
  intros X. unfold to_f64. pose proof (binary_normalize_correct 53 1024 (eq_refl _) (eq_refl _) mode_NE (Ztrunc (scaled_mantissa radix2 (SpecFloat.fexp 53 1024) (rnd x))) (cexp radix2 (SpecFloat.fexp 53 1024) (rnd x)) false) as K.
  assert (G : generic_format radix2 (SpecFloat.fexp 53 1024) (rnd x)) by (apply generic_format_round; [apply fexp_correct; reflexivity|apply valid_rnd_N]).
  rewrite <- G in K. cbn [round_mode] in K. assert (ID : rnd (rnd x) = rnd x) by (apply rnd_id; exact G).
  assert (B : Rabs (rnd x) <= bpow radix2 0) by (apply rnd_abs_le; [lia|exact X]).
  rewrite ID in K. rewrite Rlt_bool_true in K. { tauto. }
  apply Rle_lt_trans with (1 := B). apply bpow_lt. lia.
Qed.
Definition rounded_lib : lib := mkLib (fun x => to_f64 (sin (B2R x))) (fun x => to_f64 (cos (B2R x))) (SAdd (SAdd (SLeaf 0) (SLeaf 1)) (SLeaf 2)).
Theorem rounded_lib_ok : lib_ok rounded_lib.
Proof.
  pose proof u53_pos as UP. split; [|split; [|cbn; reflexivity]].
  - intros x _. cbn [rounded_lib m_sin]. assert (B : Rabs (sin (B2R x)) <= 1) by (apply Rabs_le, SIN_bound). destruct (to_f64_val _ B) as [F V]. split; [exact F|]. rewrite V.
    pose proof (rnd_err (sin (B2R x))). pose proof (Rmult_le_pos u (Rabs (sin (B2R x))) ltac:(lra) (Rabs_pos _)). lra.
  - intros x _. cbn [rounded_lib m_cos]. assert (B : Rabs (cos (B2R x)) <= 1) by (apply Rabs_le, COS_bound). destruct (to_f64_val _ B) as [F V]. split; [exact F|]. rewrite V.
    pose proof (rnd_err (cos (B2R x))). pose proof (Rmult_le_pos u (Rabs (cos (B2R x))) ltac:(lra) (Rabs_pos _)). lra.
Qed.
Lemma sin_fifth x : 0 <= x <= 1 -> sin x <= x - x ^ 3 / 6 + x ^ 5 / 120.
Proof.
  intros [H1 H2]. assert (PI4 : x <= PI) by (pose proof PI2_1; pose proof PI_RGT_0; lra).
  destruct (sin_bound x 0 H1 PI4) as (_ & U). unfold sin_approx, sin_term in U. cbn [sum_f_R0 fact Nat.mul Nat.add] in U. cbn in U. eapply Rle_trans; [exact U|]. cbn. lra.
Qed.
(** the comment in the code: accurate to numerical precision.  Whatever the library, the vector (2^-14, 0, 0) gives a quaternion more than 16 times 2^-52 away *)
Definition short_vector : F3 := mkF3 (flit 1 (-14)) fzero fzero.
Theorem float_exp_refuted : finite3 short_vector /\ norm3 (val3 short_vector) = / 16384 /\
  forall L Q, lib_ok L -> rotation_quaternion (val3 short_vector) Q -> 16 * bpow radix2 (-52) < dist4 (val4 (faxisAngle2quat L short_vector)) Q.
Proof.
  assert (V : B2R (flit 1 (-14)) = / 16384) by (vm_compute; lra). assert (FV : is_finite (flit 1 (-14)) = true) by (vm_compute; reflexivity). destruct zero_val as [VZ FZ].
  assert (FA : finite3 short_vector) by (repeat split; assumption).
  assert (NV : norm3 (val3 short_vector) = / 16384).
  { unfold val3, short_vector. cbn [fx fy fz]. rewrite V, VZ. apply norm3_x. lra. }
  split; [exact FA|]. split; [exact NV|]. intros L Q OK RQ.
  assert (NB : norm3 (val3 short_vector) <= bpow radix2 100) by (rewrite NV; apply Rle_trans with (bpow radix2 0); [change (bpow radix2 0) with 1; lra|apply bpow_le; lia]).
  destruct (float_exp_partial L short_vector Q OK FA NB RQ) as (FQ & _).
  destruct (fnorm3_err L short_vector OK FA) as (FT & T0 & TN & _); [apply Rle_trans with (1 := NB); apply bpow_le; lia|].
  rewrite NV in TN. pose proof u_val as UV. destruct eps4_val as [EV EF].
  assert (TM : Rabs (B2R (fnorm3 L short_vector) - / 16384) <= 42 / 10 * u * / 16384).
  { apply TN. unfold tiny400. apply Rle_trans with (bpow radix2 (-14)); [apply bpow_le; lia|cbn; lra]. }
  apply Rabs_le_inv in TM. rewrite UV in TM. set (th := fnorm3 L short_vector) in *.
  assert (LT : fltb th feps4 = true). { destruct (fltb th feps4) eqn:E; auto. apply (proj2 (ltb_val _ _ FT EF)) in E. rewrite EV in E. lra. }
  destruct (na_small th FT) as [FN NA]; [lra|]. set (na := fadd fhalf (fmul (fmul th th) f48)) in *.
  assert (Q0 : f0 (faxisAngle2quat L short_vector) = fmul (flit 1 (-14)) na) by (unfold faxisAngle2quat; fold th; rewrite LT; reflexivity).
  destruct (fmul_rnd (flit 1 (-14)) na 0 FV FN ltac:(lia)) as [VM _]. { rewrite V, Rabs_pos_eq by lra. change (bpow radix2 0) with 1. lra. }
  assert (LOW : / 32768 <= B2R (f0 (faxisAngle2quat L short_vector))).
  { rewrite Q0, VM, V. replace (/ 32768) with (rnd (bpow radix2 (-15))).
    - apply rnd_le. replace (bpow radix2 (-15)) with (/ 32768) by (cbn; lra). lra.
    - rewrite rnd_id; [cbn; lra|]. apply generic_format_bpow. unfold SpecFloat.fexp, SpecFloat.emin. lia. }
  destruct RQ as [[Z _] | [_ EQ]].
  { exfalso. rewrite Z, norm3_0 in NV. lra. }
  rewrite NV in EQ. pose proof (comp4 (sub4 (val4 (faxisAngle2quat L short_vector)) Q)) as (C & _). fold (dist4 (val4 (faxisAngle2quat L short_vector)) Q) in C.
  eapply Rlt_le_trans; [|exact C]. eapply Rlt_le_trans; [|apply Rle_abs]. cbn [sub4 e0 val4]. rewrite EQ. cbn [e0]. 
  replace (vx (val3 short_vector)) with (/ 16384) by (unfold val3, short_vector; cbn [fx vx]; now rewrite V).
  replace (sin (/ 16384 / 2) / / 16384 * / 16384) with (sin (/ 32768)) by (replace (/ 16384 / 2) with (/ 32768) by lra; field).
  pose proof (sin_fifth (/ 32768) ltac:(lra)) as SF. change (bpow radix2 (-52)) with (/ 4503599627370496). lra.
Qed.

(** *** the hypotheses are met *)
Definition ex_rotation : F3 := mkF3 (fofZ 3) (fneg (fofZ 1)) fhalf.
Example ex_rotation_ok : rotation_ok ex_rotation /\ rotation_ok short_vector.
Proof.
  destruct float_exp_refuted as (F & N & _). assert (F' : finite3 ex_rotation) by (unfold finite3; refine (conj _ (conj _ _)); vm_compute; reflexivity). split; (split; [assumption|]).
  - apply Rle_trans with (2 * 3); [|change 100%Z with (3 + 97)%Z; rewrite bpow_plus; change (bpow radix2 3) with 8; assert (1 <= bpow radix2 97) by (change 1 with (bpow radix2 0); apply bpow_le; lia); lra].
    assert (V1 : B2R (fofZ 3) = 3) by (vm_compute; lra). assert (V2 : B2R (fneg (fofZ 1)) = -1) by (vm_compute; lra). assert (V3 : B2R fhalf = 1 / 2) by apply fhalf_correct.
    apply norm3_le; unfold val3, ex_rotation; cbn [fx fy fz vx vy vz]; rewrite ?V1, ?V2, ?V3; try lra; unfold Rabs; destruct (Rcase_abs _); lra.
  - rewrite N. apply Rle_trans with (bpow radix2 0); [change (bpow radix2 0) with 1; lra|apply bpow_le; lia].
Qed.
Example ex_turned : exists R, turned quatIdentity (map val3 [ex_rotation; short_vector; ex_rotation]) R.
Proof.
  cbn [map]. destruct (rotation_quaternion_exists (val3 ex_rotation)) as [E HE]. destruct (rotation_quaternion_exists (val3 short_vector)) as [E' HE'].
  eexists. eapply turned_by; [exact HE|]. eapply turned_by; [exact HE'|]. eapply turned_by; [exact HE|]. apply turned_none.
Qed.
Example ex_step : step_error (norm3 (val3 short_vector)) < / 50000000000000.
Proof.
  destruct float_exp_refuted as (_ & N & _). rewrite N. unfold step_error, small_error. destruct (Rlt_dec _ _) as [H|H]; [|lra]. rewrite u_val. lra.
Qed.
