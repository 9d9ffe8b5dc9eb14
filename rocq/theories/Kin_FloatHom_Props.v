(** C144: homogeneous points in double precision. *)
From Coq Require Import Reals Psatz List Permutation Lia.
From Verif Require Import Float64 Nsec_Proofs TimerTable_Num Kin_Float_Model Kin_FloatHom_Model.
From Verif Require Import LinAlg Kin_Quat_Props Kin_Trans_Model Kin_Trans_Props Kin_Float_Geom Kin_Float_Num Kin_Float_Props Kin_FloatR_Props Kin_FloatMat_Props Kin_Quat_Model.
Import ListNotations.
Open Scope R_scope.

(** ** Specification *)
(** expressions over homogeneous points, and what the library computes for them *)
Inductive hexp := HLeaf (p : F4) | HAdd (a b : hexp) | HSub (a b : hexp) | HScale (a : hexp) (s : f64).
Fixpoint heval (e : hexp) : F4 :=
  match e with HLeaf p => p | HAdd a b => fhp_add (heval a) (heval b) | HSub a b => fhp_sub (heval a) (heval b) | HScale a s => fhp_scale (heval a) s end.
(** the same expression over the Euclidean points: once with plain double vectors ... *)
Definition fscaled3 (v : F3) (s : f64) : F3 := mkF3 (fmul (fx v) s) (fmul (fy v) s) (fmul (fz v) s).
Fixpoint heval3 (e : hexp) : F3 :=
  match e with HLeaf p => fhead3 p | HAdd a b => fadd3 (heval3 a) (heval3 b) | HSub a b => fsub3 (heval3 a) (heval3 b) | HScale a s => fscaled3 (heval3 a) s end.
(** ... and once exactly: coordinate i *)
Fixpoint heuclid (i : nat) (e : hexp) : R :=
  match e with HLeaf p => B2R (fat4 p i) / B2R (f3 p) | HAdd a b => heuclid i a + heuclid i b | HSub a b => heuclid i a - heuclid i b | HScale a s => heuclid i a * B2R s end.
(** every leaf is a Euclidean point *)
Fixpoint euclidean (e : hexp) : Prop := match e with HLeaf p => f3 p = fofZ 1 | HAdd a b | HSub a b => euclidean a /\ euclidean b | HScale a _ => euclidean a end.
(** number of nodes, sum of the sizes of the terms, product of the scales *)
Fixpoint hsize (e : hexp) : R := match e with HLeaf _ => 1 | HAdd a b | HSub a b => hsize a + hsize b + 1 | HScale a _ => hsize a + 1 end.
Fixpoint hmag (i : nat) (e : hexp) : R :=
  match e with HLeaf p => Rabs (B2R (fat4 p i) / B2R (f3 p)) | HAdd a b | HSub a b => hmag i a + hmag i b | HScale a s => hmag i a * Rabs (B2R s) end.
Fixpoint hscale (e : hexp) : R := match e with HLeaf p => B2R (f3 p) | HAdd a b | HSub a b => hscale a * hscale b | HScale a _ => hscale a end.
(** sums and differences of finite points whose scales, multiplied up, and whose coordinates stay far from overflow and underflow *)
Fixpoint moderate (e : hexp) : Prop :=
  (bpow radix2 (-300) <= Rabs (hscale e) <= bpow radix2 300 /\ forall i, (i < 3)%nat -> hmag i e <= bpow radix2 300) /\
  match e with HLeaf p => is_finite (f0 p) = true /\ is_finite (f1 p) = true /\ is_finite (f2 p) = true /\ is_finite (f3 p) = true
  | HAdd a b | HSub a b => moderate a /\ moderate b | HScale _ _ => False end.

(** ** scale one *)
Lemma one_computed : B2SF (fofZ 1) = SpecFloat.S754_finite false 4503599627370496 (-52). Proof. vm_compute. reflexivity. Qed.
Lemma one_facts : B2R (fofZ 1) = 1 /\ is_finite (fofZ 1) = true /\ Bsign (fofZ 1) = false.
Proof. destruct (fofZ_correct 1 ltac:(lia)) as [V F]. split; [exact V|]. split; [exact F|]. pose proof one_computed as C. destruct (fofZ 1); try discriminate C. injection C as -> _ _. reflexivity. Qed.
Lemma fmul_one x : fmul x (fofZ 1) = x.
Proof.
  destruct one_facts as (V & F & SG). destruct x as [s|s| |s m e H] eqn:X; subst.
  - destruct (fofZ 1) as [s'|s'| |s' m' e' H'] eqn:O; try discriminate F; cbn [Bsign] in SG; subst; [cbn [B2R] in V; lra|]. unfold fmul. cbn. now rewrite Bool.xorb_false_r.
  - destruct (fofZ 1) as [s'|s'| |s' m' e' H'] eqn:O; try discriminate F; cbn [Bsign] in SG; subst; [cbn [B2R] in V; lra|]. unfold fmul. cbn. now rewrite Bool.xorb_false_r.
  - destruct (fofZ 1); reflexivity.
  - set (x := B754_finite s m e H : f64) in *. pose proof (Bmult_correct 53 1024 _ _ mode_NE x (fofZ 1)) as K. rewrite V, Rmult_1_r in K.
    assert (G : generic_format radix2 (SpecFloat.fexp 53 1024) (B2R x)) by apply generic_format_B2R.
    change (round_mode mode_NE) with (ZnearestE) in K. rewrite round_generic in K by (try apply valid_rnd_N; exact G). rewrite Rlt_bool_true in K by apply abs_B2R_lt_emax.
    destruct K as (K1 & K2 & K3). fold (fmul x (fofZ 1)) in *. rewrite F in K2. assert (FX : is_finite x = true) by reflexivity. rewrite FX in K2. cbn [andb] in K2.
    apply B2R_Bsign_inj; auto. rewrite K3, SG by (destruct (fmul x (fofZ 1)); try discriminate K2; reflexivity). apply Bool.xorb_false_r.
Qed.
Lemma one_div_one : fdiv (fofZ 1) (fofZ 1) = fofZ 1.
Proof.
  destruct one_facts as (V & F & SG). destruct (fdiv_rnd (fofZ 1) (fofZ 1) 0 F ltac:(rewrite V; lra) ltac:(lia)) as [VD FD]; [rewrite V; unfold Rdiv; rewrite Rinv_1, Rmult_1_r, Rabs_R1; cbn; lra|].
  rewrite V in VD. replace (1 / 1) with (IZR 1) in VD by (cbn; field). rewrite rnd_id in VD by (apply format_IZR; cbn; lia).
  apply B2R_inj; [|  |now rewrite VD].
  - unfold is_finite_strict. destruct (fdiv (fofZ 1) (fofZ 1)); try discriminate FD; [cbn [B2R] in VD; lra|reflexivity].
  - destruct (fofZ 1); try discriminate F; [cbn [B2R] in V; lra|reflexivity].
Qed.
(** Sums, differences and multiples of Euclidean points, however deep: the scale stays 1 and the coordinates are those of plain vector arithmetic, bit for bit (infinities
    and NaN included), and toEuclidean returns them. *)
Theorem euclidean_points_exact e : euclidean e -> heval e = fhp_of (heval3 e) /\ fhp_toEuclidean (heval e) = heval3 e.
Proof.
  intros H. assert (A : heval e = fhp_of (heval3 e)).
  { induction e as [p|a IHa b IHb|a IHa b IHb|a IHa s]; cbn [euclidean heval heval3] in *.
    - destruct p as [x y z w]. cbn [f3] in H. now subst w.
    - destruct H as [HA HB]. rewrite (IHa HA), (IHb HB). unfold fhp_add, fhp_of, fadd3. cbn [f0 f1 f2 f3 fx fy fz]. now rewrite !fmul_one.
    - destruct H as [HA HB]. rewrite (IHa HA), (IHb HB). unfold fhp_sub, fhp_of, fsub3. cbn [f0 f1 f2 f3 fx fy fz]. now rewrite !fmul_one.
    - rewrite (IHa H). reflexivity. }
  split; [exact A|]. rewrite A. unfold fhp_toEuclidean, fhp_of. cbn [f0 f1 f2 f3]. rewrite one_div_one, !fmul_one. now destruct (heval3 e).
Qed.

(** ** other scales *)
Definition tau := bpow radix2 (-400).
Lemma tau_pos : 0 < tau. Proof. apply bpow_gt_0. Qed.
Lemma tau_small : tau <= u / 1000000. 
Proof. unfold tau. rewrite u_val. apply Rle_trans with (bpow radix2 (-80)); [apply bpow_le; lia|]. replace (bpow radix2 (-80)) with (/ 1208925819614629174706176) by (cbn; lra). lra. Qed.
Lemma hscale_room W : bpow radix2 (-300) <= Rabs W -> 1000 * eta <= Rabs W * tau /\ 1000 * eta <= u * Rabs W.
Proof.
  intros H. pose proof eta_pos as EP. assert (E : 1000 * eta <= bpow radix2 (-800)).
  { apply Rle_trans with (bpow radix2 10 * eta); [apply Rmult_le_compat_r; [lra|change (bpow radix2 10) with 1024; lra]|]. rewrite <- bpow_plus. apply bpow_le. lia. }
  split; apply Rle_trans with (1 := E).
  - apply Rle_trans with (bpow radix2 (-300) * tau); [unfold tau; rewrite <- bpow_plus; apply bpow_le; lia|]. apply Rmult_le_compat_r; [pose proof tau_pos; lra|exact H].
  - apply Rle_trans with (u * bpow radix2 (-300)); [rewrite <- bpow_plus; apply bpow_le; lia|]. apply Rmult_le_compat_l; [pose proof u53_pos; lra|exact H].
Qed.
Definition LIM : R := 1048576.
Definition Derr n := 101 / 100 * n * u.
Definition Eerr n m := 4 * n * (u * m) + n * tau.
Lemma Dsmall n1 n2 : 1 <= n1 <= LIM -> 1 <= n2 <= LIM -> 0 <= Derr n2 <= / 10 ^ 9 /\ 0 <= n1 * Derr n2 <= 2 / 10 ^ 4.
Proof.
  unfold LIM, Derr. intros A B. pose proof u53_pos as UP. pose proof u_val as UV. assert (N : n1 * n2 <= 1048576 * 1048576) by (apply Rmult_le_compat; lra).
  assert (N0 : 0 <= n1 * n2) by (apply Rmult_le_pos; lra). assert (UN : n2 * u <= 1048576 * u) by (apply Rmult_le_compat_r; lra). assert (UN0 : 0 <= n2 * u) by (apply Rmult_le_pos; lra).
  assert (UNN : n1 * n2 * u <= 1048576 * 1048576 * u) by (apply Rmult_le_compat_r; lra). assert (UNN0 : 0 <= n1 * n2 * u) by (apply Rmult_le_pos; lra).
  replace (n1 * (101 / 100 * n2 * u)) with (101 / 100 * (n1 * n2 * u)) by ring. rewrite UV in *. lra.
Qed.
Lemma product_part x w W1 W2 a m E D : Rabs a <= m -> Rabs (x - W1 * a) <= Rabs W1 * E -> Rabs (w - W2) <= Rabs W2 * D -> 0 <= D -> 0 <= E ->
  Rabs (x * w - W1 * W2 * a) <= Rabs (W1 * W2) * (E * (1 + D) + m * D).
Proof.
  intros A X Y D0 E0. replace (x * w - W1 * W2 * a) with ((x - W1 * a) * w + W1 * a * (w - W2)) by ring. apply Rle_trans with (1 := Rabs_triang _ _). rewrite !Rabs_mult.
  assert (WB : Rabs w <= Rabs W2 * (1 + D)). { replace w with (W2 + (w - W2)) at 1 by ring. apply Rle_trans with (1 := Rabs_triang _ _). lra. }
  assert (T1 : Rabs (x - W1 * a) * Rabs w <= Rabs W1 * E * (Rabs W2 * (1 + D))) by (apply Rmult_le_compat; auto using Rabs_pos).
  assert (T2 : Rabs W1 * Rabs a * Rabs (w - W2) <= Rabs W1 * m * (Rabs W2 * D)). { apply Rmult_le_compat; auto using Rabs_pos; [apply Rmult_le_pos; apply Rabs_pos|]. apply Rmult_le_compat_l; auto using Rabs_pos. }
  lra.
Qed.
Lemma Zbound n1 n2 m : 1 <= n1 <= LIM -> 1 <= n2 <= LIM -> 0 <= m -> 
  Eerr n1 m * (1 + Derr n2) + m * Derr n2 <= 4 * n1 * (u * m) + 101 / 100 * n2 * (u * m) + / 1000 * (u * m) + n1 * tau + / 1000 * tau /\ 
  Eerr n1 m * (1 + Derr n2) + m * Derr n2 <= / 1000 * m + / 1000.
Proof.
  intros A B M. destruct (Dsmall n1 n2 A B) as [[D0 D1] [N0 N1]]. pose proof u53_pos as UP. pose proof u_val as UV. pose proof tau_pos as TP. pose proof tau_small as TS. set (D := Derr n2) in *.
  assert (UM : 0 <= u * m) by (apply Rmult_le_pos; lra). assert (MD : m * D = 101 / 100 * n2 * (u * m)) by (unfold D, Derr; ring).
  assert (ED : Eerr n1 m * D = n1 * D * (4 * (u * m) + tau)) by (unfold Eerr; ring). assert (ED2 : n1 * D * (4 * (u * m) + tau) <= 2 / 10 ^ 4 * (4 * (u * m) + tau)) by (apply Rmult_le_compat_r; lra).
  assert (FIRST : Eerr n1 m * (1 + D) + m * D <= 4 * n1 * (u * m) + 101 / 100 * n2 * (u * m) + / 1000 * (u * m) + n1 * tau + / 1000 * tau).
  { replace (Eerr n1 m * (1 + D) + m * D) with (Eerr n1 m + Eerr n1 m * D + m * D) by ring. rewrite ED, MD. unfold Eerr. lra. }
  split; [exact FIRST|]. apply Rle_trans with (1 := FIRST). unfold LIM in *.
  assert (K1 : n1 * (u * m) <= 1048576 * (u * m)) by (apply Rmult_le_compat_r; lra). assert (K2 : n2 * (u * m) <= 1048576 * (u * m)) by (apply Rmult_le_compat_r; lra).
  assert (K3 : u * m <= / 10 ^ 15 * m) by (apply Rmult_le_compat_r; rewrite ?UV; lra). assert (K4 : n1 * tau <= 1048576 * tau) by (apply Rmult_le_compat_r; lra). rewrite UV in TS. lra.
Qed.
(** one product in floats *)
Lemma bpow_room a b : Rabs a <= bpow radix2 301 -> Rabs b <= bpow radix2 301 -> Rabs (a * b) <= bpow radix2 700.
Proof. intros A B. rewrite Rabs_mult. apply Rle_trans with (bpow radix2 301 * bpow radix2 301); [apply Rmult_le_compat; auto using Rabs_pos|]. rewrite <- bpow_plus. apply bpow_le. lia. Qed.
Definition near_hom (p : f64) (w : f64) (W a m n : R) : Prop := is_finite p = true /\ Rabs (B2R p - W * a) <= Rabs W * Eerr n m /\ is_finite w = true /\ Rabs (B2R w - W) <= Rabs W * Derr n.
Lemma one_product (x1 w2 : f64) W1 W2 a m n1 n2 : is_finite x1 = true -> is_finite w2 = true -> Rabs (B2R x1 - W1 * a) <= Rabs W1 * Eerr n1 m -> Rabs (B2R w2 - W2) <= Rabs W2 * Derr n2 ->
  1 <= n1 <= LIM -> 1 <= n2 <= LIM -> Rabs a <= m -> m <= bpow radix2 300 -> bpow radix2 (-300) <= Rabs (W1 * W2) <= bpow radix2 300 ->
  is_finite (fmul x1 w2) = true /\ Rabs (B2R (fmul x1 w2) - W1 * W2 * a) <= Rabs (W1 * W2) * (4 * n1 * (u * m) + 101 / 100 * n2 * (u * m) + 1003 / 1000 * (u * m) + n1 * tau + 3 / 1000 * tau) + eta.
Proof.
  intros FX FW X Y A B AM MB [W0 WB]. assert (M0 : 0 <= m) by (pose proof (Rabs_pos a); lra). destruct (Dsmall n1 n2 A B) as [[D0 _] _]. destruct (Zbound n1 n2 m A B M0) as [Z1 Z2].
  pose proof u53_pos as UP. pose proof u_val as UV. pose proof tau_pos as TP. pose proof eta_pos as EP. pose proof tau_small as TS.
  assert (UM : 0 <= u * m) by (apply Rmult_le_pos; lra).
  assert (E0 : 0 <= Eerr n1 m) by (unfold Eerr; assert (0 <= n1 * (u * m)) by (apply Rmult_le_pos; lra); assert (0 <= n1 * tau) by (apply Rmult_le_pos; lra); lra).
  pose proof (product_part _ _ _ _ _ _ _ _ AM X Y D0 E0) as P. set (W := W1 * W2) in *. set (Z := Eerr n1 m * (1 + Derr n2) + m * Derr n2) in *.
  assert (PB : Rabs (B2R x1 * B2R w2) <= Rabs W * (1001 / 1000 * m + / 1000)).
  { replace (B2R x1 * B2R w2) with ((B2R x1 * B2R w2 - W * a) + W * a) by ring. apply Rle_trans with (1 := Rabs_triang _ _). rewrite (Rabs_mult W a).
    assert (Rabs W * Rabs a <= Rabs W * m) by (apply Rmult_le_compat_l; [apply Rabs_pos|exact AM]). assert (Rabs W * Z <= Rabs W * (/ 1000 * m + / 1000)) by (apply Rmult_le_compat_l; [apply Rabs_pos|exact Z2]). lra. }
  assert (PB2 : Rabs (B2R x1 * B2R w2) <= bpow radix2 700).
  { apply Rle_trans with (1 := PB). apply Rle_trans with (bpow radix2 300 * bpow radix2 301); [|rewrite <- bpow_plus; apply bpow_le; lia]. apply Rmult_le_compat; [apply Rabs_pos|lra|exact WB|].
    change 301%Z with (1 + 300)%Z. rewrite bpow_plus. change (bpow radix2 1) with 2. assert (1 <= bpow radix2 300) by (change 1 with (bpow radix2 0); apply bpow_le; lia). lra. }
  destruct (fmul_rnd x1 w2 700 FX FW ltac:(lia) PB2) as [V F]. split; [exact F|]. rewrite V. pose proof (rnd_err (B2R x1 * B2R w2)) as R.
  assert (PB3 : u * Rabs (B2R x1 * B2R w2) <= Rabs W * (u * m + u * Z)).
  { apply Rle_trans with (u * (Rabs W * (m + Z))); [apply Rmult_le_compat_l; [lra|]|right; ring]. replace (B2R x1 * B2R w2) with ((B2R x1 * B2R w2 - W * a) + W * a) by ring. apply Rle_trans with (1 := Rabs_triang _ _).
    rewrite (Rabs_mult W a). assert (Rabs W * Rabs a <= Rabs W * m) by (apply Rmult_le_compat_l; [apply Rabs_pos|exact AM]). lra. }
  assert (UZ : u * Z <= / 1000 * (u * m) + / 1000 * tau).
  { assert (u * Z <= u * (4 * n1 * (u * m) + 101 / 100 * n2 * (u * m) + / 1000 * (u * m) + n1 * tau + / 1000 * tau)) by (apply Rmult_le_compat_l; lra). unfold LIM in *.
    assert (K1 : u * n1 * (u * m) <= / 10 ^ 5 * (u * m)) by (apply Rmult_le_compat_r; [lra|]; assert (u * n1 <= u * 1048576) by (apply Rmult_le_compat_l; lra); rewrite UV in *; lra).
    assert (K2 : u * n2 * (u * m) <= / 10 ^ 5 * (u * m)) by (apply Rmult_le_compat_r; [lra|]; assert (u * n2 <= u * 1048576) by (apply Rmult_le_compat_l; lra); rewrite UV in *; lra).
    assert (K3 : u * n1 * tau <= / 10 ^ 5 * tau) by (apply Rmult_le_compat_r; [lra|]; assert (u * n1 <= u * 1048576) by (apply Rmult_le_compat_l; lra); rewrite UV in *; lra).
    assert (K4 : u * (u * m) <= / 10 ^ 5 * (u * m)) by (apply Rmult_le_compat_r; [lra|]; rewrite UV; lra). assert (K5 : u * tau <= / 10 ^ 5 * tau) by (apply Rmult_le_compat_r; [lra|]; rewrite UV; lra). lra. }
  replace (rnd (B2R x1 * B2R w2) - W * a) with ((rnd (B2R x1 * B2R w2) - B2R x1 * B2R w2) + (B2R x1 * B2R w2 - W * a)) by ring. apply Rle_trans with (1 := Rabs_triang _ _).
  assert (T : Rabs W * (Z + (u * m + u * Z)) <= Rabs W * (4 * n1 * (u * m) + 101 / 100 * n2 * (u * m) + 1003 / 1000 * (u * m) + n1 * tau + 3 / 1000 * tau)) by (apply Rmult_le_compat_l; [apply Rabs_pos|lra]). lra.
Qed.
(** the sum of two products; rop/fop: plus or minus (Kin_FloatR_Props) *)
Lemma one_sum s (p1 p2 : f64) W a1 a2 m1 m2 n1 n2 : is_finite p1 = true -> is_finite p2 = true -> 1 <= n1 <= LIM -> 1 <= n2 <= LIM -> Rabs a1 <= m1 -> Rabs a2 <= m2 -> m1 + m2 <= bpow radix2 300 ->
  bpow radix2 (-300) <= Rabs W <= bpow radix2 300 ->
  Rabs (B2R p1 - W * a1) <= Rabs W * (4 * n1 * (u * m1) + 101 / 100 * n2 * (u * m1) + 1003 / 1000 * (u * m1) + n1 * tau + 3 / 1000 * tau) + eta ->
  Rabs (B2R p2 - W * a2) <= Rabs W * (4 * n2 * (u * m2) + 101 / 100 * n1 * (u * m2) + 1003 / 1000 * (u * m2) + n2 * tau + 3 / 1000 * tau) + eta ->
  is_finite (fop s p1 p2) = true /\ Rabs (B2R (fop s p1 p2) - W * rop s a1 a2) <= Rabs W * Eerr (n1 + n2 + 1) (m1 + m2).
Proof.
  intros F1 F2 A B A1 A2 MB [W0 WB] P1 P2. pose proof u53_pos as UP. pose proof u_val as UV. pose proof tau_pos as TP. pose proof tau_small as TS. pose proof eta_pos as EP. destruct (hscale_room W W0) as [HT HU].
  assert (M1 : 0 <= m1) by (pose proof (Rabs_pos a1); lra). assert (M2 : 0 <= m2) by (pose proof (Rabs_pos a2); lra). assert (UM1 : 0 <= u * m1) by (apply Rmult_le_pos; lra). assert (UM2 : 0 <= u * m2) by (apply Rmult_le_pos; lra).
  set (Y1 := 4 * n1 * (u * m1) + 101 / 100 * n2 * (u * m1) + 1003 / 1000 * (u * m1) + n1 * tau + 3 / 1000 * tau) in *.
  set (Y2 := 4 * n2 * (u * m2) + 101 / 100 * n1 * (u * m2) + 1003 / 1000 * (u * m2) + n2 * tau + 3 / 1000 * tau) in *.
  set (S := rop s (B2R p1) (B2R p2)). assert (RA : Rabs (rop s a1 a2) <= m1 + m2). { destruct s; unfold rop; [unfold Rminus|]; apply Rle_trans with (1 := Rabs_triang _ _); rewrite ?Rabs_Ropp; lra. }
  assert (SE : Rabs (S - W * rop s a1 a2) <= Rabs W * (Y1 + Y2) + 2 * eta).
  { assert (E : S - W * rop s a1 a2 = rop s (B2R p1 - W * a1) (B2R p2 - W * a2)) by (unfold S; destruct s; unfold rop; ring). rewrite E.
    assert (G : forall x y, Rabs (rop s x y) <= Rabs x + Rabs y) by (intros; destruct s; unfold rop; [unfold Rminus; rewrite <- (Rabs_Ropp y)|]; apply Rabs_triang). apply Rle_trans with (1 := G _ _). lra. }
  assert (UY : forall n n' m, 1 <= n <= LIM -> 1 <= n' <= LIM -> 0 <= m -> 0 <= u * m -> 
    u * (4 * n * (u * m) + 101 / 100 * n' * (u * m) + 1003 / 1000 * (u * m) + n * tau + 3 / 1000 * tau) <= / 1000 * (u * m) + / 1000 * tau /\ 4 * n * (u * m) + 101 / 100 * n' * (u * m) + 1003 / 1000 * (u * m) + n * tau + 3 / 1000 * tau <= / 1000 * m + / 1000).
  { intros n n' m N N' M UM. unfold LIM in *.
    assert (K1 : u * n * (u * m) <= / 10 ^ 5 * (u * m)) by (apply Rmult_le_compat_r; [lra|]; assert (u * n <= u * 1048576) by (apply Rmult_le_compat_l; lra); rewrite UV in *; lra).
    assert (K2 : u * n' * (u * m) <= / 10 ^ 5 * (u * m)) by (apply Rmult_le_compat_r; [lra|]; assert (u * n' <= u * 1048576) by (apply Rmult_le_compat_l; lra); rewrite UV in *; lra).
    assert (K3 : u * n * tau <= / 10 ^ 5 * tau) by (apply Rmult_le_compat_r; [lra|]; assert (u * n <= u * 1048576) by (apply Rmult_le_compat_l; lra); rewrite UV in *; lra).
    assert (K4 : u * (u * m) <= / 10 ^ 5 * (u * m)) by (apply Rmult_le_compat_r; [lra|]; rewrite UV; lra). assert (K5 : u * tau <= / 10 ^ 5 * tau) by (apply Rmult_le_compat_r; [lra|]; rewrite UV; lra). split; [lra|].
    assert (J1 : n * (u * m) <= 1048576 * (u * m)) by (apply Rmult_le_compat_r; lra). assert (J2 : n' * (u * m) <= 1048576 * (u * m)) by (apply Rmult_le_compat_r; lra).
    assert (J3 : u * m <= / 10 ^ 15 * m) by (apply Rmult_le_compat_r; rewrite ?UV; lra). assert (J4 : n * tau <= 1048576 * tau) by (apply Rmult_le_compat_r; lra). assert (J5 : tau <= / 10 ^ 20) by (rewrite UV in TS; lra). lra. }
  destruct (UY n1 n2 m1 A B M1 UM1) as [U1 V1]. destruct (UY n2 n1 m2 B A M2 UM2) as [U2 V2]. fold Y1 in U1, V1. fold Y2 in U2, V2.
  assert (SB : Rabs S <= Rabs W * (m1 + m2 + (Y1 + Y2)) + 2 * eta).
  { replace S with ((S - W * rop s a1 a2) + W * rop s a1 a2) by ring. apply Rle_trans with (1 := Rabs_triang _ _). rewrite (Rabs_mult W). assert (Rabs W * Rabs (rop s a1 a2) <= Rabs W * (m1 + m2)) by (apply Rmult_le_compat_l; [apply Rabs_pos|exact RA]). lra. }
  assert (SB2 : Rabs S <= bpow radix2 700).
  { apply Rle_trans with (1 := SB). apply Rle_trans with (bpow radix2 300 * bpow radix2 301 + 1).
    - apply Rplus_le_compat; [|rewrite UV in TS; destruct BIG_eta; lra]. apply Rmult_le_compat; [apply Rabs_pos| |exact WB|].
      + assert (0 <= n1 * (u * m1)) by (apply Rmult_le_pos; lra). assert (0 <= n2 * (u * m1)) by (apply Rmult_le_pos; lra). assert (0 <= n1 * tau) by (apply Rmult_le_pos; lra). 
        assert (0 <= n1 * (u * m2)) by (apply Rmult_le_pos; lra). assert (0 <= n2 * (u * m2)) by (apply Rmult_le_pos; lra). assert (0 <= n2 * tau) by (apply Rmult_le_pos; lra). unfold Y1, Y2. lra.
      + change 301%Z with (1 + 300)%Z. rewrite bpow_plus. change (bpow radix2 1) with 2. assert (1 <= bpow radix2 300) by (change 1 with (bpow radix2 0); apply bpow_le; lia). lra.
    - rewrite <- bpow_plus. change (300 + 301)%Z with 601%Z. assert (1 <= bpow radix2 601) by (change 1 with (bpow radix2 0); apply bpow_le; lia). apply Rle_trans with (bpow radix2 1 * bpow radix2 601); [change (bpow radix2 1) with 2; lra|]. rewrite <- bpow_plus. apply bpow_le. lia. }
  assert (OP : is_finite (fop s p1 p2) = true /\ B2R (fop s p1 p2) = rnd S).
  { unfold S in *. destruct s; unfold fop, rop in *; [destruct (fsub_rnd p1 p2 700 F1 F2 ltac:(lia) SB2)|destruct (fadd_rnd p1 p2 700 F1 F2 ltac:(lia) SB2)]; auto. }
  destruct OP as [F V]. split; [exact F|]. rewrite V. pose proof (rnd_err S) as RE.
  assert (US : u * Rabs S <= Rabs W * (u * (m1 + m2) + u * (Y1 + Y2)) + eta).
  { apply Rle_trans with (u * (Rabs W * (m1 + m2 + (Y1 + Y2)) + 2 * eta)); [apply Rmult_le_compat_l; lra|]. assert (u * eta <= / 2 * eta) by (apply Rmult_le_compat_r; rewrite ?UV; lra). lra. }
  replace (rnd S - W * rop s a1 a2) with ((rnd S - S) + (S - W * rop s a1 a2)) by ring. apply Rle_trans with (1 := Rabs_triang _ _).
  assert (T : Rabs W * (Y1 + Y2 + (u * (m1 + m2) + u * (Y1 + Y2)) + / 100 * tau) <= Rabs W * Eerr (n1 + n2 + 1) (m1 + m2)).
  { apply Rmult_le_compat_l; [apply Rabs_pos|]. unfold Eerr. 
    assert (0 <= n1 * (u * m1)) by (apply Rmult_le_pos; lra). assert (0 <= n2 * (u * m1)) by (apply Rmult_le_pos; lra). assert (0 <= n1 * (u * m2)) by (apply Rmult_le_pos; lra). assert (0 <= n2 * (u * m2)) by (apply Rmult_le_pos; lra).
    unfold Y1, Y2 in *. lra. }
  lra.
Qed.
Lemma one_scale (w1 w2 : f64) W1 W2 n1 n2 : is_finite w1 = true -> is_finite w2 = true -> Rabs (B2R w1 - W1) <= Rabs W1 * Derr n1 -> Rabs (B2R w2 - W2) <= Rabs W2 * Derr n2 -> 1 <= n1 <= LIM -> 1 <= n2 <= LIM ->
  bpow radix2 (-300) <= Rabs (W1 * W2) <= bpow radix2 300 -> is_finite (fmul w1 w2) = true /\ Rabs (B2R (fmul w1 w2) - W1 * W2) <= Rabs (W1 * W2) * Derr (n1 + n2 + 1).
Proof.
  intros F1 F2 X Y A B [W0 WB]. destruct (Dsmall n1 n2 A B) as [[D20 D21] [N0 N1]]. destruct (Dsmall n2 n1 B A) as [[D10 D11] _]. pose proof u53_pos as UP. pose proof u_val as UV. destruct (hscale_room _ W0) as [_ HU].
  assert (X' : Rabs (B2R w1 - W1 * 1) <= Rabs W1 * Derr n1) by now rewrite Rmult_1_r.
  pose proof (product_part (B2R w1) (B2R w2) W1 W2 1 1 (Derr n1) (Derr n2) ltac:(rewrite Rabs_R1; lra) X' Y D20 D10) as P. rewrite Rmult_1_r in P. set (W := W1 * W2) in *.
  assert (DD : Derr n1 * Derr n2 <= 3 / 10 ^ 4 * u). { replace (Derr n1 * Derr n2) with (101 / 100 * (n1 * Derr n2) * u) by (unfold Derr; ring). apply Rmult_le_compat_r; lra. }
  assert (PB : Rabs (B2R w1 * B2R w2) <= Rabs W * (1001 / 1000)).
  { replace (B2R w1 * B2R w2) with ((B2R w1 * B2R w2 - W) + W) by ring. apply Rle_trans with (1 := Rabs_triang _ _). assert (Rabs W * (Derr n1 * (1 + Derr n2) + 1 * Derr n2) <= Rabs W * (/ 1000)) by (apply Rmult_le_compat_l; [apply Rabs_pos|rewrite UV in DD; lra]). lra. }
  assert (PB2 : Rabs (B2R w1 * B2R w2) <= bpow radix2 700).
  { apply Rle_trans with (1 := PB). apply Rle_trans with (bpow radix2 300 * bpow radix2 1); [apply Rmult_le_compat; [apply Rabs_pos|lra|exact WB|change (bpow radix2 1) with 2; lra]|]. rewrite <- bpow_plus. apply bpow_le. lia. }
  destruct (fmul_rnd w1 w2 700 F1 F2 ltac:(lia) PB2) as [V F]. split; [exact F|]. rewrite V. pose proof (rnd_err (B2R w1 * B2R w2)) as RE.
  assert (UB : u * Rabs (B2R w1 * B2R w2) <= Rabs W * (1001 / 1000 * u)) by (apply Rle_trans with (u * (Rabs W * (1001 / 1000))); [apply Rmult_le_compat_l; lra|right; ring]).
  replace (rnd (B2R w1 * B2R w2) - W) with ((rnd (B2R w1 * B2R w2) - B2R w1 * B2R w2) + (B2R w1 * B2R w2 - W)) by ring. apply Rle_trans with (1 := Rabs_triang _ _).
  assert (T : Rabs W * (Derr n1 * (1 + Derr n2) + 1 * Derr n2 + 1001 / 1000 * u + / 1000 * u) <= Rabs W * Derr (n1 + n2 + 1)) by (apply Rmult_le_compat_l; [apply Rabs_pos|unfold Derr in *; lra]). lra.
Qed.
Lemma hsize_one e : 1 <= hsize e. Proof. induction e; cbn [hsize]; lra. Qed.
Lemma heuclid_mag i e : Rabs (heuclid i e) <= hmag i e.
Proof.
  induction e as [p|a IHa b IHb|a IHa b IHb|a IHa s]; cbn [heuclid hmag]; try lra.
  - apply Rle_trans with (1 := Rabs_triang _ _). lra.
  - unfold Rminus. apply Rle_trans with (1 := Rabs_triang _ _). rewrite Rabs_Ropp. lra.
  - rewrite Rabs_mult. apply Rmult_le_compat_r; [apply Rabs_pos|exact IHa].
Qed.
Lemma moderate_inv e : moderate e -> hsize e <= LIM ->
  is_finite (f3 (heval e)) = true /\ Rabs (B2R (f3 (heval e)) - hscale e) <= Rabs (hscale e) * Derr (hsize e) /\
  forall i, (i < 3)%nat -> is_finite (fat4 (heval e) i) = true /\ Rabs (B2R (fat4 (heval e) i) - hscale e * heuclid i e) <= Rabs (hscale e) * Eerr (hsize e) (hmag i e).
Proof.
  pose proof u53_pos as UP. pose proof tau_pos as TP.
  assert (STEP : forall (s : bool) (a b : hexp), (let e := if s then HSub a b else HAdd a b in bpow radix2 (-300) <= Rabs (hscale e) <= bpow radix2 300 /\ (forall i, (i < 3)%nat -> hmag i e <= bpow radix2 300)) ->
    hsize a + hsize b + 1 <= LIM -> 
    (is_finite (f3 (heval a)) = true /\ Rabs (B2R (f3 (heval a)) - hscale a) <= Rabs (hscale a) * Derr (hsize a) /\ forall i, (i < 3)%nat -> is_finite (fat4 (heval a) i) = true /\ Rabs (B2R (fat4 (heval a) i) - hscale a * heuclid i a) <= Rabs (hscale a) * Eerr (hsize a) (hmag i a)) ->
    (is_finite (f3 (heval b)) = true /\ Rabs (B2R (f3 (heval b)) - hscale b) <= Rabs (hscale b) * Derr (hsize b) /\ forall i, (i < 3)%nat -> is_finite (fat4 (heval b) i) = true /\ Rabs (B2R (fat4 (heval b) i) - hscale b * heuclid i b) <= Rabs (hscale b) * Eerr (hsize b) (hmag i b)) ->
    (is_finite (fmul (f3 (heval a)) (f3 (heval b))) = true /\ Rabs (B2R (fmul (f3 (heval a)) (f3 (heval b))) - hscale a * hscale b) <= Rabs (hscale a * hscale b) * Derr (hsize a + hsize b + 1)) /\
    forall i, (i < 3)%nat -> let f := fop s (fmul (fat4 (heval a) i) (f3 (heval b))) (fmul (fat4 (heval b) i) (f3 (heval a))) in
      is_finite f = true /\ Rabs (B2R f - hscale a * hscale b * rop s (heuclid i a) (heuclid i b)) <= Rabs (hscale a * hscale b) * Eerr (hsize a + hsize b + 1) (hmag i a + hmag i b)).
  { intros s a b [RW RM] SZ (FA & WA & XA) (FB & WB & XB). pose proof (hsize_one a) as SA. pose proof (hsize_one b) as SB. assert (NA : 1 <= hsize a <= LIM) by lra. assert (NB : 1 <= hsize b <= LIM) by lra.
    assert (RW' : bpow radix2 (-300) <= Rabs (hscale a * hscale b) <= bpow radix2 300) by (destruct s; exact RW). split; [now apply one_scale|]. intros i I. destruct (XA i I) as [GA EA]. destruct (XB i I) as [GB EB].
    pose proof (heuclid_mag i a) as MA. pose proof (heuclid_mag i b) as MB. assert (MM : hmag i a + hmag i b <= bpow radix2 300) by (specialize (RM i I); destruct s; exact RM).
    pose proof (Rabs_pos (heuclid i a)) as PA. pose proof (Rabs_pos (heuclid i b)) as PB.
    destruct (one_product _ _ _ _ _ _ _ _ GA FB EA WB NA NB MA ltac:(lra) RW') as [F1 P1]. rewrite (Rmult_comm (hscale a)) in RW'. destruct (one_product _ _ _ _ _ _ _ _ GB FA EB WA NB NA MB ltac:(lra) RW') as [F2 P2].
    rewrite (Rmult_comm (hscale b)) in P2, RW'. now apply one_sum. }
  induction e as [p|a IHa b IHb|a IHa b IHb|a IHa s]; intros M SZ; cbn [moderate] in M; destruct M as [R M].
  - destruct M as (F0 & F1 & F2 & F3). cbn [heval hscale heuclid hsize hmag]. cbn [hscale] in R. assert (NZ : B2R (f3 p) <> 0) by (intros H; rewrite H, Rabs_R0 in R; pose proof (bpow_gt_0 radix2 (-300)); lra).
    split; [exact F3|]. split; [rewrite Rminus_diag_eq, Rabs_R0 by reflexivity; apply Rmult_le_pos; [apply Rabs_pos|unfold Derr; lra]|]. intros i I.
    split; [destruct i as [|[|[|]]]; cbn [fat4]; auto; lia|]. replace (B2R (fat4 p i) - B2R (f3 p) * (B2R (fat4 p i) / B2R (f3 p))) with 0 by (field; exact NZ). rewrite Rabs_R0. apply Rmult_le_pos; [apply Rabs_pos|]. unfold Eerr.
    assert (0 <= u * Rabs (B2R (fat4 p i) / B2R (f3 p))) by (apply Rmult_le_pos; [lra|apply Rabs_pos]). lra.
  - destruct M as [MA MB]. cbn [hsize] in SZ. pose proof (hsize_one a) as SA. pose proof (hsize_one b) as SB. destruct (STEP false a b R SZ (IHa MA ltac:(lra)) (IHb MB ltac:(lra))) as [(FW & EW) X].
    cbn [heval hscale hsize hmag heuclid]. unfold fhp_add. cbn [f3]. split; [exact FW|]. split; [exact EW|]. intros i I. specialize (X i I). destruct i as [|[|[|]]]; [exact X|exact X|exact X|lia].
  - destruct M as [MA MB]. cbn [hsize] in SZ. pose proof (hsize_one a) as SA. pose proof (hsize_one b) as SB. destruct (STEP true a b R SZ (IHa MA ltac:(lra)) (IHb MB ltac:(lra))) as [(FW & EW) X].
    cbn [heval hscale hsize hmag heuclid]. unfold fhp_sub. cbn [f3]. split; [exact FW|]. split; [exact EW|]. intros i I. specialize (X i I). destruct i as [|[|[|]]]; [exact X|exact X|exact X|lia].
  - contradiction.
Qed.

(** ** Reading the Euclidean point *)
Lemma euclid_read (x w : f64) : is_finite x = true -> is_finite w = true -> bpow radix2 (-1000) <= Rabs (B2R w) <= bpow radix2 1000 -> Rabs (B2R x / B2R w) <= bpow radix2 1000 ->
  let r := fmul x (fdiv (fofZ 1) w) in is_finite r = true /\ Rabs (B2R r - B2R x / B2R w) <= 201 / 100 * u * Rabs (B2R x / B2R w) + eta.
Proof.
  intros FX FW [W0 W1] XB. destruct one_facts as (OV & OF & _). assert (NZ : B2R w <> 0) by (intros H; rewrite H, Rabs_R0 in W0; pose proof (bpow_gt_0 radix2 (-1000)); lra).
  assert (AW : 0 < Rabs (B2R w)) by now apply Rabs_pos_lt. assert (IA : Rabs (1 / B2R w) = / Rabs (B2R w)) by (unfold Rdiv; rewrite Rmult_1_l; apply Rabs_inv).
  assert (IU : / Rabs (B2R w) <= bpow radix2 1000). { replace (bpow radix2 1000) with (/ bpow radix2 (-1000)) by (rewrite <- bpow_opp; reflexivity). apply Rinv_le; [apply bpow_gt_0|exact W0]. }
  assert (IL : bpow radix2 (-1000) <= / Rabs (B2R w)). { change (-1000)%Z with (- (1000))%Z. rewrite bpow_opp. apply Rinv_le; [exact AW|exact W1]. }
  destruct (fdiv_rnd (fofZ 1) w 1000 OF NZ ltac:(lia)) as [RV RF]; [rewrite OV, IA; exact IU|]. rewrite OV in RV.
  assert (RE : Rabs (B2R (fdiv (fofZ 1) w) - 1 / B2R w) <= u * / Rabs (B2R w)). { rewrite RV, <- IA. apply rnd_rel. rewrite IA. apply Rle_trans with (2 := IL). apply bpow_le. lia. }
  set (r := fdiv (fofZ 1) w) in *. clearbody r. pose proof u53_pos as UP. pose proof u_val as UV. pose proof eta_pos as EP.
  set (Q := B2R x / B2R w) in *. assert (QA : Rabs Q = Rabs (B2R x) * / Rabs (B2R w)) by (unfold Q, Rdiv; now rewrite Rabs_mult, Rabs_inv).
  assert (PE : Rabs (B2R x * B2R r - Q) <= u * Rabs Q). { replace (B2R x * B2R r - Q) with (B2R x * (B2R r - 1 / B2R w)) by (unfold Q; field; exact NZ). rewrite Rabs_mult, QA. apply Rle_trans with (Rabs (B2R x) * (u * / Rabs (B2R w))); [apply Rmult_le_compat_l; [apply Rabs_pos|exact RE]|right; ring]. }
  assert (PB : Rabs (B2R x * B2R r) <= (1 + u) * Rabs Q). { replace (B2R x * B2R r) with ((B2R x * B2R r - Q) + Q) by ring. apply Rle_trans with (1 := Rabs_triang _ _). lra. }
  pose proof (Rabs_pos Q) as QP. assert (UQ : (1 + u) * Rabs Q <= 2 * Rabs Q) by (apply Rmult_le_compat_r; [exact QP|rewrite UV; lra]).
  assert (PB2 : Rabs (B2R x * B2R r) <= bpow radix2 1001). { apply Rle_trans with (1 := PB). change 1001%Z with (1 + 1000)%Z. rewrite bpow_plus. change (bpow radix2 1) with 2. lra. }
  destruct (fmul_rnd x r 1001 FX RF ltac:(lia) PB2) as [V F]. cbv zeta. split; [exact F|]. rewrite V. pose proof (rnd_err (B2R x * B2R r)) as E.
  replace (rnd (B2R x * B2R r) - Q) with ((rnd (B2R x * B2R r) - B2R x * B2R r) + (B2R x * B2R r - Q)) by ring. apply Rle_trans with (1 := Rabs_triang _ _).
  assert (UB : u * Rabs (B2R x * B2R r) <= u * ((1 + u) * Rabs Q)) by (apply Rmult_le_compat_l; lra). assert (UU : u * (1 + u) * Rabs Q <= 101 / 100 * u * Rabs Q). { apply Rmult_le_compat_r; [exact QP|]. rewrite (Rmult_comm (101 / 100)). apply Rmult_le_compat_l; [lra|rewrite UV; lra]. }
  lra.
Qed.
(** toEuclidean divides by the scale to two roundings, as long as the scale and the quotients stay below 2^1000 and the scale above 2^-1000. *)
Theorem toEuclidean_accurate_partial p : finite4 p -> bpow radix2 (-1000) <= Rabs (B2R (f3 p)) <= bpow radix2 1000 -> (forall i, (i < 3)%nat -> Rabs (B2R (fat4 p i) / B2R (f3 p)) <= bpow radix2 1000) ->
  let e := fhp_toEuclidean p in
  finite3 e /\
  Rabs (B2R (fx e) - B2R (f0 p) / B2R (f3 p)) <= 201 / 100 * u * Rabs (B2R (f0 p) / B2R (f3 p)) + eta /\
  Rabs (B2R (fy e) - B2R (f1 p) / B2R (f3 p)) <= 201 / 100 * u * Rabs (B2R (f1 p) / B2R (f3 p)) + eta /\
  Rabs (B2R (fz e) - B2R (f2 p) / B2R (f3 p)) <= 201 / 100 * u * Rabs (B2R (f2 p) / B2R (f3 p)) + eta.
Proof.
  intros (F0 & F1 & F2 & F3) W X e. destruct (euclid_read _ _ F0 F3 W (X 0%nat ltac:(lia))) as [G0 E0]. destruct (euclid_read _ _ F1 F3 W (X 1%nat ltac:(lia))) as [G1 E1].
  destruct (euclid_read _ _ F2 F3 W (X 2%nat ltac:(lia))) as [G2 E2]. split; [exact (conj G0 (conj G1 G2))|]. exact (conj E0 (conj E1 E2)).
Qed.
(** Sums and differences, nested in any way, of up to half a million points with arbitrary scales. *)
Theorem homogeneous_sum_accurate_partial e : moderate e -> hsize e <= 1048576 ->
  let p := fhp_toEuclidean (heval e) in
  let close (x : f64) i := is_finite x = true /\ Rabs (B2R x - heuclid i e) <= 8 * hsize e * u * hmag i e + 2 * hsize e * bpow radix2 (-400) in
  close (fx p) 0%nat /\ close (fy p) 1%nat /\ close (fz p) 2%nat.
Proof.
  intros M SZ p close. pose proof (moderate_inv e M SZ) as (FW & EW & X). assert (RANGE : bpow radix2 (-300) <= Rabs (hscale e) <= bpow radix2 300 /\ forall i, (i < 3)%nat -> hmag i e <= bpow radix2 300) by (destruct e; apply M). destruct RANGE as [[W0 W1] MB].
  pose proof (hsize_one e) as N1. pose proof u53_pos as UP. pose proof u_val as UV. pose proof eta_pos as EP. fold tau in *.
  destruct (Dsmall (hsize e) (hsize e) (conj N1 SZ) (conj N1 SZ)) as [[D0 D1] [ND0 ND1]]. set (W := hscale e) in *. set (n := hsize e) in *. set (D := Derr n) in *.
  assert (AW : 0 < Rabs W) by (pose proof (bpow_gt_0 radix2 (-300)); lra).
  assert (WD : Rabs W * D <= Rabs W * / 10 ^ 9) by (apply Rmult_le_compat_l; lra).
  assert (WL : Rabs W * (1 - / 10 ^ 9) <= Rabs (B2R (f3 (heval e)))). { pose proof (Rabs_triang (B2R (f3 (heval e))) (W - B2R (f3 (heval e)))) as T. replace (B2R (f3 (heval e)) + (W - B2R (f3 (heval e)))) with W in T by ring. rewrite (Rabs_minus_sym W) in T. lra. }
  assert (WU : Rabs (B2R (f3 (heval e))) <= Rabs W * (1 + / 10 ^ 9)). { pose proof (Rabs_triang W (B2R (f3 (heval e)) - W)) as T. replace (W + (B2R (f3 (heval e)) - W)) with (B2R (f3 (heval e))) in T by ring. lra. }
  set (w := f3 (heval e)) in *. assert (AW' : 0 < Rabs (B2R w)) by lra. assert (NZ : B2R w <> 0) by (intros H; rewrite H, Rabs_R0 in AW'; lra).
  assert (RW : bpow radix2 (-1000) <= Rabs (B2R w) <= bpow radix2 1000).
  { assert (B1 : bpow radix2 (-300) = 2 * bpow radix2 (-301)) by (change (-300)%Z with (1 + -301)%Z; rewrite bpow_plus; reflexivity). assert (B2 : bpow radix2 301 = 2 * bpow radix2 300) by (change 301%Z with (1 + 300)%Z; rewrite bpow_plus; reflexivity).
    assert (bpow radix2 (-1000) <= bpow radix2 (-301)) by (apply bpow_le; lia). assert (bpow radix2 301 <= bpow radix2 1000) by (apply bpow_le; lia). lra. }
  assert (KEY : forall i, (i < 3)%nat -> close (fmul (fat4 (heval e) i) (fdiv (fofZ 1) w)) i).
  { intros i I. destruct (X i I) as [FX EX]. pose proof (heuclid_mag i e) as AM. specialize (MB i I). unfold close. fold n. set (x := fat4 (heval e) i) in *. set (a := heuclid i e) in *. set (m := hmag i e) in *.
    assert (M0 : 0 <= m) by (pose proof (Rabs_pos a); lra). assert (UM : 0 <= u * m) by (apply Rmult_le_pos; lra). pose proof tau_pos as TP. pose proof tau_small as TS.
    assert (MD : m * D = 101 / 100 * n * (u * m)) by (unfold D, Derr; ring). assert (NUM : u * m <= n * (u * m)) by (rewrite <- (Rmult_1_l (u * m)) at 1; apply Rmult_le_compat_r; lra).
    assert (NT : tau <= n * tau) by (rewrite <- (Rmult_1_l tau) at 1; apply Rmult_le_compat_r; lra).
    assert (Z0 : 0 <= Eerr n m + m * D) by (rewrite MD; unfold Eerr; lra). set (Z := Eerr n m + m * D) in *.
    assert (QE : Rabs (B2R x / B2R w - a) <= 1001 / 1000 * Z).
    { replace (B2R x / B2R w - a) with (((B2R x - W * a) + a * (W - B2R w)) / B2R w) by (field; exact NZ). unfold Rdiv. rewrite Rabs_mult, Rabs_inv. apply Rmult_le_reg_r with (Rabs (B2R w)); [exact AW'|]. rewrite Rmult_assoc, Rinv_l, Rmult_1_r by lra.
      apply Rle_trans with (1 := Rabs_triang _ _). rewrite (Rabs_mult a), (Rabs_minus_sym W). assert (T : Rabs a * Rabs (B2R w - W) <= m * (Rabs W * D)) by (apply Rmult_le_compat; auto using Rabs_pos).
      assert (T2 : Z * (Rabs W * (1 - / 10 ^ 9)) <= Z * Rabs (B2R w)) by (apply Rmult_le_compat_l; auto). assert (0 <= Rabs W * Z) by (apply Rmult_le_pos; lra). unfold Z in *. lra. }
    assert (ZS : Z <= / 1000 * m + / 1000).
    { unfold LIM in *. assert (K1 : n * (u * m) <= 1048576 * (u * m)) by (apply Rmult_le_compat_r; lra). assert (K3 : u * m <= / 10 ^ 15 * m) by (apply Rmult_le_compat_r; rewrite ?UV; lra). assert (K4 : n * tau <= 1048576 * tau) by (apply Rmult_le_compat_r; lra).
      assert (J5 : tau <= / 10 ^ 20) by (rewrite UV in TS; lra). unfold Z. rewrite MD. unfold Eerr. lra. }
    assert (QB : Rabs (B2R x / B2R w) <= m + 1001 / 1000 * Z). { replace (B2R x / B2R w) with ((B2R x / B2R w - a) + a) by ring. apply Rle_trans with (1 := Rabs_triang _ _). lra. }
    assert (QB2 : Rabs (B2R x / B2R w) <= bpow radix2 1000).
    { apply Rle_trans with (2 * bpow radix2 300); [assert (1 <= bpow radix2 300) by (change 1 with (bpow radix2 0); apply bpow_le; lia); lra|]. change 2 with (bpow radix2 1). rewrite <- bpow_plus. apply bpow_le. lia. }
    destruct (euclid_read x w FX FW RW QB2) as [F R]. cbv zeta in R. split; [exact F|]. set (q := B2R x / B2R w) in *. set (r := B2R (fmul x (fdiv (fofZ 1) w))) in *.
    assert (UQ : u * Rabs q <= u * (m + 1001 / 1000 * Z)) by (apply Rmult_le_compat_l; lra). assert (UZ : u * Z <= / 1000 * Z) by (apply Rmult_le_compat_r; [exact Z0|rewrite UV; lra]).
    assert (ET : eta <= / 1000 * tau). { assert (1000 * eta <= tau); [|lra]. unfold tau. apply Rle_trans with (bpow radix2 10 * eta); [apply Rmult_le_compat_r; [lra|change (bpow radix2 10) with 1024; lra]|]. rewrite <- bpow_plus. apply bpow_le. lia. }
    replace (r - a) with ((r - q) + (q - a)) by ring. apply Rle_trans with (1 := Rabs_triang _ _). 
    assert (ZV : Z = 501 / 100 * (n * (u * m)) + n * tau) by (unfold Z; rewrite MD; unfold Eerr; field). 
    replace (8 * n * u * m) with (8 * (n * (u * m))) by ring. rewrite (Rmult_assoc 2 n). lra. }
  split; [exact (KEY 0%nat ltac:(lia))|]. split; [exact (KEY 1%nat ltac:(lia))|exact (KEY 2%nat ltac:(lia))].
Qed.

(** ** Where the accuracy is lost *)
Fixpoint doubled (n : nat) (e : hexp) : hexp := match n with O => e | S k => HAdd (doubled k e) (doubled k e) end.
Lemma doubled_euclid n i e : heuclid i (doubled n e) = 2 ^ n * heuclid i e.
Proof. induction n as [|n IH]; cbn [doubled heuclid pow]; [ring|]. rewrite IH. ring. Qed.
Definition unit_point (w : f64) : hexp := HLeaf (mkF4 w fzero fzero w).
(** Adding points multiplies their scales: a point at distance one stored with scale 2, doubled ten times, is NaN (the exact answer is 1024); stored with scale 1/2 and
    doubled eleven times it is a point at infinity (the exact answer is 2048). *)
Theorem homogeneous_sum_refuted :
  heuclid 0 (doubled 10 (unit_point (fofZ 2))) = 1024 /\ is_nan (fx (fhp_toEuclidean (heval (doubled 10 (unit_point (fofZ 2)))))) = true /\
  heuclid 0 (doubled 11 (unit_point fhalf)) = 2048 /\ fhp_atInfinity (heval (doubled 11 (unit_point fhalf))) = true.
Proof.
  split; [|split; [vm_compute; reflexivity|split; [|vm_compute; reflexivity]]]; rewrite doubled_euclid; cbn [heuclid unit_point fat4 f0 f3].
  - destruct (fofZ_correct 2 ltac:(lia)) as [V _]. rewrite V. field.
  - destruct half_val as [V _]. rewrite V. field.
Qed.
(** ... and toEuclidean of the smallest positive scale is infinite although the point is at distance one. *)
Theorem toEuclidean_accurate_refuted : exists p, finite4 p /\ B2R (f0 p) / B2R (f3 p) = 1 /\ is_finite (fx (fhp_toEuclidean p)) = false.
Proof.
  exists (mkF4 (flit 1 (-1074)) fzero fzero (flit 1 (-1074))). split; [repeat split; vm_compute; reflexivity|]. cbn [f0 f3]. split; [|vm_compute; reflexivity].
  assert (B2R (flit 1 (-1074)) <> 0); [|field; assumption]. assert (C : B2SF (flit 1 (-1074)) = SpecFloat.S754_finite false 1 (-1074)) by (vm_compute; reflexivity).
  destruct (flit 1 (-1074)) as [|  | |s m e H]; try discriminate C. injection C as -> -> ->. apply Rgt_not_eq. now apply F2R_gt_0.
Qed.

(** ** normalize and convertToPoint *)
Lemma fsquaredNorm_positive E q : eigen_ok E -> normal_range q -> fltb fzero (fsquaredNorm E q) = true.
Proof.
  intros OK ((Q0 & Q1 & Q2 & Q3) & NL & NU). set (N := norm4 (val4 q)) in *.
  pose proof u_val as UV. pose proof u53_pos as UP. pose proof eta_pos as EP. pose proof eta_small as ES.
  assert (N0 : 0 < N) by (pose proof (bpow_gt_0 radix2 (-400)); lra).
  assert (NB : N * N <= BIG).
  { apply Rle_trans with (bpow radix2 290 * bpow radix2 290); [apply Rmult_le_compat; lra|]. rewrite <- bpow_plus. apply bpow_le. lia. }
  assert (NS : bpow radix2 (-800) <= N * N).
  { apply Rle_trans with (bpow radix2 (-400) * bpow radix2 (-400)); [rewrite <- bpow_plus; apply bpow_le; lia|]. pose proof (bpow_gt_0 radix2 (-400)). apply Rmult_le_compat; lra. }
  assert (EN : 14 * eta <= 1 / 100 * u * (N * N)).
  { apply Rle_trans with (1 / 100 * u * bpow radix2 (-800)); [|apply Rmult_le_compat_l; lra].
    assert (bpow radix2 (-1075) <= bpow radix2 (-20) * (u * bpow radix2 (-800))) by (rewrite <- !bpow_plus; apply bpow_le; lia).
    replace (bpow radix2 (-20)) with (/ 1048576) in * by (cbn; lra). pose proof (Rmult_lt_0_compat _ _ UP (bpow_gt_0 radix2 (-800))). lra. }
  (* the sum of squares *)
  set (x := fun i => fmul (fat4 q i) (fat4 q i)). set (a := fun i => B2R (fat4 q i) * B2R (fat4 q i)).
  assert (A0 : forall i, 0 <= a i) by (intros i; unfold a; nra).
  assert (FI : forall i, is_finite (fat4 q i) = true) by (intros [|[|[|i]]]; assumption).
  assert (AS : Rsum (map a (leaves (order E))) = N * N).
  { rewrite (Rsum_perm _ _ (Permutation_map a OK)). unfold N. rewrite norm4_sq. unfold dot4, val4, a. cbn [map Rsum fold_right fat4 e0 e1 e2 e3]. ring. }
  assert (AI : forall i, a i <= N * N).
  { intros i. unfold N. rewrite norm4_sq. unfold dot4, val4, a. cbn [e0 e1 e2 e3]. pose proof (A0 0%nat). pose proof (A0 1%nat). pose proof (A0 2%nat). pose proof (A0 3%nat). unfold a in *. cbn [fat4] in *.
    destruct i as [|[|[|i]]]; cbn [fat4]; lra. }
  assert (XA : forall i, nr (x i) (a i) (a i) (101 / 100) 2).
  { intros i. assert (AA : Rabs (B2R (fat4 q i)) * Rabs (B2R (fat4 q i)) = a i) by (unfold a, Rabs; destruct (Rcase_abs _); ring).
    unfold x. pose proof (nr_mul_exact (fat4 q i) (fat4 q i) (FI i) (FI i)) as NM. rewrite AA in NM. apply NM. specialize (AI i). lra. }
  assert (LN : INR (length (leaves (order E))) = 4) by (rewrite (Permutation_length OK); cbn; lra).
  destruct (tree_nr x a (order E) A0 XA) as [(FZ & _ & EZ) _]; [lra|lra|]. rewrite LN, AS in EZ. fold (fsquaredNorm E q) in FZ, EZ. change (fsum_tree x (order E)) with (fsquaredNorm E q) in FZ, EZ.
  set (z := fsquaredNorm E q) in *.
  assert (EZ' : Rabs (B2R z - N * N) <= 41 / 10 * u * (N * N)).
  { assert (0 <= u * (N * N)) by (repeat apply Rmult_le_pos; lra). lra. }
  clear EZ. assert (ZB : N * N * (99 / 100) <= B2R z <= N * N * (101 / 100)).
  { apply Rabs_le_inv in EZ'. assert (41 / 10 * u * (N * N) <= 1 / 100 * (N * N)) by (apply Rmult_le_compat_r; [nra|rewrite UV; lra]). lra. }
  assert (Z0 : 0 < B2R z) by (pose proof (Rmult_lt_0_compat _ _ N0 N0); lra).
  assert (TB : fltb fzero z = true).
  { apply fltb_ext; [reflexivity|now apply is_nan_finite|]. rewrite !ext_finite by auto. exact Z0. }
  exact TB.
Qed.
Lemma fhp_normalize_tested E p : eigen_ok E -> normal_range p -> fhp_normalize E p = fnormalize E p.
Proof. intros OK N. unfold fnormalize, fhp_normalize. cbv zeta. rewrite (fsquaredNorm_positive E p OK N). reflexivity. Qed.
(** normalize, without a test for zero, makes the length one to eight roundings and keeps the direction; convertToPoint then sets the scale to one exactly: whatever order the
    squares are added in, for lengths between 2^-400 and 2^290. *)
Theorem homogeneous_normalize_partial E p : eigen_ok E -> finite4 p -> bpow radix2 (-400) <= norm4 (val4 p) <= bpow radix2 290 ->
  let n := fhp_normalize E p in let c := fhp_convertToPoint E p in
  finite4 n /\ Rabs (norm4 (val4 n) - 1) <= 8 * u /\ dist4 (val4 n) (scale4 (1 / norm4 (val4 p)) (val4 p)) <= 8 * u /\
  B2R (f3 c) = 1 /\ is_finite (f3 c) = true /\ fhead3 c = fhead3 n.
Proof.
  intros OK F N n c. assert (NR : normal_range p) by exact (conj F N). destruct (make_near E p OK NR) as [[FN NU] D]. destruct one_facts as (OV & OF & _).
  unfold n. rewrite fhp_normalize_tested by auto. split; [exact FN|]. split; [exact NU|]. split.
  - assert (P : 0 < norm4 (val4 p)) by (pose proof (bpow_gt_0 radix2 (-400)); lra). unfold normalize4 in D at 1. destruct (Rlt_dec 0 (norm4 (val4 p))); [|lra]. pose proof u53_pos. apply Rle_trans with (15 / 2 * u); [exact D|lra].
  - split; [exact OV|]. split; [exact OF|]. unfold c, fhp_convertToPoint. cbv zeta. now rewrite fhp_normalize_tested by auto.
Qed.
(** Out of that range: four coefficients 2^600 normalise to the zero vector, and the zero vector to NaN, for every order of summation. *)
Definition big600 : F4 := mkF4 (flit 1 600) (flit 1 600) (flit 1 600) (flit 1 600).
Definition zero4f : F4 := mkF4 fzero fzero fzero fzero.
Lemma tree_const (x : nat -> f64) c t : (forall i, x i = c) -> fadd c c = c -> fsum_tree x t = c.
Proof. intros X C. induction t as [i|l IHl r IHr]; cbn [fsum_tree]; [apply X|]. now rewrite IHl, IHr. Qed.
Theorem homogeneous_normalize_refuted E :
  finite4 big600 /\ (let n := fhp_normalize E big600 in B2R (f0 n) = 0 /\ B2R (f1 n) = 0 /\ B2R (f2 n) = 0 /\ B2R (f3 n) = 0) /\
  (let n := fhp_normalize E zero4f in is_nan (f0 n) = true /\ is_nan (f1 n) = true /\ is_nan (f2 n) = true /\ is_nan (f3 n) = true).
Proof.
  assert (A : fsquaredNorm E big600 = fmul (flit 1 600) (flit 1 600)).
  { unfold fsquaredNorm. apply tree_const; [intros [|[|[|i]]]; reflexivity|]. 
    assert (C : B2SF (fmul (flit 1 600) (flit 1 600)) = SpecFloat.S754_infinity false) by (vm_compute; reflexivity). destruct (fmul (flit 1 600) (flit 1 600)) as [|s| |]; try discriminate C. injection C as ->. reflexivity. }
  assert (Z : fsquaredNorm E zero4f = fzero).
  { unfold fsquaredNorm. apply tree_const; [|reflexivity]. intros i. assert (Q : fat4 zero4f i = fzero) by (destruct i as [|[|[|i]]]; reflexivity). rewrite Q. reflexivity. }
  split; [repeat split; vm_compute; reflexivity|]. unfold fhp_normalize. cbv zeta. rewrite A, Z. destruct (reciprocal E); cbn [f0 f1 f2 f3 big600 zero4f].
  - split; [repeat split; vm_compute; reflexivity|repeat split; vm_compute; reflexivity].
  - split; [repeat split; vm_compute; reflexivity|repeat split; vm_compute; reflexivity].
Qed.

(** ** A transformation times a homogeneous point *)
Lemma one_fmul x : fmul (fofZ 1) x = x.
Proof.
  destruct one_facts as (V & F & SG). destruct x as [s|s| |s m e H] eqn:X; subst.
  - destruct (fofZ 1) as [s'|s'| |s' m' e' H'] eqn:Q; try discriminate F; cbn [Bsign] in SG; subst; [cbn [B2R] in V; lra|]. destruct s; reflexivity.
  - destruct (fofZ 1) as [s'|s'| |s' m' e' H'] eqn:Q; try discriminate F; cbn [Bsign] in SG; subst; [cbn [B2R] in V; lra|]. destruct s; reflexivity.
  - destruct (fofZ 1); reflexivity.
  - set (x := B754_finite s m e H : f64) in *. pose proof (Bmult_correct 53 1024 _ _ mode_NE (fofZ 1) x) as K. rewrite V, Rmult_1_l in K.
    assert (G : generic_format radix2 (SpecFloat.fexp 53 1024) (B2R x)) by apply generic_format_B2R.
    change (round_mode mode_NE) with (ZnearestE) in K. rewrite round_generic in K by (try apply valid_rnd_N; exact G). rewrite Rlt_bool_true in K by apply abs_B2R_lt_emax.
    destruct K as (K1 & K2 & K3). fold (fmul (fofZ 1) x) in *. rewrite F in K2. assert (FX : is_finite x = true) by reflexivity. rewrite FX in K2. cbn [andb] in K2.
    apply B2R_Bsign_inj; auto. rewrite K3, SG by (destruct (fmul (fofZ 1) x); try discriminate K2; reflexivity). apply Bool.xorb_false_l.
Qed.
(** On Euclidean points it is, bit for bit, the product with the plain vector; so C135's error bounds apply. *)
Theorem float_act_homogeneous_euclidean x v : ft_act4 x (fhp_of v) = fhp_of (ft_act3 x v) /\ fhp_toEuclidean (ft_act4 x (fhp_of v)) = ft_act3 x v.
Proof.
  assert (A : ft_act4 x (fhp_of v) = fhp_of (ft_act3 x v)). { unfold ft_act4, fhp_of, ft_act3, fscale3, fhead3. cbn [f0 f1 f2 f3]. rewrite !one_fmul. destruct (ft x), v. reflexivity. }
  split; [exact A|]. rewrite A. unfold fhp_toEuclidean, fhp_of. cbn [f0 f1 f2 f3]. rewrite one_div_one, !fmul_one. now destruct (ft_act3 x v).
Qed.
(** With any other scale: the scale is returned unchanged and the other three coordinates are those of the exact motion to 150 roundings of the coordinates and the scaled translation. *)
Theorem float_act_homogeneous x p : stored_ok x -> finite4 p -> norm3 (val3 (fhead3 p)) <= bpow radix2 580 -> Rabs (B2R (f3 p)) * norm3 (val3 (ft x)) <= bpow radix2 580 ->
  f3 (ft_act4 x p) = f3 p /\ finite4 (ft_act4 x p) /\
  dist3 (val3 (fhead3 (ft_act4 x p))) (head3 (tf_act4 (motion x) (val4 p))) <= 150 * u * (norm3 (val3 (fhead3 p)) + Rabs (B2R (f3 p)) * norm3 (val3 (ft x))) + 300 * eta.
Proof.
  intros [N (T1 & T2 & T3)] (P0 & P1 & P2 & P3) PB TB. pose proof u53_pos as UP. pose proof u_val as UV. pose proof eta_pos as EP. pose proof eta_small as ES.
  set (w := f3 p) in *. set (t := ft x) in *. set (v := fhead3 p) in *. assert (FV : finite3 v) by exact (conj P0 (conj P1 P2)).
  assert (WT : norm3 (scale3 (B2R w) (val3 t)) = Rabs (B2R w) * norm3 (val3 t)) by apply norm3_scale_abs. set (K := Rabs (B2R w) * norm3 (val3 t)) in *.
  assert (K0 : 0 <= K) by (apply Rmult_le_pos; [apply Rabs_pos|apply norm3_pos]).
  assert (CMP : forall c, is_finite c = true -> Rabs (B2R w * B2R c) <= K -> is_finite (fmul w c) = true /\ Rabs (B2R (fmul w c) - B2R w * B2R c) <= u * K + eta).
  { intros c FC CK. destruct (fmul_rnd w c 580 P3 FC ltac:(lia) ltac:(lra)) as [V F]. split; [exact F|]. rewrite V. apply Rle_trans with (1 := rnd_err _). assert (u * Rabs (B2R w * B2R c) <= u * K) by (apply Rmult_le_compat_l; lra). lra. }
  destruct (comp3 (scale3 (B2R w) (val3 t))) as (C1 & C2 & C3). rewrite WT in C1, C2, C3. cbn [scale3 val3 vx vy vz] in C1, C2, C3.
  destruct (CMP _ T1 C1) as [F1 E1]. destruct (CMP _ T2 C2) as [F2 E2]. destruct (CMP _ T3 C3) as [F3 E3].
  assert (SF : finite3 (fscale3 w t)) by exact (conj F1 (conj F2 F3)).
  assert (SD : dist3 (val3 (fscale3 w t)) (scale3 (B2R w) (val3 t)) <= 2 * (u * K + eta)). { unfold dist3. apply norm3_le; [assert (0 <= u * K) by (apply Rmult_le_pos; lra); lra| | |]; cbn [fscale3 val3 scale3 sub3 vx vy vz fx fy fz]; assumption. }
  pose proof (dist3_norm (val3 (fscale3 w t)) (scale3 (B2R w) (val3 t))) as SN. rewrite WT in SN.
  assert (UK : u * K <= / 1000 * K) by (apply Rmult_le_compat_r; [exact K0|rewrite UV; lra]).
  assert (RB : 2 * bpow radix2 580 + 1 <= ROOM). { unfold ROOM. change 590%Z with (10 + 580)%Z. rewrite bpow_plus. change (bpow radix2 10) with 1024. assert (1 <= bpow radix2 580) by (change 1 with (bpow radix2 0); apply bpow_le; lia). lra. }
  assert (SB : norm3 (val3 (fscale3 w t)) <= ROOM) by (rewrite UV in ES; lra). assert (VB : norm3 (val3 v) <= ROOM) by (pose proof (bpow_gt_0 radix2 580); lra).
  destruct (frotate_add_err (fq x) v (fscale3 w t) (proj1 N) FV SF (near_short _ N) VB SB) as [(G1 & G2 & G3) RE].
  split; [reflexivity|]. split; [exact (conj G1 (conj G2 (conj G3 P3)))|].
  change (val3 (fhead3 (ft_act4 x p))) with (val3 (fadd3 (fquatRotate (fq x) v) (fscale3 w t))).
  assert (XE : head3 (tf_act4 (motion x) (val4 p)) = add3 (quatRotate (normalize4 (val4 (fq x))) (val3 v)) (scale3 (B2R w) (val3 t))) by reflexivity. rewrite XE.
  set (f := val3 (fadd3 (fquatRotate (fq x) v) (fscale3 w t))) in *. set (Q := normalize4 (val4 (fq x))) in *.
  assert (NP : 0 < norm4 (val4 (fq x))) by (apply near_pos in N; lra). assert (UQ : unit4 Q) by now apply normalize4_is_unit.
  assert (DQ : dist4 (val4 (fq x)) Q <= 8 * u) by (unfold Q; rewrite normalize4_dist by exact NP; apply N).
  pose proof (quatRotate_lipschitz (val4 (fq x)) Q (val3 v) (near_short _ N) (unit_short _ UQ)) as LP. pose proof (norm3_pos (val3 v)) as V0. set (nv := norm3 (val3 v)) in *.
  assert (LP2 : 9 * dist4 (val4 (fq x)) Q * nv <= 72 * u * nv) by (apply Rmult_le_compat_r; lra).
  pose proof (dist3_tri f (add3 (quatRotate (val4 (fq x)) (val3 v)) (val3 (fscale3 w t))) (add3 (quatRotate Q (val3 v)) (scale3 (B2R w) (val3 t)))) as TR.
  pose proof (dist3_add (quatRotate (val4 (fq x)) (val3 v)) (val3 (fscale3 w t)) (quatRotate Q (val3 v)) (scale3 (B2R w) (val3 t))) as TA.
  assert (US : u * norm3 (val3 (fscale3 w t)) <= u * (K + 2 * (u * K + eta))) by (apply Rmult_le_compat_l; lra).
  assert (UU : u * (u * K) <= / 1000 * (u * K)) by (apply Rmult_le_compat_r; [apply Rmult_le_pos; lra|rewrite UV; lra]). assert (UE : u * eta <= / 1000 * eta) by (apply Rmult_le_compat_r; [lra|rewrite UV; lra]).
  assert (UNV : 0 <= u * nv) by (apply Rmult_le_pos; lra). assert (UK0 : 0 <= u * K) by (apply Rmult_le_pos; lra). lra.
Qed.

(** ** The hypotheses are met *)
Example euclidean_met : euclidean (HScale (HSub (HAdd (HLeaf (fhp_of (mkF3 (fofZ 1) (fofZ 2) (fofZ 3)))) (HLeaf (fhp_of (mkF3 (fofZ 4) (fofZ 5) (fofZ 6))))) (HLeaf fhp_zero)) fhalf).
Proof. repeat split; reflexivity. Qed.
(** a sum of points with the scales 2 and 3 *)
Example moderate_met : let p w := mkF4 (fofZ 5) (fofZ 7) (fofZ 9) (fofZ w) in let e := HSub (HAdd (HLeaf (p 2%Z)) (HLeaf (p 3%Z))) (HLeaf (p 2%Z)) in moderate e /\ hsize e <= 1048576 /\ heuclid 0 e = 5 / 3.
Proof.
  cbv zeta.
  destruct (fofZ_correct 2 ltac:(lia)) as [V2 F2]. destruct (fofZ_correct 3 ltac:(lia)) as [V3 F3]. destruct (fofZ_correct 5 ltac:(lia)) as [V5 F5]. destruct (fofZ_correct 7 ltac:(lia)) as [V7 F7]. destruct (fofZ_correct 9 ltac:(lia)) as [V9 F9].
  assert (B1 : bpow radix2 (-300) <= 1) by (change 1 with (bpow radix2 0); apply bpow_le; lia). assert (B2 : 1024 <= bpow radix2 300) by (change 1024 with (bpow radix2 10); apply bpow_le; lia).
  assert (SC : forall k, 1 <= k <= 1024 -> bpow radix2 (-300) <= Rabs k <= bpow radix2 300) by (intros k K; rewrite (Rabs_pos_eq k) by lra; lra).
  assert (MG : forall a b, 0 <= a <= 10 -> 1 <= b -> Rabs (a / b) <= 10). { intros a b A B. rewrite Rabs_pos_eq by (apply Rmult_le_pos; [lra|left; apply Rinv_0_lt_compat; lra]). apply Rmult_le_reg_r with b; [lra|]. unfold Rdiv. rewrite Rmult_assoc, Rinv_l, Rmult_1_r by lra. lra. }
  cbn [moderate hscale hmag hsize heuclid fat4 f0 f1 f2 f3]. rewrite V2, V3.
  assert (LF : forall w i, (i < 3)%nat -> 1 <= w -> Rabs (B2R (fat4 (mkF4 (fofZ 5) (fofZ 7) (fofZ 9) (fofZ 2)) i) / w) <= 10 /\ Rabs (B2R (fat4 (mkF4 (fofZ 5) (fofZ 7) (fofZ 9) (fofZ 3)) i) / w) <= 10).
  { intros w i I W. destruct i as [|[|[|]]]; [| | |lia]; cbn [fat4 f0 f1 f2]; rewrite ?V5, ?V7, ?V9; split; apply MG; lra. }
  split.
  - split; [split; [apply SC; lra|intros i I; destruct (LF 2 i I ltac:(lra)); destruct (LF 3 i I ltac:(lra)); lra]|]. split.
    + split; [split; [apply SC; lra|intros i I; destruct (LF 2 i I ltac:(lra)); destruct (LF 3 i I ltac:(lra)); lra]|]. split.
      * split; [split; [apply SC; lra|intros i I; destruct (LF 2 i I ltac:(lra)); lra]|]. auto.
      * split; [split; [apply SC; lra|intros i I; destruct (LF 3 i I ltac:(lra)); lra]|]. auto.
    + split; [split; [apply SC; lra|intros i I; destruct (LF 2 i I ltac:(lra)); lra]|]. auto.
  - split; [lra|]. rewrite V5. field.
Qed.
(** a point with scale 2 and a transformation that meet float_act_homogeneous *)
Example act_met : let x := FT (mkF4 fzero fzero fzero (fofZ 1)) (mkF3 (fofZ 1) (fofZ 2) (fofZ 3)) in let p := mkF4 (fofZ 5) (fofZ 7) (fofZ 9) (fofZ 2) in
  stored_ok x /\ finite4 p /\ norm3 (val3 (fhead3 p)) <= bpow radix2 580 /\ Rabs (B2R (f3 p)) * norm3 (val3 (ft x)) <= bpow radix2 580.
Proof.
  cbv zeta. destruct one_facts as (V1 & F1 & _). assert (FZ : B2R fzero = 0) by reflexivity.
  destruct (fofZ_correct 2 ltac:(lia)) as [V2 F2]. destruct (fofZ_correct 3 ltac:(lia)) as [W3 F3]. destruct (fofZ_correct 5 ltac:(lia)) as [V5 F5]. destruct (fofZ_correct 7 ltac:(lia)) as [V7 F7]. destruct (fofZ_correct 9 ltac:(lia)) as [V9 F9].
  assert (B : 1024 <= bpow radix2 580) by (change 1024 with (bpow radix2 10); apply bpow_le; lia).
  split.
  { split; [|split; [exact F1|split; [exact F2|exact F3]]]. split; [split; [reflexivity|split; [reflexivity|split; [reflexivity|exact F1]]]|].
    unfold val4. cbn [fq f0 f1 f2 f3]. rewrite V1, FZ. unfold norm4, dot4. cbn [e0 e1 e2 e3]. replace (0 * 0 + 0 * 0 + 0 * 0 + 1 * 1) with 1 by ring. rewrite sqrt_1, Rminus_diag_eq, Rabs_R0 by reflexivity. pose proof u53_pos. lra. }
  split; [split; [exact F5|split; [exact F7|split; [exact F9|exact F2]]]|]. cbn [f3 ft]. unfold val3, fhead3. cbn [f0 f1 f2 fx fy fz]. rewrite V1, V2, W3, V5, V7, V9.
  assert (N1 : norm3 (V3 5 7 9) <= 2 * 9) by (apply norm3_le; cbn [vx vy vz]; rewrite ?(Rabs_pos_eq 5), ?(Rabs_pos_eq 7), ?(Rabs_pos_eq 9); lra).
  assert (N2 : norm3 (V3 1 2 3) <= 2 * 3) by (apply norm3_le; cbn [vx vy vz]; rewrite ?(Rabs_pos_eq 1), ?(Rabs_pos_eq 2), ?(Rabs_pos_eq 3); lra).
  split; [lra|]. rewrite (Rabs_pos_eq 2) by lra. lra.
Qed.
(** ** Points and vectors *)
(** atInfinity (isVector) in doubles: true exactly for a scale of plus or minus zero, not for a tiny scale, infinity or NaN; convertToVector makes a
    vector with the same three coefficients, whatever they are; a Euclidean point and the result of convertToPoint are never vectors; the sum and
    the difference of a vector and anything of finite scale (a point, too) are vectors; scaling and transformations keep vectors vectors and points points. *)
Theorem homogeneous_infinity :
  (forall p, fhp_atInfinity p = true <-> is_finite (f3 p) = true /\ B2R (f3 p) = 0) /\
  (forall p, fhp_atInfinity (fhp_convertToVector p) = true /\ fhead3 (fhp_convertToVector p) = fhead3 p) /\
  (forall v, fhp_atInfinity (fhp_of v) = false /\ fhead3 (fhp_of v) = v) /\
  (forall E p, fhp_atInfinity (fhp_convertToPoint E p) = false) /\
  (forall p q, fhp_atInfinity p = true -> is_finite (f3 q) = true -> fhp_atInfinity (fhp_add p q) = true /\ fhp_atInfinity (fhp_sub p q) = true) /\
  (forall p s, fhp_atInfinity (fhp_scale p s) = fhp_atInfinity p) /\
  (forall x p, fhp_atInfinity (ft_act4 x p) = fhp_atInfinity p).
Proof.
  assert (A : forall p, fhp_atInfinity p = true <-> is_finite (f3 p) = true /\ B2R (f3 p) = 0).
  { intros p. unfold fhp_atInfinity. destruct (f3 p) as [s|s| |s m e b] eqn:Ep; cbn [is_finite].
    - split; [intros _; split; reflexivity|intros _; destruct s; reflexivity].
    - split; [destruct s; intros H; vm_compute in H; discriminate H|intros [H _]; discriminate H].
    - split; [intros H; vm_compute in H; discriminate H|intros [H _]; discriminate H].
    - split.
      + intros H. split; [reflexivity|]. apply feqb_ext in H; [|reflexivity|reflexivity]. rewrite !ext_finite in H by reflexivity. exact H.
      + intros [_ H]. apply feqb_ext; [reflexivity|reflexivity|]. rewrite !ext_finite by reflexivity. exact H. }
  assert (ONE : feqb (fofZ 1) fzero = false) by (vm_compute; reflexivity).
  refine (conj A (conj _ (conj _ (conj _ (conj _ (conj _ _)))))).
  - intros p. split; [apply A; split; reflexivity|reflexivity].
  - intros v. split; [exact ONE|now destruct v].
  - intros E p. exact ONE.
  - intros p q Hp Fq. apply A in Hp as [Fp Vp].
    assert (X : is_finite (fmul (f3 p) (f3 q)) = true /\ B2R (fmul (f3 p) (f3 q)) = 0).
    { pose proof (Bmult_correct 53 1024 _ _ mode_NE (f3 p) (f3 q)) as H. rewrite Vp, Rmult_0_l, round_0, Rabs_R0 in H by apply valid_rnd_N.
      rewrite Rlt_bool_true in H by apply bpow_gt_0. destruct H as (H1 & H2 & _). rewrite Fp, Fq in H2. split; [exact H2|exact H1]. }
    split; apply A; exact X.
  - reflexivity.
  - reflexivity.
Qed.
