(** C135, rounding: what one product, one rotation and one normalisation in binary64 do to the exact result. *)
From Coq Require Import Psatz List Permutation.
From Verif Require Import Float64 Nsec_Proofs TimerTable_Num Kin_Float_Model.
From Verif Require Import LinAlg Kin_Quat_Props Kin_Trans_Model Kin_Trans_Props Kin_Float_Geom Kin_Quat_Model.
Import ListNotations.
Open Scope R_scope.

(** the unit roundoff, and half the smallest positive double *)
Notation u := (bpow radix2 (-53)).
Notation eta := (bpow radix2 (-1075)).
Lemma u_val : u = 1 / 9007199254740992. Proof. exact p53. Qed.
Lemma eta_pos : 0 < eta. Proof. apply bpow_gt_0. Qed.
Lemma eta_small : eta <= u / 1000000.
Proof.
  rewrite u_val. apply Rle_trans with (bpow radix2 (-80)); [apply bpow_le; lia|].
  replace (bpow radix2 (-80)) with (/ 1208925819614629174706176) by (cbn; lra). lra.
Qed.
Lemma rnd_err x : Rabs (rnd x - x) <= u * Rabs x + eta.
Proof.
  destruct (Rle_or_lt (bpow radix2 (-1022)) (Rabs x)) as [H|H].
  - pose proof (rnd_rel x H). pose proof eta_pos. lra.
  - assert (Rabs (rnd x - x) <= eta).
    { replace eta with (/ 2 * bpow radix2 (-1074)).
      - apply Rle_trans with (/ 2 * ulp radix2 fexp64 x); [apply error_le_half_ulp; typeclasses eauto|].
        apply Rmult_le_compat_l; [lra|]. destruct (Req_dec x 0) as [-> | NZ].
        + change fexp64 with (FLT_exp (-1074) 53). rewrite ulp_FLT_0 by reflexivity. lra.
        + rewrite ulp_neq_0 by exact NZ. apply bpow_le. unfold cexp, SpecFloat.fexp, SpecFloat.emin.
          assert (mag radix2 x <= -1022)%Z by (apply mag_le_bpow; auto). lia.
      - change (-1074)%Z with (1 + -1075)%Z. rewrite bpow_plus. change (bpow radix2 1) with 2. lra. }
    pose proof (Rabs_pos x). pose proof (bpow_gt_0 radix2 (-53)). nra.
Qed.

(** ** An error calculus *)
(** [nr x a M k j]: the double x is an approximation of a; M bounds |a|; the error is at most k roundings relative to M plus j times eta *)
Definition nr (x : f64) (a M k j : R) : Prop := is_finite x = true /\ Rabs a <= M /\ Rabs (B2R x - a) <= k * u * M + j * eta.
Lemma nr_weaken x a M k j M' k' j' : nr x a M k j -> M <= M' -> k <= k' -> 0 <= k -> j <= j' -> nr x a M' k' j'.
Proof.
  intros (F & A & E) HM Hk K0 Hj. split; [exact F|]. split; [lra|]. pose proof (Rabs_pos a). pose proof eta_pos. pose proof u53_pos.
  assert (k * u * M <= k' * u * M') by (apply Rmult_le_compat; [apply Rmult_le_pos; lra|lra|apply Rmult_le_compat_r; lra|lra]).
  assert (j * eta <= j' * eta) by (apply Rmult_le_compat_r; lra). lra.
Qed.
Lemma nr_exact x : is_finite x = true -> nr x (B2R x) (Rabs (B2R x)) 0 0.
Proof. intros F. split; [exact F|]. split; [lra|]. rewrite Rminus_diag_eq by reflexivity. rewrite Rabs_R0. lra. Qed.
Lemma nr_value x a M k j : nr x a M k j -> 0 <= k <= 100 -> 0 <= j <= 100 -> Rabs (B2R x) <= 2 * M + 100 * eta.
Proof.
  intros (F & A & E) K J. pose proof (Rabs_pos a). pose proof eta_pos. pose proof u_val.
  assert (k * u * M <= M). { assert (k * u <= 1) by (rewrite u_val; lra). rewrite <- (Rmult_1_l M) at 2. apply Rmult_le_compat_r; lra. }
  assert (j * eta <= 100 * eta) by (apply Rmult_le_compat_r; lra).
  replace (B2R x) with ((B2R x - a) + a) by ring. apply Rle_trans with (1 := Rabs_triang _ _). lra.
Qed.
Definition BIG := bpow radix2 600.
Lemma BIG_eta : 1000 * eta <= 1 /\ 1 <= BIG.
Proof. split; [pose proof eta_small; rewrite u_val in *; lra|]. change 1 with (bpow radix2 0). apply bpow_le. lia. Qed.
Lemma BIG_room : 8 * BIG <= bpow radix2 700.
Proof. unfold BIG. change 8 with (bpow radix2 3). rewrite <- bpow_plus. apply bpow_le. lia. Qed.
  (** one rounded operation applied to an approximate argument *)
  Lemma step s a M k j : Rabs a <= M -> Rabs (s - a) <= k * u * M + j * eta -> 0 <= k <= 100 -> 0 <= j <= 100 ->
    Rabs (rnd s - a) <= (k + 101 / 100) * u * M + (j + 2) * eta.
  Proof.
    intros A E K J. pose proof (rnd_err s) as R. pose proof (Rabs_pos a) as A0. pose proof eta_pos as EP. pose proof u53_pos as UP. pose proof u_val as UV.
    assert (S : Rabs s <= M + (k * u * M + j * eta)).
    { replace s with ((s - a) + a) by ring. apply Rle_trans with (1 := Rabs_triang _ _). lra. }
    assert (S1 : u * Rabs s <= u * (M + (k * u * M + j * eta))) by (apply Rmult_le_compat_l; lra).
    assert (S2 : u * (k * u * M) <= 1 / 100 * u * M).
    { replace (u * (k * u * M)) with ((k * u) * (u * M)) by ring. replace (1 / 100 * u * M) with (1 / 100 * (u * M)) by ring. apply Rmult_le_compat_r; [apply Rmult_le_pos; lra|]. rewrite UV. lra. }
    assert (S3 : u * (j * eta) <= eta).
    { replace (u * (j * eta)) with ((u * j) * eta) by ring. rewrite <- (Rmult_1_l eta) at 2. apply Rmult_le_compat_r; [lra|]. rewrite UV. lra. }
    replace (rnd s - a) with ((rnd s - s) + (s - a)) by ring. apply Rle_trans with (1 := Rabs_triang _ _). lra.
  Qed.
Lemma nr_add x a M k j y b N j' : nr x a M k j -> nr y b N k j' -> 0 <= k <= 100 -> 0 <= j -> 0 <= j' -> j + j' <= 100 -> M + N <= BIG ->
  nr (fadd x y) (a + b) (M + N) (k + 101 / 100) (j + j' + 2).
Proof.
  intros X Y K J J' JJ B. pose proof (nr_value _ _ _ _ _ X K ltac:(lra)) as VX. pose proof (nr_value _ _ _ _ _ Y K ltac:(lra)) as VY.
  destruct X as (FX & AX & EX), Y as (FY & AY & EY). pose proof BIG_eta as [E1 E2]. pose proof BIG_room as BR. pose proof eta_pos.
  pose proof (Rabs_triang (B2R x) (B2R y)) as T.
  destruct (fadd_rnd x y 700) as [R F]; auto; [lia|lra|]. split; [exact F|].
  split; [apply Rle_trans with (1 := Rabs_triang _ _); lra|]. rewrite R. apply step; auto; try lra.
  - apply Rle_trans with (1 := Rabs_triang _ _); lra.
  - replace (B2R x + B2R y - (a + b)) with ((B2R x - a) + (B2R y - b)) by ring. apply Rle_trans with (1 := Rabs_triang _ _); lra.
Qed.
Lemma nr_sub x a M k j y b N j' : nr x a M k j -> nr y b N k j' -> 0 <= k <= 100 -> 0 <= j -> 0 <= j' -> j + j' <= 100 -> M + N <= BIG ->
  nr (fsub x y) (a - b) (M + N) (k + 101 / 100) (j + j' + 2).
Proof.
  intros X Y K J J' JJ B. pose proof (nr_value _ _ _ _ _ X K ltac:(lra)) as VX. pose proof (nr_value _ _ _ _ _ Y K ltac:(lra)) as VY.
  destruct X as (FX & AX & EX), Y as (FY & AY & EY). pose proof BIG_eta as [E1 E2]. pose proof BIG_room as BR. pose proof eta_pos.
  pose proof (Rabs_triang (B2R x) (- B2R y)) as T. rewrite Rabs_Ropp in T.
  destruct (fsub_rnd x y 700) as [R F]; auto; [lia|unfold Rminus; lra|]. split; [exact F|].
  pose proof (Rabs_triang a (- b)) as T'. rewrite Rabs_Ropp in T'.
  split; [unfold Rminus; lra|]. rewrite R. apply step; auto; try lra.
  - unfold Rminus; lra.
  - replace (B2R x - B2R y - (a - b)) with ((B2R x - a) + - (B2R y - b)) by ring. apply Rle_trans with (1 := Rabs_triang _ _). rewrite Rabs_Ropp. lra.
Qed.
(** a product with a factor that is a double itself *)
Lemma nr_mul q y b N k j : is_finite q = true -> Rabs (B2R q) <= 2 -> nr y b N k j -> 0 <= k <= 100 -> 0 <= j <= 50 -> N <= BIG ->
  nr (fmul q y) (B2R q * b) (Rabs (B2R q) * N) (k + 101 / 100) (2 * j + 2).
Proof.
  intros FQ Q Y K J B. pose proof (nr_value _ _ _ _ _ Y K ltac:(lra)) as VY. destruct Y as (FY & AY & EY).
  pose proof BIG_eta as [E1 E2]. pose proof BIG_room as BR. pose proof eta_pos as EP. pose proof (Rabs_pos (B2R q)) as Q0. pose proof (Rabs_pos b) as B0. pose proof (Rabs_pos (B2R y)) as Y0.
  assert (P : Rabs (B2R q * B2R y) <= 2 * (2 * N + 100 * eta)) by (rewrite Rabs_mult; apply Rmult_le_compat; lra).
  destruct (fmul_rnd q y 700) as [R F]; auto; [lia|lra|]. split; [exact F|].
  split; [rewrite Rabs_mult; apply Rmult_le_compat_l; lra|]. rewrite R. apply step; try lra.
  - rewrite Rabs_mult; apply Rmult_le_compat_l; lra.
  - replace (B2R q * B2R y - B2R q * b) with (B2R q * (B2R y - b)) by ring. rewrite Rabs_mult.
    assert (H1 : Rabs (B2R q) * Rabs (B2R y - b) <= Rabs (B2R q) * (k * u * N + j * eta)) by (apply Rmult_le_compat_l; lra).
    assert (H2 : Rabs (B2R q) * (j * eta) <= 2 * (j * eta)) by (apply Rmult_le_compat_r; [apply Rmult_le_pos; lra|lra]). lra.
Qed.
(** ... and the product of two doubles, of any size *)
Lemma nr_mul_exact x y : is_finite x = true -> is_finite y = true -> Rabs (B2R x) * Rabs (B2R y) <= BIG ->
  nr (fmul x y) (B2R x * B2R y) (Rabs (B2R x) * Rabs (B2R y)) (101 / 100) 2.
Proof.
  intros FX FY B. pose proof BIG_room as BR. pose proof BIG_eta as [E1 E2]. pose proof eta_pos.
  destruct (fmul_rnd x y 700) as [R F]; auto; [lia|rewrite Rabs_mult; lra|]. split; [exact F|]. rewrite Rabs_mult. split; [lra|]. rewrite R.
  replace (101 / 100) with (0 + 101 / 100) by ring. replace 2 with (0 + 2) by ring. apply step; try lra. rewrite Rabs_mult; lra.
  rewrite Rminus_diag_eq by reflexivity. rewrite Rabs_R0. lra.
Qed.

(** ** vectors of doubles and their values *)
Definition val3 (v : F3) : vec3 := V3 (B2R (fx v)) (B2R (fy v)) (B2R (fz v)).
Definition val4 (q : F4) : vec4 := V4 (B2R (f0 q)) (B2R (f1 q)) (B2R (f2 q)) (B2R (f3 q)).
Definition finite3 (v : F3) : Prop := is_finite (fx v) = true /\ is_finite (fy v) = true /\ is_finite (fz v) = true.
Definition finite4 (q : F4) : Prop := is_finite (f0 q) = true /\ is_finite (f1 q) = true /\ is_finite (f2 q) = true /\ is_finite (f3 q) = true.

(** *** qplus *)
Definition fop (s : bool) (x y : f64) : f64 := if s then fsub x y else fadd x y.
Definition rop (s : bool) (x y : R) : R := if s then x - y else x + y.
Lemma nr_op s x a M k j y b N j' : nr x a M k j -> nr y b N k j' -> 0 <= k <= 100 -> 0 <= j -> 0 <= j' -> j + j' <= 100 -> M + N <= BIG ->
  nr (fop s x y) (rop s a b) (M + N) (k + 101 / 100) (j + j' + 2).
Proof. destruct s; [apply nr_sub|apply nr_add]. Qed.
Lemma prod4 s1 s2 s3 a b c d e f g h : 
  is_finite a = true -> is_finite b = true -> is_finite c = true -> is_finite d = true -> is_finite e = true -> is_finite f = true -> is_finite g = true -> is_finite h = true ->
  Rabs (B2R a) * Rabs (B2R b) + Rabs (B2R c) * Rabs (B2R d) + Rabs (B2R e) * Rabs (B2R f) + Rabs (B2R g) * Rabs (B2R h) <= 1003 / 1000 ->
  is_finite (fop s3 (fop s2 (fop s1 (fmul a b) (fmul c d)) (fmul e f)) (fmul g h)) = true /\
  Rabs (B2R (fop s3 (fop s2 (fop s1 (fmul a b) (fmul c d)) (fmul e f)) (fmul g h)) -
        rop s3 (rop s2 (rop s1 (B2R a * B2R b) (B2R c * B2R d)) (B2R e * B2R f)) (B2R g * B2R h)) <= 41 / 10 * u.
Proof.
  intros Fa Fb Fc Fd Fe Ff Fg Fh S. pose proof BIG_eta as [_ BB]. pose proof eta_small as ES. pose proof eta_pos as EP. pose proof u_val as UV.
  assert (BB2 : 2 <= BIG). { apply Rle_trans with (bpow radix2 1); [change (bpow radix2 1) with 2; lra|unfold BIG; apply bpow_le; lia]. }
  assert (P : forall x y : f64, 0 <= Rabs (B2R x) * Rabs (B2R y)) by (intros x y; apply Rmult_le_pos; apply Rabs_pos).
  pose proof (P a b) as Pab. pose proof (P c d) as Pcd. pose proof (P e f) as Pef. pose proof (P g h) as Pgh.
  assert (H1 := nr_mul_exact a b Fa Fb ltac:(lra)). assert (H2 := nr_mul_exact c d Fc Fd ltac:(lra)).
  assert (H3 := nr_mul_exact e f Fe Ff ltac:(lra)). assert (H4 := nr_mul_exact g h Fg Fh ltac:(lra)).
  pose proof (nr_op s1 _ _ _ _ _ _ _ _ _ H1 H2 ltac:(lra) ltac:(lra) ltac:(lra) ltac:(lra) ltac:(lra)) as K1.
  pose proof (nr_weaken _ _ _ _ _ _ (101/100 + 101/100) _ H3 (Rle_refl _) ltac:(lra) ltac:(lra) (Rle_refl _)) as H3'.
  pose proof (nr_op s2 _ _ _ _ _ _ _ _ _ K1 H3' ltac:(lra) ltac:(lra) ltac:(lra) ltac:(lra) ltac:(lra)) as K2.
  pose proof (nr_weaken _ _ _ _ _ _ (101/100 + 101/100 + 101/100) _ H4 (Rle_refl _) ltac:(lra) ltac:(lra) (Rle_refl _)) as H4'.
  pose proof (nr_op s3 _ _ _ _ _ _ _ _ _ K2 H4' ltac:(lra) ltac:(lra) ltac:(lra) ltac:(lra) ltac:(lra)) as (F & _ & E).
  split; [exact F|]. apply Rle_trans with (1 := E). set (S' := _ + _ + _ + _) in *. 
  assert (K : u * S' <= u * (1003 / 1000)) by (apply Rmult_le_compat_l; [pose proof u53_pos|]; lra).
  replace ((101 / 100 + 101 / 100 + 101 / 100 + 101 / 100) * u * S') with (404 / 100 * (u * S')) by field. lra.
Qed.
Lemma short_prod q p : short q -> short p -> norm4 q * norm4 p <= 1003 / 1000.
Proof. unfold short. intros H K. apply Rle_trans with (1001 / 1000 * (1001 / 1000)); [|lra]. apply Rmult_le_compat; auto; apply norm4_pos. Qed.
Lemma norm4_perm a b c d : norm4 (V4 a b c d) = norm4 (V4 b a c d) /\ norm4 (V4 a b c d) = norm4 (V4 b c d a).
Proof. unfold norm4, dot4. cbn [e0 e1 e2 e3]. split; f_equal; ring. Qed.
Lemma fqplus_err q p : finite4 q -> finite4 p -> short (val4 q) -> short (val4 p) ->
  finite4 (fqplus q p) /\ dist4 (val4 (fqplus q p)) (qplus (val4 q) (val4 p)) <= 9 * u.
Proof.
  intros (Q0 & Q1 & Q2 & Q3) (P0 & P1 & P2 & P3) SQ SP. pose proof (short_prod _ _ SP SQ) as SS. pose proof u53_pos as UP.
  assert (C : forall a b c d x y z w : f64, 
    (norm4 (V4 (B2R a) (B2R b) (B2R c) (B2R d)) = norm4 (val4 p)) -> norm4 (V4 (B2R x) (B2R y) (B2R z) (B2R w)) = norm4 (val4 q) ->
    Rabs (B2R a) * Rabs (B2R x) + Rabs (B2R b) * Rabs (B2R y) + Rabs (B2R c) * Rabs (B2R z) + Rabs (B2R d) * Rabs (B2R w) <= 1003 / 1000).
  { intros a b c d x y z w E1 E2. apply Rle_trans with (2 := SS). apply sum4; [rewrite E1|rewrite E2]; apply Rle_refl. }
  assert (N : forall q a b c d, dot4 (V4 a b c d) (V4 a b c d) = dot4 (val4 q) (val4 q) -> norm4 (V4 a b c d) = norm4 (val4 q)) by (intros; unfold norm4; now f_equal).
  destruct (prod4 false true false (f0 p) (f3 q) (f1 p) (f2 q) (f2 p) (f1 q) (f3 p) (f0 q)) as [A0 B0]; auto.
  { apply C; apply N; unfold dot4, val4; cbn [e0 e1 e2 e3]; ring. }
  destruct (prod4 true false false (f2 p) (f0 q) (f0 p) (f2 q) (f1 p) (f3 q) (f3 p) (f1 q)) as [A1 B1]; auto.
  { apply C; apply N; unfold dot4, val4; cbn [e0 e1 e2 e3]; ring. }
  destruct (prod4 true false false (f0 p) (f1 q) (f1 p) (f0 q) (f2 p) (f3 q) (f3 p) (f2 q)) as [A2 B2]; auto.
  { apply C; apply N; unfold dot4, val4; cbn [e0 e1 e2 e3]; ring. }
  destruct (prod4 true true true (f3 p) (f3 q) (f1 p) (f1 q) (f2 p) (f2 q) (f0 p) (f0 q)) as [A3 B3]; auto.
  { apply C; apply N; unfold dot4, val4; cbn [e0 e1 e2 e3]; ring. }
  split; [repeat split; assumption|].
  apply Rle_trans with (2 * (41 / 10 * u)); [|lra]. unfold dist4. apply norm4_le; [lra|exact B0|exact B1|exact B2|exact B3].
Qed.

(** *** quatRotate *)
Lemma two_val : B2R (fofZ 2) = 2 /\ is_finite (fofZ 2) = true. Proof. apply fofZ_correct. lia. Qed.
Lemma d_nr ej ek w vi vj vk : is_finite ej = true -> is_finite ek = true -> is_finite w = true -> is_finite vi = true -> is_finite vj = true -> is_finite vk = true ->
  let M := Rabs (B2R ej) * Rabs (B2R vk) + Rabs (B2R ek) * Rabs (B2R vj) + Rabs (B2R w) * Rabs (B2R vi) in M <= BIG ->
  nr (fsub (fsub (fmul ej vk) (fmul ek vj)) (fmul w vi)) (B2R ej * B2R vk - B2R ek * B2R vj - B2R w * B2R vi) M (303 / 100) 10.
Proof.
  intros Fj Fk Fw Fi Gj Gk M B. unfold M in *.
  assert (P : forall x y : f64, 0 <= Rabs (B2R x) * Rabs (B2R y)) by (intros x y; apply Rmult_le_pos; apply Rabs_pos).
  pose proof (P ej vk) as P1. pose proof (P ek vj) as P2. pose proof (P w vi) as P3.
  assert (H1 := nr_mul_exact ej vk Fj Gk ltac:(lra)). assert (H2 := nr_mul_exact ek vj Fk Gj ltac:(lra)). assert (H3 := nr_mul_exact w vi Fw Fi ltac:(lra)).
  pose proof (nr_sub _ _ _ _ _ _ _ _ _ H1 H2 ltac:(lra) ltac:(lra) ltac:(lra) ltac:(lra) ltac:(lra)) as K1.
  pose proof (nr_weaken _ _ _ _ _ _ (101/100 + 101/100) _ H3 (Rle_refl _) ltac:(lra) ltac:(lra) (Rle_refl _)) as H3'.
  pose proof (nr_sub _ _ _ _ _ _ _ _ _ K1 H3' ltac:(lra) ltac:(lra) ltac:(lra) ltac:(lra) ltac:(lra)) as K2.
  eapply nr_weaken; [exact K2|apply Rle_refl|lra|lra|lra].
Qed.
Lemma rot_nr ej ek dj dk vi Dj Dk D : is_finite ej = true -> is_finite ek = true -> is_finite vi = true -> Rabs (B2R ej) <= 2 -> Rabs (B2R ek) <= 2 ->
  nr dj Dj D (303 / 100) 10 -> nr dk Dk D (303 / 100) 10 -> 
  let M := Rabs (B2R vi) + 2 * (Rabs (B2R ej) * D + Rabs (B2R ek) * D) in D <= BIG -> M <= BIG ->
  nr (fadd vi (fmul (fofZ 2) (fsub (fmul ej dk) (fmul ek dj)))) (B2R vi + 2 * (B2R ej * Dk - B2R ek * Dj)) M (708 / 100) 96.
Proof.
  intros Fj Fk Fi Bj Bk Hj Hk M BD BM. unfold M in *. destruct two_val as [TV TF].
  assert (D0 : 0 <= D) by (destruct Hj as (_ & A & _); pose proof (Rabs_pos Dj); lra).
  pose proof (Rmult_le_pos _ _ (Rabs_pos (B2R ej)) D0) as P1. pose proof (Rmult_le_pos _ _ (Rabs_pos (B2R ek)) D0) as P2. pose proof (Rabs_pos (B2R vi)) as P3.
  pose proof (nr_mul ej dk Dk D _ _ Fj Bj Hk ltac:(lra) ltac:(lra) BD) as H1. pose proof (nr_mul ek dj Dj D _ _ Fk Bk Hj ltac:(lra) ltac:(lra) BD) as H2.
  pose proof (nr_sub _ _ _ _ _ _ _ _ _ H1 H2 ltac:(lra) ltac:(lra) ltac:(lra) ltac:(lra) ltac:(lra)) as K1.
  pose proof (nr_mul (fofZ 2) _ _ _ _ _ TF ltac:(rewrite TV, Rabs_pos_eq; lra) K1 ltac:(lra) ltac:(lra) ltac:(lra)) as K2. rewrite TV in K2. rewrite (Rabs_pos_eq 2) in K2 by lra.
  pose proof (nr_weaken _ _ _ _ _ _ (303 / 100 + 101 / 100 + 101 / 100 + 101 / 100) 0 (nr_exact vi Fi) (Rle_refl _) ltac:(lra) ltac:(lra) ltac:(lra)) as H3.
  pose proof (nr_add _ _ _ _ _ _ _ _ _ H3 K2 ltac:(lra) ltac:(lra) ltac:(lra) ltac:(lra) ltac:(lra)) as K3.
  eapply nr_weaken; [exact K3|lra|lra|lra|lra].
Qed.
Definition ROOM := bpow radix2 590.
Lemma ROOM_BIG : 1000 * (ROOM + 1) <= BIG.
Proof.
  unfold ROOM, BIG. replace (bpow radix2 600) with (1024 * bpow radix2 590).
  - assert (1000 <= bpow radix2 590). { apply Rle_trans with (bpow radix2 10); [cbn; lra|apply bpow_le; lia]. } lra.
  - change 600%Z with (10 + 590)%Z. rewrite bpow_plus. f_equal.
Qed.
Section Rotate.
  Variables (q : F4) (v : F3).
  Hypothesis (FQ : finite4 q) (FV : finite3 v) (SQ : short (val4 q)) (VB : norm3 (val3 v) <= ROOM).
  Let V := norm3 (val3 v).
  Lemma abs_sum3 w x y a b c : norm4 (V4 w x y 0) <= norm4 (val4 q) \/ norm4 (V4 w x y 0) <= norm4 (val4 q) -> norm3 (V3 a b c) <= V -> Rabs w * Rabs a + Rabs x * Rabs b + Rabs y * Rabs c <= 1001 / 1000 * V.
  Proof.
    intros H K. assert (N4 : norm4 (V4 a b c 0) <= V).
    { apply Rle_trans with (2 := K). apply Req_le. unfold norm4, norm3. f_equal. unfold dot4, dot3. cbn. ring. }
    pose proof (sum4 w x y 0 a b c 0 (1001 / 1000) V) as S. rewrite Rabs_R0 in S. unfold short in SQ. assert (norm4 (V4 w x y 0) <= 1001 / 1000) by (destruct H; lra).
    specialize (S ltac:(assumption) N4). lra.
  Qed.
  (** each coefficient *)
  Lemma frot_comp : exists Mx My Mz,
    nr (fx (fquatRotate q v)) (vx (quatRotate (val4 q) (val3 v))) Mx (708 / 100) 96 /\ Mx <= 4 * V /\
    nr (fy (fquatRotate q v)) (vy (quatRotate (val4 q) (val3 v))) My (708 / 100) 96 /\ My <= 4 * V /\
    nr (fz (fquatRotate q v)) (vz (quatRotate (val4 q) (val3 v))) Mz (708 / 100) 96 /\ Mz <= 4 * V.
  Proof.
    destruct FQ as (Q0 & Q1 & Q2 & Q3), FV as (X0 & X1 & X2). pose proof ROOM_BIG as RB. pose proof (norm3_pos (val3 v) : 0 <= V) as V0. fold V in VB.
    pose proof (comp3 (val3 v)) as (C0 & C1 & C2). fold V in C0, C1, C2. cbn [val3 vx vy vz] in C0, C1, C2.
    pose proof (comp4 (val4 q)) as (D0 & D1 & D2 & D3). cbn [val4 e0 e1 e2 e3] in D0, D1, D2, D3. pose proof SQ as SQ'. unfold short in SQ'.
    assert (NQ : forall a b c d, a * a + b * b + c * c <= dot4 (val4 q) (val4 q) -> d = 0 -> norm4 (V4 a b c d) <= norm4 (val4 q)).
    { intros a b c d H ->. unfold norm4. apply sqrt_le_1_alt. unfold dot4 at 1. cbn [e0 e1 e2 e3]. lra. }
    assert (NV : forall a b c, a * a + b * b + c * c = dot3 (val3 v) (val3 v) -> norm3 (V3 a b c) <= V).
    { intros a b c H. unfold V, norm3. apply sqrt_le_1_alt. unfold dot3 at 1. cbn [vx vy vz]. lra. }
    assert (SV : forall x, 0 <= x * x) by (intros; nra).
    assert (DB : forall a b c x y z, a * a + b * b + c * c <= dot4 (val4 q) (val4 q) -> x * x + y * y + z * z = dot3 (val3 v) (val3 v) ->
       Rabs a * Rabs x + Rabs b * Rabs y + Rabs c * Rabs z <= 1001 / 1000 * V).
    { intros a b c x y z H K. apply abs_sum3; [left; apply NQ; auto|apply NV; auto]. }
    assert (B1 : 1001 / 1000 * V <= BIG) by lra.
    assert (DX : nr (fsub (fsub (fmul (f1 q) (fz v)) (fmul (f2 q) (fy v))) (fmul (f3 q) (fx v)))
      (B2R (f1 q) * B2R (fz v) - B2R (f2 q) * B2R (fy v) - B2R (f3 q) * B2R (fx v)) (1001 / 1000 * V) (303 / 100) 10).
    { assert (S : Rabs (B2R (f1 q)) * Rabs (B2R (fz v)) + Rabs (B2R (f2 q)) * Rabs (B2R (fy v)) + Rabs (B2R (f3 q)) * Rabs (B2R (fx v)) <= 1001 / 1000 * V).
      { apply DB; unfold dot4, dot3, val4, val3; cbn [e0 e1 e2 e3 vx vy vz]; [pose proof (SV (B2R (f0 q)))|]; lra. }
      eapply nr_weaken; [apply d_nr; auto; lra|exact S|lra|lra|lra]. }
    assert (DY : nr (fsub (fsub (fmul (f2 q) (fx v)) (fmul (f0 q) (fz v))) (fmul (f3 q) (fy v)))
      (B2R (f2 q) * B2R (fx v) - B2R (f0 q) * B2R (fz v) - B2R (f3 q) * B2R (fy v)) (1001 / 1000 * V) (303 / 100) 10).
    { assert (S : Rabs (B2R (f2 q)) * Rabs (B2R (fx v)) + Rabs (B2R (f0 q)) * Rabs (B2R (fz v)) + Rabs (B2R (f3 q)) * Rabs (B2R (fy v)) <= 1001 / 1000 * V).
      { apply DB; unfold dot4, dot3, val4, val3; cbn [e0 e1 e2 e3 vx vy vz]; [pose proof (SV (B2R (f1 q)))|]; lra. }
      eapply nr_weaken; [apply d_nr; auto; lra|exact S|lra|lra|lra]. }
    assert (DZ : nr (fsub (fsub (fmul (f0 q) (fy v)) (fmul (f1 q) (fx v))) (fmul (f3 q) (fz v)))
      (B2R (f0 q) * B2R (fy v) - B2R (f1 q) * B2R (fx v) - B2R (f3 q) * B2R (fz v)) (1001 / 1000 * V) (303 / 100) 10).
    { assert (S : Rabs (B2R (f0 q)) * Rabs (B2R (fy v)) + Rabs (B2R (f1 q)) * Rabs (B2R (fx v)) + Rabs (B2R (f3 q)) * Rabs (B2R (fz v)) <= 1001 / 1000 * V).
      { apply DB; unfold dot4, dot3, val4, val3; cbn [e0 e1 e2 e3 vx vy vz]; [pose proof (SV (B2R (f2 q)))|]; lra. }
      eapply nr_weaken; [apply d_nr; auto; lra|exact S|lra|lra|lra]. }
    (* |a| + |b| <= sqrt 2 |q| *)
    assert (SB : forall a b, a * a + b * b <= dot4 (val4 q) (val4 q) -> Rabs a + Rabs b <= 142 / 100).
    { intros a b H. rewrite <- norm4_sq in H. pose proof (sq_abs (norm4 (val4 q)) (1001 / 1000)) as SN. rewrite Rabs_pos_eq in SN by apply norm4_pos. specialize (SN SQ').
      apply Rsq_le'; [lra|]. pose proof (Rabs_pos a). pose proof (Rabs_pos b). assert (A2 : forall x, Rabs x * Rabs x = x * x) by (intros x; unfold Rabs; destruct (Rcase_abs x); ring).
      pose proof (A2 a). pose proof (A2 b). pose proof (Rle_0_sqr (Rabs a - Rabs b)) as Q. unfold Rsqr in Q. nra. }
    assert (MB : forall a b c, a * a + b * b <= dot4 (val4 q) (val4 q) -> c <= V -> c + 2 * (Rabs a * (1001 / 1000 * V) + Rabs b * (1001 / 1000 * V)) <= 4 * V).
    { intros a b c H Hc. pose proof (SB a b H) as S. assert (K : (Rabs a + Rabs b) * (1001 / 1000 * V) <= 142 / 100 * (1001 / 1000 * V)) by (apply Rmult_le_compat_r; lra). lra. }
    exists (Rabs (B2R (fx v)) + 2 * (Rabs (B2R (f1 q)) * (1001 / 1000 * V) + Rabs (B2R (f2 q)) * (1001 / 1000 * V))).
    exists (Rabs (B2R (fy v)) + 2 * (Rabs (B2R (f2 q)) * (1001 / 1000 * V) + Rabs (B2R (f0 q)) * (1001 / 1000 * V))).
    exists (Rabs (B2R (fz v)) + 2 * (Rabs (B2R (f0 q)) * (1001 / 1000 * V) + Rabs (B2R (f1 q)) * (1001 / 1000 * V))).
    assert (Mx : Rabs (B2R (fx v)) + 2 * (Rabs (B2R (f1 q)) * (1001 / 1000 * V) + Rabs (B2R (f2 q)) * (1001 / 1000 * V)) <= 4 * V).
    { apply MB; auto. unfold dot4, val4; cbn [e0 e1 e2 e3]. pose proof (SV (B2R (f0 q))). pose proof (SV (B2R (f3 q))). lra. }
    assert (My : Rabs (B2R (fy v)) + 2 * (Rabs (B2R (f2 q)) * (1001 / 1000 * V) + Rabs (B2R (f0 q)) * (1001 / 1000 * V)) <= 4 * V).
    { apply MB; auto. unfold dot4, val4; cbn [e0 e1 e2 e3]. pose proof (SV (B2R (f1 q))). pose proof (SV (B2R (f3 q))). lra. }
    assert (Mz : Rabs (B2R (fz v)) + 2 * (Rabs (B2R (f0 q)) * (1001 / 1000 * V) + Rabs (B2R (f1 q)) * (1001 / 1000 * V)) <= 4 * V).
    { apply MB; auto. unfold dot4, val4; cbn [e0 e1 e2 e3]. pose proof (SV (B2R (f2 q))). pose proof (SV (B2R (f3 q))). lra. }
    repeat split; auto.
    - apply (rot_nr (f1 q) (f2 q) _ _ (fx v) _ _ _ Q1 Q2 X0 ltac:(lra) ltac:(lra) DY DZ); lra.
    - apply (rot_nr (f1 q) (f2 q) _ _ (fx v) _ _ _ Q1 Q2 X0 ltac:(lra) ltac:(lra) DY DZ); lra.
    - apply (rot_nr (f1 q) (f2 q) _ _ (fx v) _ _ _ Q1 Q2 X0 ltac:(lra) ltac:(lra) DY DZ); lra.
    - apply (rot_nr (f2 q) (f0 q) _ _ (fy v) _ _ _ Q2 Q0 X1 ltac:(lra) ltac:(lra) DZ DX); lra.
    - apply (rot_nr (f2 q) (f0 q) _ _ (fy v) _ _ _ Q2 Q0 X1 ltac:(lra) ltac:(lra) DZ DX); lra.
    - apply (rot_nr (f2 q) (f0 q) _ _ (fy v) _ _ _ Q2 Q0 X1 ltac:(lra) ltac:(lra) DZ DX); lra.
    - apply (rot_nr (f0 q) (f1 q) _ _ (fz v) _ _ _ Q0 Q1 X2 ltac:(lra) ltac:(lra) DX DY); lra.
    - apply (rot_nr (f0 q) (f1 q) _ _ (fz v) _ _ _ Q0 Q1 X2 ltac:(lra) ltac:(lra) DX DY); lra.
    - apply (rot_nr (f0 q) (f1 q) _ _ (fz v) _ _ _ Q0 Q1 X2 ltac:(lra) ltac:(lra) DX DY); lra.
  Qed.
End Rotate.
Lemma frotate_err q v : finite4 q -> finite3 v -> short (val4 q) -> norm3 (val3 v) <= ROOM ->
  finite3 (fquatRotate q v) /\ dist3 (val3 (fquatRotate q v)) (quatRotate (val4 q) (val3 v)) <= 57 * u * norm3 (val3 v) + 192 * eta.
Proof.
  intros FQ FV SQ VB. destruct (frot_comp q v FQ FV SQ VB) as (Mx & My & Mz & (F1 & _ & E1) & B1 & (F2 & _ & E2) & B2 & (F3 & _ & E3) & B3).
  split; [repeat split; assumption|]. set (V := norm3 (val3 v)) in *. pose proof (norm3_pos (val3 v) : 0 <= V) as V0. pose proof u53_pos. pose proof eta_pos.
  assert (K : forall M, M <= 4 * V -> 708 / 100 * u * M + 96 * eta <= 708 / 100 * u * (4 * V) + 96 * eta) by (intros M HM; apply Rplus_le_compat_r, Rmult_le_compat_l; lra).
  apply K in B1, B2, B3. assert (UV : 0 <= u * V) by (apply Rmult_le_pos; lra).
  apply Rle_trans with (2 * (708 / 100 * u * (4 * V) + 96 * eta)); [|lra].
  unfold dist3. apply norm3_le; [lra| | |]; cbn [sub3 vx vy vz val3]; lra.
Qed.
Lemma frotate_add_err q v t : finite4 q -> finite3 v -> finite3 t -> short (val4 q) -> norm3 (val3 v) <= ROOM -> norm3 (val3 t) <= ROOM ->
  finite3 (fadd3 (fquatRotate q v) t) /\ dist3 (val3 (fadd3 (fquatRotate q v) t)) (add3 (quatRotate (val4 q) (val3 v)) (val3 t)) <= 65 * u * (norm3 (val3 v) + norm3 (val3 t)) + 196 * eta.
Proof.
  intros FQ FV (G1 & G2 & G3) SQ VB TB. destruct (frot_comp q v FQ FV SQ VB) as (Mx & My & Mz & N1 & B1 & N2 & B2 & N3 & B3).
  set (V := norm3 (val3 v)) in *. pose proof (norm3_pos (val3 v) : 0 <= V) as V0. pose proof u53_pos. pose proof eta_pos. pose proof ROOM_BIG as RB.
  pose proof (comp3 (val3 t)) as (C1 & C2 & C3). set (T := norm3 (val3 t)) in *. pose proof (norm3_pos (val3 t) : 0 <= T) as T0. cbn [val3 vx vy vz] in C1, C2, C3.
  assert (A : forall x a M (y : f64), nr x a M (708 / 100) 96 -> M <= 4 * V -> is_finite y = true -> Rabs (B2R y) <= T ->
    is_finite (fadd x y) = true /\ Rabs (B2R (fadd x y) - (a + B2R y)) <= 809 / 100 * u * (4 * V + T) + 98 * eta).
  { intros x a M y N HM FY HY. pose proof (nr_weaken _ _ _ _ _ _ (708 / 100) 0 (nr_exact y FY) HY ltac:(lra) ltac:(lra) ltac:(lra)) as NY.
    pose proof (nr_weaken _ _ _ _ _ (4 * V) (708 / 100) 96 N HM ltac:(lra) ltac:(lra) ltac:(lra)) as N''.
    destruct (nr_add _ _ _ _ _ _ _ _ _ N'' NY ltac:(lra) ltac:(lra) ltac:(lra) ltac:(lra) ltac:(lra)) as (F & _ & E). split; [exact F|]. lra. }
  destruct (A _ _ _ _ N1 B1 G1 C1) as [F1 E1]. destruct (A _ _ _ _ N2 B2 G2 C2) as [F2 E2]. destruct (A _ _ _ _ N3 B3 G3 C3) as [F3 E3].
  split; [repeat split; assumption|]. assert (UV : 0 <= u * V) by (apply Rmult_le_pos; lra). assert (UT : 0 <= u * T) by (apply Rmult_le_pos; lra).
  apply Rle_trans with (2 * (809 / 100 * u * (4 * V + T) + 98 * eta)); [|lra].
  unfold dist3. apply norm3_le; [lra| | |]; cbn [sub3 add3 vx vy vz val3 fadd3 fx fy fz]; assumption.
Qed.

(** *** normalize *)
Lemma Rsum_perm l m : Permutation l m -> Rsum l = Rsum m.
Proof.
  induction 1 as [|x l m _ IH|x y l|l m n _ I1 _ I2]; auto.
  - change (x + Rsum l = x + Rsum m). lra.
  - change (y + (x + Rsum l) = x + (y + Rsum l)). lra.
  - congruence.
Qed.
Lemma leaves_one t : 1 <= INR (length (leaves t)).
Proof.
  induction t as [i|l IHl r IHr]; cbn [leaves]; [cbn; lra|]. rewrite app_length, plus_INR. lra.
Qed.
Lemma tree_nr (x : nat -> f64) (a : nat -> R) t : (forall i, 0 <= a i) -> (forall i, nr (x i) (a i) (a i) (101 / 100) 2) ->
  let n := INR (length (leaves t)) in let S := Rsum (map a (leaves t)) in n <= 8 -> S <= BIG ->
  nr (fsum_tree x t) S S (101 / 100 * n) (4 * n - 2) /\ 0 <= S.
Proof.
  intros A H. induction t as [i|l IHl r IHr]; cbv zeta; cbn [leaves fsum_tree].
  - cbn [length INR map Rsum fold_right]. intros _ B. rewrite Rplus_0_r in *. split; [|apply A]. eapply nr_weaken; [apply H|lra|lra|lra|lra].
  - rewrite app_length, plus_INR, map_app, Rsum_app. intros N B. cbv zeta in IHl, IHr.
    pose proof (leaves_one l) as L1. pose proof (leaves_one r) as R1.
    assert (PL : 0 <= Rsum (map a (leaves l))) by (apply Rsum_nonneg, Forall_map, Forall_forall; auto).
    assert (PR : 0 <= Rsum (map a (leaves r))) by (apply Rsum_nonneg, Forall_map, Forall_forall; auto).
    destruct IHl as [IL _]; [lra|lra|]. destruct IHr as [IR _]; [lra|lra|]. set (nl := INR (length (leaves l))) in *. set (n' := INR (length (leaves r))) in *.
    split; [|lra].
    pose proof (nr_weaken _ _ _ _ _ _ (101 / 100 * (nl + n' - 1)) _ IL (Rle_refl _) ltac:(lra) ltac:(lra) (Rle_refl _)) as JL.
    pose proof (nr_weaken _ _ _ _ _ _ (101 / 100 * (nl + n' - 1)) _ IR (Rle_refl _) ltac:(lra) ltac:(lra) (Rle_refl _)) as JR.
    pose proof (nr_add _ _ _ _ _ _ _ _ _ JL JR ltac:(lra) ltac:(lra) ltac:(lra) ltac:(lra) B) as K.
    eapply nr_weaken; [exact K|lra|lra|lra|lra].
Qed.
Lemma norm4_rel a b c m : 0 <= c -> 0 <= m -> Rabs (e0 a) <= c * Rabs (e0 b) + m -> Rabs (e1 a) <= c * Rabs (e1 b) + m -> Rabs (e2 a) <= c * Rabs (e2 b) + m -> Rabs (e3 a) <= c * Rabs (e3 b) + m ->
  norm4 a <= c * norm4 b + 2 * m.
Proof.
  intros C M H0 H1 H2 H3. set (ab := V4 (Rabs (e0 b)) (Rabs (e1 b)) (Rabs (e2 b)) (Rabs (e3 b))).
  assert (K : norm4 a <= norm4 (add4 (scale4 c ab) (V4 m m m m))).
  { unfold norm4. apply sqrt_le_1_alt. unfold dot4, ab. cbn [add4 scale4 e0 e1 e2 e3]. apply sq_abs in H0, H1, H2, H3. lra. }
  apply Rle_trans with (1 := K). apply Rle_trans with (1 := norm4_triangle _ _). rewrite norm4_scale, (Rabs_pos_eq c) by lra. unfold ab. rewrite abs_quat.
  assert (norm4 (V4 m m m m) <= 2 * m) by (apply norm4_le; cbn [e0 e1 e2 e3]; rewrite ?Rabs_pos_eq; lra). lra.
Qed.
Lemma fsqrt_rnd z : is_finite z = true -> 0 < B2R z -> B2R (fsqrt z) = rnd (sqrt (B2R z)) /\ is_finite (fsqrt z) = true.
Proof.
  intros F P. pose proof (Bsqrt_correct 53 1024 _ _ mode_NE z) as (Q1 & Q2 & _). split; [exact Q1|]. unfold fsqrt. rewrite Q2.
  destruct z as [b|b| |b m e p]; try discriminate F; auto. destruct b; auto. exfalso. cbn [B2R] in P.
  assert (F2R (Float radix2 (cond_Zopp true (Z.pos m)) e) < 0) by (apply F2R_lt_0; reflexivity). lra.
Qed.
Definition normal_range (q : F4) : Prop := finite4 q /\ bpow radix2 (-400) <= norm4 (val4 q) <= bpow radix2 290.
Lemma fnormalize_err E q : eigen_ok E -> normal_range q ->
  finite4 (fnormalize E q) /\ dist4 (val4 (fnormalize E q)) (normalize4 (val4 q)) <= 15 / 2 * u.
Proof.
  intros OK ((Q0 & Q1 & Q2 & Q3) & NL & NU). set (N := norm4 (val4 q)) in *.
  pose proof u_val as UV. pose proof u53_pos as UP. pose proof eta_pos as EP. pose proof eta_small as ES.
  assert (N0 : 0 < N) by (pose proof (bpow_gt_0 radix2 (-400)); lra).
  assert (NB : N * N <= BIG).
  { apply Rle_trans with (bpow radix2 290 * bpow radix2 290); [apply Rmult_le_compat; lra|]. rewrite <- bpow_plus. apply bpow_le. lia. }
  assert (NS : bpow radix2 (-800) <= N * N).
  { apply Rle_trans with (bpow radix2 (-400) * bpow radix2 (-400)); [rewrite <- bpow_plus; apply bpow_le; lia|]. pose proof (bpow_gt_0 radix2 (-400)). apply Rmult_le_compat; lra. }
  assert (EN : 14 * eta <= 1 / 100 * u * (N * N)).
  { apply Rle_trans with (1 / 100 * u * bpow radix2 (-800)); [|apply Rmult_le_compat_l; lra].
    assert (bpow radix2 (-1075) <= bpow radix2 (-20) * (u * bpow radix2 (-800))) by (rewrite <- !bpow_plus; apply bpow_le; lia).
    replace (bpow radix2 (-20)) with (/ 1048576) in * by (cbn; lra). pose proof (Rmult_lt_0_compat _ _ UP (bpow_gt_0 radix2 (-800))). lra. }
  (* the sum of squares *)
  set (x := fun i => fmul (fat4 q i) (fat4 q i)). set (a := fun i => B2R (fat4 q i) * B2R (fat4 q i)).
  assert (A0 : forall i, 0 <= a i) by (intros i; unfold a; nra).
  assert (FI : forall i, is_finite (fat4 q i) = true) by (intros [|[|[|i]]]; assumption).
  assert (AS : Rsum (map a (leaves (order E))) = N * N).
  { rewrite (Rsum_perm _ _ (Permutation_map a OK)). unfold N. rewrite norm4_sq. unfold dot4, val4, a. cbn [map Rsum fold_right fat4 e0 e1 e2 e3]. ring. }
  assert (AI : forall i, a i <= N * N).
  { intros i. unfold N. rewrite norm4_sq. unfold dot4, val4, a. cbn [e0 e1 e2 e3]. pose proof (A0 0%nat). pose proof (A0 1%nat). pose proof (A0 2%nat). pose proof (A0 3%nat). unfold a in *. cbn [fat4] in *.
    destruct i as [|[|[|i]]]; cbn [fat4]; lra. }
  assert (XA : forall i, nr (x i) (a i) (a i) (101 / 100) 2).
  { intros i. assert (AA : Rabs (B2R (fat4 q i)) * Rabs (B2R (fat4 q i)) = a i) by (unfold a, Rabs; destruct (Rcase_abs _); ring).
    unfold x. pose proof (nr_mul_exact (fat4 q i) (fat4 q i) (FI i) (FI i)) as NM. rewrite AA in NM. apply NM. specialize (AI i). lra. }
  assert (LN : INR (length (leaves (order E))) = 4) by (rewrite (Permutation_length OK); cbn; lra).
  destruct (tree_nr x a (order E) A0 XA) as [(FZ & _ & EZ) _]; [lra|lra|]. rewrite LN, AS in EZ. fold (fsquaredNorm E q) in FZ, EZ. change (fsum_tree x (order E)) with (fsquaredNorm E q) in FZ, EZ.
  set (z := fsquaredNorm E q) in *.
  assert (EZ' : Rabs (B2R z - N * N) <= 41 / 10 * u * (N * N)).
  { assert (0 <= u * (N * N)) by (repeat apply Rmult_le_pos; lra). lra. }
  clear EZ. assert (ZB : N * N * (99 / 100) <= B2R z <= N * N * (101 / 100)).
  { apply Rabs_le_inv in EZ'. assert (41 / 10 * u * (N * N) <= 1 / 100 * (N * N)) by (apply Rmult_le_compat_r; [nra|rewrite UV; lra]). lra. }
  assert (Z0 : 0 < B2R z) by (pose proof (Rmult_lt_0_compat _ _ N0 N0); lra).
  assert (TB : fltb fzero z = true).
  { apply fltb_ext; [reflexivity|now apply is_nan_finite|]. rewrite !ext_finite by auto. exact Z0. }
  (* its root *)
  destruct (fsqrt_rnd z FZ Z0) as [SV SF]. set (s := fsqrt z) in *.
  assert (RL : 9 / 10 * N <= sqrt (B2R z)).
  { rewrite <- (sqrt_square (9 / 10 * N)) by lra. apply sqrt_le_1_alt. assert (0 <= N * N) by nra. lra. }
  assert (RE : Rabs (sqrt (B2R z) - N) <= 41 / 10 * u * N).
  { pose proof (sqrt_sqrt (B2R z) ltac:(lra)) as SS. set (r := sqrt (B2R z)) in *.
    apply Rmult_le_reg_r with (r + N); [lra|]. rewrite <- (Rabs_pos_eq (r + N)) at 1 by lra. rewrite <- Rabs_mult.
    replace ((r - N) * (r + N)) with (B2R z - N * N) by (rewrite <- SS; ring). apply Rle_trans with (1 := EZ').
    replace (41 / 10 * u * N * (r + N)) with (41 / 10 * u * (N * N) + 41 / 10 * u * N * r) by ring.
    assert (0 <= 41 / 10 * u * N * r) by (repeat apply Rmult_le_pos; lra). lra. }
  assert (RU : sqrt (B2R z) <= 11 / 10 * N).
  { apply Rabs_le_inv in RE. assert (41 / 10 * u * N <= 1 / 10 * N) by (apply Rmult_le_compat_r; [lra|rewrite UV; lra]). lra. }
  assert (SE : Rabs (B2R s - N) <= 52 / 10 * u * N).
  { rewrite SV. pose proof (rnd_rel (sqrt (B2R z))) as R. rewrite Rabs_pos_eq in R by lra. specialize (R ltac:(apply Rle_trans with (bpow radix2 (-401)); [apply bpow_le; lia|];
      apply Rle_trans with (2 := RL); replace (bpow radix2 (-400)) with (2 * bpow radix2 (-401)) in NL by (change (-400)%Z with (1 + -401)%Z; rewrite bpow_plus; change (bpow radix2 1) with 2; ring); lra)).
    assert (u * sqrt (B2R z) <= u * (11 / 10 * N)) by (apply Rmult_le_compat_l; lra).
    replace (rnd (sqrt (B2R z)) - N) with ((rnd (sqrt (B2R z)) - sqrt (B2R z)) + (sqrt (B2R z) - N)) by ring. apply Rle_trans with (1 := Rabs_triang _ _). lra. }
  assert (SB : 99 / 100 * N <= B2R s <= 101 / 100 * N).
  { apply Rabs_le_inv in SE. assert (52 / 10 * u * N <= 1 / 100 * N) by (apply Rmult_le_compat_r; [lra|rewrite UV; lra]). lra. }
  assert (S0 : 0 < B2R s) by lra.
  (* 1/s *)
  assert (IE : Rabs (/ B2R s - / N) <= 53 / 10 * u * / N).
  { replace (/ B2R s - / N) with ((N - B2R s) * (/ B2R s * / N)) by (field; lra). rewrite Rabs_mult, Rabs_minus_sym. pose proof (Rinv_0_lt_compat _ N0) as IN. pose proof (Rinv_0_lt_compat _ S0) as IS.
    rewrite (Rabs_pos_eq (/ B2R s * / N)) by (apply Rmult_le_pos; lra).
    apply Rle_trans with (52 / 10 * u * N * (/ B2R s * / N)); [apply Rmult_le_compat_r; [apply Rmult_le_pos; lra|exact SE]|].
    replace (52 / 10 * u * N * (/ B2R s * / N)) with (52 / 10 * u * (N * / B2R s) * / N) by ring. apply Rmult_le_compat_r; [lra|].
    assert (N * / B2R s <= 1015 / 1000). { apply Rmult_le_reg_r with (B2R s); [lra|]. rewrite Rmult_assoc, Rinv_l by lra. lra. }
    apply Rle_trans with (52 / 10 * u * (1015 / 1000)); [apply Rmult_le_compat_l; lra|]. lra. }
  (* coefficients *)
  assert (QB : forall i, Rabs (B2R (fat4 q i)) <= N).
  { intros i. pose proof (comp4 (val4 q)) as (C0 & C1 & C2 & C3). fold N in C0, C1, C2, C3. destruct i as [|[|[|i]]]; assumption. }
  pose proof (Rinv_0_lt_compat _ N0) as IN. pose proof (Rinv_0_lt_compat _ S0) as IS.
  assert (COMP : forall i, let y := if reciprocal E then fmul (fat4 q i) (fdiv (fofZ 1) s) else fdiv (fat4 q i) s in
     is_finite y = true /\ Rabs (B2R y - 1 / N * B2R (fat4 q i)) <= 745 / 100 * u * Rabs (1 / N * B2R (fat4 q i)) + 2 * eta).
  { intros i. cbv zeta. set (c := fat4 q i) in *. specialize (QB i). fold c in QB. specialize (FI i). fold c in FI.
    assert (QN : Rabs (B2R c) * / N <= 1). { apply Rmult_le_reg_r with N; [lra|]. rewrite Rmult_assoc, Rinv_l by lra. lra. }
    assert (QI : Rabs (1 / N * B2R c) = Rabs (B2R c) * / N) by (unfold Rdiv; rewrite Rmult_1_l, Rabs_mult, (Rabs_pos_eq (/ N)) by lra; ring). rewrite QI.
    pose proof (Rabs_pos (B2R c)) as C0. set (w := Rabs (B2R c) * / N) in *. assert (W0 : 0 <= w) by (apply Rmult_le_pos; lra). assert (UW : 0 <= u * w) by (apply Rmult_le_pos; lra).
    assert (GEN : forall r k, 0 <= k <= 70 / 10 -> Rabs (r - / N) <= k * u * / N -> Rabs (B2R c * r - 1 / N * B2R c) <= k * u * w /\ Rabs (B2R c * r) <= 101 / 100 * w).
    { intros r k Kk H. assert (H1 : Rabs (B2R c * r - 1 / N * B2R c) <= k * u * w).
      { replace (B2R c * r - 1 / N * B2R c) with (B2R c * (r - / N)) by (field; lra). rewrite Rabs_mult.
        replace (k * u * w) with (Rabs (B2R c) * (k * u * / N)) by (unfold w; ring). apply Rmult_le_compat_l; auto. }
      split; [exact H1|]. replace (B2R c * r) with ((B2R c * r - 1 / N * B2R c) + 1 / N * B2R c) by ring. apply Rle_trans with (1 := Rabs_triang _ _). rewrite QI.
      assert (k * u * w <= 1 / 100 * w) by (apply Rmult_le_compat_r; [lra|rewrite UV; lra]). fold w. lra. }
    destruct (reciprocal E).
    - destruct (fofZ_correct 1) as [V1 F1]; [lia|].
      assert (IB : / B2R s <= 2 * / N).
      { apply Rabs_le_inv in IE. assert (53 / 10 * u * / N <= 1 * / N) by (apply Rmult_le_compat_r; [lra|rewrite UV; lra]). lra. }
      assert (IL : / N / 2 <= / B2R s).
      { apply Rabs_le_inv in IE. assert (53 / 10 * u * / N <= 1 / 2 * / N) by (apply Rmult_le_compat_r; [lra|rewrite UV; lra]). lra. }
      assert (IN2 : / N <= bpow radix2 400). { replace (bpow radix2 400) with (/ bpow radix2 (-400)) by (rewrite <- bpow_opp; auto). apply Rinv_le; [apply bpow_gt_0|lra]. }
      assert (IN3 : bpow radix2 (-290) <= / N). { replace (bpow radix2 (-290)) with (/ bpow radix2 290) by (rewrite <- bpow_opp; auto). apply Rinv_le; lra. }
      destruct (fdiv_rnd (fofZ 1) s 700) as [DV DF]; auto; [lra|lia| |].
      { rewrite V1. unfold Rdiv. rewrite Rmult_1_l, Rabs_pos_eq by lra. apply Rle_trans with (2 * bpow radix2 400); [lra|].
        change 2 with (bpow radix2 1). rewrite <- bpow_plus. apply bpow_le. lia. }
      set (r := fdiv (fofZ 1) s) in *. rewrite V1 in DV. unfold Rdiv in DV. rewrite Rmult_1_l in DV.
      assert (RR : Rabs (B2R r - / N) <= 64 / 10 * u * / N).
      { pose proof (rnd_rel (/ B2R s)) as R. rewrite (Rabs_pos_eq (/ B2R s)) in R by lra. specialize (R ltac:(apply Rle_trans with (2 := IL); apply Rle_trans with (bpow radix2 (-290) / 2); [|lra];
          apply Rle_trans with (bpow radix2 (-291)); [apply bpow_le; lia|]; change (-290)%Z with (1 + -291)%Z; rewrite bpow_plus; change (bpow radix2 1) with 2; lra)).
        rewrite <- DV in R. replace (B2R r - / N) with ((B2R r - / B2R s) + (/ B2R s - / N)) by ring. apply Rle_trans with (1 := Rabs_triang _ _).
        assert (u * / B2R s <= u * (11 / 10 * / N)).
        { apply Rmult_le_compat_l; [lra|]. apply Rabs_le_inv in IE. assert (53 / 10 * u * / N <= 1 / 10 * / N) by (apply Rmult_le_compat_r; [lra|rewrite UV; lra]). lra. }
        lra. }
      destruct (GEN (B2R r) (64 / 10) ltac:(lra) RR) as [G1 G2].
      destruct (fmul_rnd c r 700) as [MV MF]; auto; [lia| |].
      { apply Rle_trans with (1 := G2). apply Rle_trans with (bpow radix2 1); [change (bpow radix2 1) with 2; lra|apply bpow_le; lia]. }
      split; [exact MF|]. rewrite MV. pose proof (rnd_err (B2R c * B2R r)) as R.
      assert (u * Rabs (B2R c * B2R r) <= u * (101 / 100 * w)) by (apply Rmult_le_compat_l; lra).
      replace (rnd (B2R c * B2R r) - 1 / N * B2R c) with ((rnd (B2R c * B2R r) - B2R c * B2R r) + (B2R c * B2R r - 1 / N * B2R c)) by ring.
      apply Rle_trans with (1 := Rabs_triang _ _). lra.
    - destruct (GEN (/ B2R s) (53 / 10) ltac:(lra) IE) as [G1 G2]. 
      destruct (fdiv_rnd c s 700) as [MV MF]; auto; [lra|lia| |].
      { unfold Rdiv. apply Rle_trans with (1 := G2). apply Rle_trans with (bpow radix2 1); [change (bpow radix2 1) with 2; lra|apply bpow_le; lia]. }
      split; [exact MF|]. rewrite MV. unfold Rdiv at 1. pose proof (rnd_err (B2R c * / B2R s)) as R.
      assert (u * Rabs (B2R c * / B2R s) <= u * (101 / 100 * w)) by (apply Rmult_le_compat_l; lra).
      replace (rnd (B2R c * / B2R s) - 1 / N * B2R c) with ((rnd (B2R c * / B2R s) - B2R c * / B2R s) + (B2R c * / B2R s - 1 / N * B2R c)) by ring.
      apply Rle_trans with (1 := Rabs_triang _ _). lra. }
  pose proof (COMP 0%nat) as [F0 E0]. pose proof (COMP 1%nat) as [F1 E1]. pose proof (COMP 2%nat) as [F2 E2]. pose proof (COMP 3%nat) as [F3 E3]. cbn [fat4] in *.
  assert (EQ : fnormalize E q = mkF4 (if reciprocal E then fmul (f0 q) (fdiv (fofZ 1) s) else fdiv (f0 q) s) (if reciprocal E then fmul (f1 q) (fdiv (fofZ 1) s) else fdiv (f1 q) s)
     (if reciprocal E then fmul (f2 q) (fdiv (fofZ 1) s) else fdiv (f2 q) s) (if reciprocal E then fmul (f3 q) (fdiv (fofZ 1) s) else fdiv (f3 q) s)).
  { unfold fnormalize. fold z. rewrite TB. fold s. destruct (reciprocal E); reflexivity. }
  rewrite EQ. split; [repeat split; assumption|].
  assert (NZ : normalize4 (val4 q) = scale4 (1 / N) (val4 q)) by (unfold normalize4; fold N; destruct (Rlt_dec 0 N); [auto|lra]). rewrite NZ.
  pose proof (normalize4_is_unit (val4 q) N0) as U. rewrite NZ in U. apply norm4_unit in U.
  apply Rle_trans with (745 / 100 * u * norm4 (scale4 (1 / N) (val4 q)) + 2 * (2 * eta)); [|rewrite U; lra].
  unfold dist4. apply norm4_rel; try lra; cbn [sub4 scale4 val4 e0 e1 e2 e3 f0 f1 f2 f3]; assumption.
Qed.
