(** C135, the rotation matrix: C() in binary64. *)
From Coq Require Import Psatz List Permutation.
From Verif Require Import Float64 Nsec_Proofs TimerTable_Num Kin_Float_Model.
From Verif Require Import LinAlg Kin_Quat_Props Kin_Trans_Model Kin_Trans_Props Kin_Float_Geom Kin_Float_Num Kin_Float_Props Kin_Quat_Model.
Import ListNotations.
Open Scope R_scope.

(** ** Specification: every coefficient finite and within b *)
Definition close3 (a : F3) (v : vec3) (b : R) : Prop :=
  finite3 a /\ Rabs (B2R (fx a) - vx v) <= b /\ Rabs (B2R (fy a) - vy v) <= b /\ Rabs (B2R (fz a) - vz v) <= b.
Definition close33 (A : FM3) (M : mat3) (b : R) : Prop := close3 (fr0 A) (r30 M) b /\ close3 (fr1 A) (r31 M) b /\ close3 (fr2 A) (r32 M) b.

Lemma nr_mul_r q y b N k j : is_finite q = true -> Rabs (B2R q) <= 2 -> nr y b N k j -> 0 <= k <= 100 -> 0 <= j <= 50 -> N <= BIG ->
  nr (fmul y q) (b * B2R q) (N * Rabs (B2R q)) (k + 101 / 100) (2 * j + 2).
Proof.
  intros FQ Q Y K J B. pose proof (nr_mul q y b N k j FQ Q Y K J B) as (F & A & E). pose proof (nr_value _ _ _ _ _ Y K ltac:(lra)) as VY. destruct Y as (FY & AY & EY).
  pose proof BIG_eta as [E1 E2]. pose proof BIG_room as BR. pose proof eta_pos as EP. pose proof (Rabs_pos (B2R q)) as Q0. pose proof (Rabs_pos (B2R y)) as Y0. pose proof (Rabs_pos b) as B0.
  assert (P : Rabs (B2R q * B2R y) <= 2 * (2 * N + 100 * eta)) by (rewrite Rabs_mult; apply Rmult_le_compat; lra).
  destruct (fmul_rnd q y 700) as [R _]; auto; [lia|lra|]. destruct (fmul_rnd y q 700) as [R' F']; auto; [lia|rewrite Rmult_comm; lra|].
  split; [exact F'|]. rewrite (Rmult_comm b), (Rmult_comm N). split; [exact A|]. rewrite R', (Rmult_comm (B2R y)), <- R. exact E.
Qed.
Lemma two_products s c a b p q : is_finite a = true -> is_finite b = true -> is_finite p = true -> is_finite q = true -> is_finite c = true -> Rabs (B2R c) <= 2 ->
  2 * (Rabs (B2R a) * Rabs (B2R b)) + 2 * (Rabs (B2R p) * Rabs (B2R q)) <= 1003 / 1000 ->
  is_finite (fop s (fmul (fmul a b) c) (fmul (fmul p q) (fofZ 2))) = true /\
  Rabs (B2R (fop s (fmul (fmul a b) c) (fmul (fmul p q) (fofZ 2))) - rop s (B2R a * B2R b * B2R c) (B2R p * B2R q * 2)) <= 41 / 10 * u.
Proof.
  intros Fa Fb Fp Fq Fc C S. pose proof BIG_eta as [_ BB]. pose proof eta_small as ES. pose proof eta_pos as EP. pose proof u53_pos as UP.
  assert (P : forall x y : f64, 0 <= Rabs (B2R x) * Rabs (B2R y)) by (intros x y; apply Rmult_le_pos; apply Rabs_pos).
  pose proof (P a b) as P1. pose proof (P p q) as P2. destruct two_val as [V2 F2].
  assert (BB2 : 2 <= BIG). { apply Rle_trans with (bpow radix2 1); [change (bpow radix2 1) with 2; lra|unfold BIG; apply bpow_le; lia]. }
  assert (H1 := nr_mul_exact a b Fa Fb ltac:(lra)). assert (H2 := nr_mul_exact p q Fp Fq ltac:(lra)).
  pose proof (nr_mul_r c _ _ _ _ _ Fc C H1 ltac:(lra) ltac:(lra) ltac:(lra)) as K1.
  pose proof (nr_mul_r (fofZ 2) _ _ _ _ _ F2 ltac:(rewrite V2, Rabs_pos_eq; lra) H2 ltac:(lra) ltac:(lra) ltac:(lra)) as K2. rewrite V2, (Rabs_pos_eq 2) in K2 by lra.
  set (m := Rabs (B2R a) * Rabs (B2R b)) in *. set (m' := Rabs (B2R p) * Rabs (B2R q)) in *. pose proof (Rabs_pos (B2R c)) as C0.
  assert (MC : m * Rabs (B2R c) <= m * 2) by (apply Rmult_le_compat_l; lra).
  pose proof (nr_op s _ _ _ _ _ _ _ _ _ K1 K2 ltac:(lra) ltac:(lra) ltac:(lra) ltac:(lra) ltac:(lra)) as (F & _ & E).
  split; [exact F|]. apply Rle_trans with (1 := E). assert (SB : m * Rabs (B2R c) + m' * 2 <= 1003 / 1000) by lra. set (S' := m * Rabs (B2R c) + m' * 2) in *.
  assert (K : u * S' <= u * (1003 / 1000)) by (apply Rmult_le_compat_l; lra). 
  replace ((101 / 100 + 101 / 100 + 101 / 100) * u * S') with (303 / 100 * (u * S')) by field. lra.
Qed.
Lemma fquat2r_err q : finite4 q -> short (val4 q) -> close33 (fquat2r q) (quat2r (val4 q)) (41 / 10 * u).
Proof.
  intros (F0 & F1 & F2 & F3) S. pose proof (short_prod _ _ S S) as SS.
  assert (N : B2R (f0 q) * B2R (f0 q) + B2R (f1 q) * B2R (f1 q) + B2R (f2 q) * B2R (f2 q) + B2R (f3 q) * B2R (f3 q) <= 1003 / 1000).
  { apply Rle_trans with (2 := SS). rewrite norm4_sq. unfold dot4, val4. cbn [e0 e1 e2 e3]. lra. }
  assert (AA : forall x : f64, Rabs (B2R x) * Rabs (B2R x) = B2R x * B2R x) by (intros x; rewrite <- Rabs_mult; apply Rabs_pos_eq; nra).
  assert (AB : forall x y : f64, 2 * (Rabs (B2R x) * Rabs (B2R y)) <= B2R x * B2R x + B2R y * B2R y).
  { intros x y. rewrite <- (AA x), <- (AA y). set (a := Rabs (B2R x)). set (b := Rabs (B2R y)). pose proof (Rle_0_sqr (a - b)) as Z. unfold Rsqr in Z. lra. }
  assert (NA : forall x : f64, Rabs (B2R (fneg x)) = Rabs (B2R x)) by (intros x; unfold fneg; rewrite B2R_Bopp; apply Rabs_Ropp).
  assert (FN : is_finite (fneg (f0 q)) = true) by (unfold fneg; rewrite is_finite_Bopp; exact F0).
  destruct two_val as [V2 F2']. assert (M2 : B2R (fofZ (-2)) = -2 /\ is_finite (fofZ (-2)) = true) by (apply fofZ_correct; lia). destruct M2 as [VM FM].
  assert (C2 : Rabs (B2R (fofZ 2)) <= 2) by (rewrite V2, Rabs_pos_eq; lra). assert (CM : Rabs (B2R (fofZ (-2))) <= 2) by (rewrite VM, Rabs_left; lra).
  pose proof (AB (f0 q) (f1 q)) as B01. pose proof (AB (f2 q) (f3 q)) as B23. pose proof (AB (f0 q) (f2 q)) as B02. pose proof (AB (f1 q) (f3 q)) as B13. pose proof (AB (f0 q) (f3 q)) as B03. pose proof (AB (f1 q) (f2 q)) as B12.
  destruct (prod4 true true false (f0 q) (f0 q) (f1 q) (f1 q) (f2 q) (f2 q) (f3 q) (f3 q)) as [G00 H00]; auto; [rewrite !AA; lra|].
  destruct (prod4 false true false (fneg (f0 q)) (f0 q) (f1 q) (f1 q) (f2 q) (f2 q) (f3 q) (f3 q)) as [G11 H11]; auto; [rewrite NA, !AA; lra|].
  destruct (prod4 true false false (fneg (f0 q)) (f0 q) (f1 q) (f1 q) (f2 q) (f2 q) (f3 q) (f3 q)) as [G22 H22]; auto; [rewrite NA, !AA; lra|].
  destruct (two_products false (fofZ 2) (f0 q) (f1 q) (f2 q) (f3 q)) as [G01 H01]; auto; [lra|].
  destruct (two_products true (fofZ 2) (f0 q) (f2 q) (f1 q) (f3 q)) as [G02 H02]; auto; [lra|].
  destruct (two_products true (fofZ 2) (f0 q) (f1 q) (f2 q) (f3 q)) as [G10 H10]; auto; [lra|].
  destruct (two_products false (fofZ 2) (f0 q) (f3 q) (f1 q) (f2 q)) as [G12 H12]; auto; [lra|].
  destruct (two_products false (fofZ 2) (f0 q) (f2 q) (f1 q) (f3 q)) as [G20 H20]; auto; [lra|].
  destruct (two_products false (fofZ (-2)) (f0 q) (f3 q) (f1 q) (f2 q)) as [G21 H21]; auto; [lra|].
  rewrite V2 in H01, H02, H10, H12, H20. rewrite VM in H21. unfold rop, fop in *. unfold fneg in H11, H22. rewrite B2R_Bopp in H11, H22.
  unfold close33, close3, finite3, fquat2r, quat2r, val4, m3. cbn [fr0 fr1 fr2 fx fy fz r30 r31 r32 vx vy vz e0 e1 e2 e3].
  repeat split; assumption.
Qed.
(** a rotation matrix moves by at most twice as much as its quaternion *)
Definition entries_within (M N : mat3) (b : R) : Prop :=
  (Rabs (vx (r30 M) - vx (r30 N)) <= b /\ Rabs (vy (r30 M) - vy (r30 N)) <= b /\ Rabs (vz (r30 M) - vz (r30 N)) <= b) /\
  (Rabs (vx (r31 M) - vx (r31 N)) <= b /\ Rabs (vy (r31 M) - vy (r31 N)) <= b /\ Rabs (vz (r31 M) - vz (r31 N)) <= b) /\
  (Rabs (vx (r32 M) - vx (r32 N)) <= b /\ Rabs (vy (r32 M) - vy (r32 N)) <= b /\ Rabs (vz (r32 M) - vz (r32 N)) <= b).
Lemma bilinear a b x y N M : norm4 a = N -> norm4 b = M -> norm4 x <= norm4 a -> norm4 y <= norm4 b -> Rabs (dot4 x y) <= N * M.
Proof.
  intros <- <- X Y. apply Rle_trans with (1 := cauchy4 x y). apply Rmult_le_compat; auto; apply norm4_pos.
Qed.
Lemma quat2r_lipschitz q p : short q -> short p -> entries_within (quat2r q) (quat2r p) (201 / 100 * dist4 q p).
Proof.
  intros Q P. assert (T : forall s : R -> R -> R -> R -> vec4, (forall a b c d, norm4 (s a b c d) = norm4 (V4 a b c d)) ->
    Rabs (dot4 (sub4 q p) (s (e0 q) (e1 q) (e2 q) (e3 q)) + dot4 (s (e0 p) (e1 p) (e2 p) (e3 p)) (sub4 q p)) <= 201 / 100 * dist4 q p).
  { intros s Hs. apply Rle_trans with (1 := Rabs_triang _ _). pose proof (cauchy4 (sub4 q p) (s (e0 q) (e1 q) (e2 q) (e3 q))) as C1. pose proof (cauchy4 (s (e0 p) (e1 p) (e2 p) (e3 p)) (sub4 q p)) as C2.
    rewrite Hs in C1, C2. replace (V4 (e0 q) (e1 q) (e2 q) (e3 q)) with q in C1 by now destruct q. replace (V4 (e0 p) (e1 p) (e2 p) (e3 p)) with p in C2 by now destruct p.
    fold (dist4 q p) in C1, C2. pose proof (dist4_pos q p) as D. unfold short in *.
    assert (dist4 q p * norm4 q <= dist4 q p * (1001 / 1000)) by (apply Rmult_le_compat_l; lra).
    assert (norm4 p * dist4 q p <= 1001 / 1000 * dist4 q p) by (apply Rmult_le_compat_r; lra). lra. }
  assert (E : forall s, (forall a b c d, dot4 (s a b c d) (s a b c d) = a * a + b * b + c * c + d * d) -> forall a b c d, norm4 (s a b c d) = norm4 (V4 a b c d)).
  { intros s H a b c d. unfold norm4. f_equal. rewrite H. unfold dot4. cbn [e0 e1 e2 e3]. reflexivity. }
  pose proof (T (fun a b c d => V4 a (-b) (-c) d) ltac:(apply E; intros; unfold dot4; cbn [e0 e1 e2 e3]; ring)) as T00.
  pose proof (T (fun a b c d => V4 (-a) b (-c) d) ltac:(apply E; intros; unfold dot4; cbn [e0 e1 e2 e3]; ring)) as T11.
  pose proof (T (fun a b c d => V4 (-a) (-b) c d) ltac:(apply E; intros; unfold dot4; cbn [e0 e1 e2 e3]; ring)) as T22.
  pose proof (T (fun a b c d => V4 b a d c) ltac:(apply E; intros; unfold dot4; cbn [e0 e1 e2 e3]; ring)) as T01.
  pose proof (T (fun a b c d => V4 b a (-d) (-c)) ltac:(apply E; intros; unfold dot4; cbn [e0 e1 e2 e3]; ring)) as T10.
  pose proof (T (fun a b c d => V4 c (-d) a (-b)) ltac:(apply E; intros; unfold dot4; cbn [e0 e1 e2 e3]; ring)) as T02.
  pose proof (T (fun a b c d => V4 c d a b) ltac:(apply E; intros; unfold dot4; cbn [e0 e1 e2 e3]; ring)) as T20.
  pose proof (T (fun a b c d => V4 d c b a) ltac:(apply E; intros; unfold dot4; cbn [e0 e1 e2 e3]; ring)) as T12.
  pose proof (T (fun a b c d => V4 (-d) c b (-a)) ltac:(apply E; intros; unfold dot4; cbn [e0 e1 e2 e3]; ring)) as T21.
  assert (R : forall a b x, a = b -> Rabs a <= x -> Rabs b <= x) by (intros ? ? ? <-; auto). clear T E.
  unfold entries_within, quat2r, m3. cbn [r30 r31 r32 vx vy vz].
  destruct q as [q0 q1 q2 q3], p as [p0 p1 p2 p3]. unfold dot4, sub4 in *. cbn [e0 e1 e2 e3] in *.
  repeat split; [revert T00|revert T01|revert T02|revert T10|revert T11|revert T12|revert T20|revert T21|revert T22]; apply R; ring.
Qed.
Lemma close33_move A M N b c : close33 A M b -> entries_within M N c -> close33 A N (b + c).
Proof.
  intros ((F0 & A00 & A01 & A02) & (F1 & A10 & A11 & A12) & (F2 & A20 & A21 & A22)) ((B00 & B01 & B02) & (B10 & B11 & B12) & (B20 & B21 & B22)).
  assert (T : forall x y z : R, Rabs (x - y) <= b -> Rabs (y - z) <= c -> Rabs (x - z) <= b + c).
  { intros x y z H1 H2. replace (x - z) with ((x - y) + (y - z)) by ring. apply Rle_trans with (1 := Rabs_triang _ _). lra. }
  unfold close33, close3. repeat match goal with |- _ /\ _ => split end; try assumption; eapply T; eassumption.
Qed.
Lemma close33_weaken A M b c : close33 A M b -> b <= c -> close33 A M c.
Proof. unfold close33, close3. intros ((F0 & A00 & A01 & A02) & (F1 & A10 & A11 & A12) & (F2 & A20 & A21 & A22)) H. repeat (split; [split; [assumption|repeat split; lra]|]). split; [assumption|repeat split; lra]. Qed.
(** C() of any expression: within 21 roundings of a genuine rotation matrix - however long the expression - and within a linearly growing bound of the exact one *)
Theorem float_matrix E e : eigen_ok E -> good e -> ops e * (1 + depth e) <= 1073741824 -> path e <= bpow radix2 500 ->
  let M := ft_C (feval E e) in
  (exists R, is_rotation R /\ close33 M R (21 * u)) /\ is_rotation (tf_C (exact e)) /\ close33 M (tf_C (exact e)) (100 * ops e * u).
Proof.
  intros OK G W P M. destruct (expression_inv E e OK G W P) as (N & _ & D & _). pose proof (exact_unit e G) as U. pose proof u53_pos as UP. pose proof (ops_one e) as O1.
  pose proof (fquat2r_err _ (proj1 N) (near_short _ N)) as FE. change (fquat2r (fq (feval E e))) with M in FE. set (x := feval E e) in *.
  assert (NP : 0 < norm4 (val4 (fq x))) by (apply near_pos in N; lra).
  pose proof (normalize4_is_unit _ NP) as NU. pose proof (normalize4_dist _ NP) as ND. pose proof (proj1 N) as FN. apply proj2 in N.
  split.
  - exists (quat2r (normalize4 (val4 (fq x)))). split; [now apply quat2r_rotation|].
    eapply close33_weaken; [eapply close33_move; [exact FE|apply quat2r_lipschitz; [apply near_short; split; assumption|now apply unit_short]]|]. rewrite ND. lra.
  - split; [now apply quat2r_rotation|].
    eapply close33_weaken; [eapply close33_move; [exact FE|apply quat2r_lipschitz; [apply near_short; split; assumption|now apply unit_short]]|]. unfold tf_C. unfold qbound in D.
    assert (u <= ops e * u) by (rewrite <- (Rmult_1_l u) at 1; apply Rmult_le_compat_r; lra). lra.
Qed.

(** ** a concrete case: the orders of addition Eigen uses; products and inverses of transformations made from integers *)
Example eigen_orders : forall r, eigen_ok (mkEigen by_halves r) /\ eigen_ok (mkEigen by_packets r) /\ eigen_ok (mkEigen by_loop r).
Proof.
  intros r. repeat split; unfold eigen_ok; cbn [order leaves by_halves by_packets by_loop app]; try apply Permutation_refl. apply perm_skip, perm_swap.
Qed.
Definition case_q (a b c d : Z) : F4 := mkF4 (fofZ a) (fofZ b) (fofZ c) (fofZ d).
Definition case_t (a b c : Z) : F3 := mkF3 (fofZ a) (fofZ b) (fofZ c).
Definition case_expr : texpr := Mul (Mul (Make (case_q 2 4 5 6) (case_t 2 3 6)) (Inv (Make (case_q (-2) (-4) 5 6) (case_t 1 2 2)))) (Make (case_q 0 0 3 4) (case_t 2 3 6)).
Example float_case : good case_expr /\ ops case_expr * (1 + depth case_expr) <= 1073741824 /\ path case_expr <= bpow radix2 500 /\
  dist3 (val3 (ft (feval (mkEigen by_packets true) case_expr))) (tt (exact case_expr)) <= 1 / 10000000000.
Proof.
  assert (V : forall z, (Z.abs z <= 10)%Z -> B2R (fofZ z) = IZR z /\ is_finite (fofZ z) = true) by (intros z H; apply fofZ_correct; lia).
  assert (Q4 : forall a b c d n, (Z.abs a <= 10)%Z -> (Z.abs b <= 10)%Z -> (Z.abs c <= 10)%Z -> (Z.abs d <= 10)%Z -> (0 < n <= 100)%Z -> (a * a + b * b + c * c + d * d = n * n)%Z -> normal_range (case_q a b c d)).
  { intros a b c d n Ha Hb Hc Hd Hn E. destruct (V a Ha) as [Va Fa], (V b Hb) as [Vb Fb], (V c Hc) as [Vc Fc], (V d Hd) as [Vd Fd].
    split; [repeat split; assumption|]. unfold norm4, val4, case_q, dot4. cbn [f0 f1 f2 f3 e0 e1 e2 e3]. rewrite Va, Vb, Vc, Vd, <- !mult_IZR, <- !plus_IZR, E, mult_IZR.
    rewrite sqrt_square by (apply IZR_le; lia). split.
    - apply Rle_trans with (bpow radix2 0); [apply bpow_le; lia|]. cbn. apply IZR_le. lia.
    - apply Rle_trans with (bpow radix2 7); [|apply bpow_le; lia]. cbn. apply IZR_le. lia. }
  assert (T3 : forall a b c n, (Z.abs a <= 10)%Z -> (Z.abs b <= 10)%Z -> (Z.abs c <= 10)%Z -> (0 < n <= 100)%Z -> (a * a + b * b + c * c = n * n)%Z -> finite3 (case_t a b c) /\ norm3 (val3 (case_t a b c)) = IZR n).
  { intros a b c n Ha Hb Hc Hn E. destruct (V a Ha) as [Va Fa], (V b Hb) as [Vb Fb], (V c Hc) as [Vc Fc]. split; [repeat split; assumption|].
    unfold norm3, val3, case_t, dot3. cbn [fx fy fz vx vy vz]. rewrite Va, Vb, Vc, <- !mult_IZR, <- !plus_IZR, E, mult_IZR. apply sqrt_square, IZR_le. lia. }
  destruct (T3 2 3 6 7)%Z as [F1 N1]; try lia. destruct (T3 1 2 2 3)%Z as [F2 N2]; try lia.
  assert (G : good case_expr).
  { cbn [good case_expr]. repeat split; try (eapply Q4 with (n := 9%Z); lia); try (eapply Q4 with (n := 5%Z); lia); try apply F1; apply F2. }
  assert (O : ops case_expr = 6) by (cbn [ops case_expr]; lra). assert (D : depth case_expr = 1).
  { cbn [depth case_expr]. rewrite (Rmax_right 0 (0 + 1)) by lra. rewrite Rmax_left; lra. }
  assert (P : path case_expr = 17) by (cbn [path case_expr]; rewrite N1, N2; lra).
  assert (W : ops case_expr * (1 + depth case_expr) <= 1073741824) by (rewrite O, D; lra).
  assert (PB : path case_expr <= bpow radix2 500) by (rewrite P; apply Rle_trans with (bpow radix2 7); [cbn; lra|apply bpow_le; lia]).
  split; [exact G|]. split; [exact W|]. split; [exact PB|].
  destruct (float_expression (mkEigen by_packets true) case_expr (proj1 (proj2 (eigen_orders true))) G W PB) as (_ & _ & _ & _ & T).
  apply Rle_trans with (1 := T). rewrite O, D, P, u_val. assert (bpow radix2 (-1000) <= bpow radix2 (-60)) by (apply bpow_le; lia).
  replace (bpow radix2 (-60)) with (/ 1152921504606846976) in * by (cbn; lra). lra.
Qed.
