(** C136: from matrices to quaternions and back in binary64. *)
From Coq Require Import Psatz List.
From Verif Require Import Float64 Nsec_Proofs TimerTable_Num Kin_Float_Model Kin_FloatR_Model.
From Verif Require Import LinAlg Kin_Quat_Props Kin_Trans_Model Kin_Trans_Props Kin_Float_Geom Kin_Float_Num Kin_Float_Props Kin_Float_Matrix Kin_Quat_Model.
Import ListNotations.
Open Scope R_scope.

(** ** absolute errors of numbers of size at most 8 *)
Definition ap (x : f64) (a b : R) : Prop := is_finite x = true /\ Rabs (B2R x - a) <= b.
Lemma ap_abs x a b : ap x a b -> Rabs (B2R x) <= Rabs a + b.
Proof. intros [_ H]. replace (B2R x) with ((B2R x - a) + a) by ring. apply Rle_trans with (1 := Rabs_triang _ _). lra. Qed.
Lemma ap_pos x a b : ap x a b -> 0 <= b.
Proof. intros [_ H]. pose proof (Rabs_pos (B2R x - a)). lra. Qed.
Lemma room8 : 8 = bpow radix2 3. Proof. reflexivity. Qed.
Lemma ap_rnd s a b m : Rabs (s - a) <= b -> Rabs s <= m -> Rabs (rnd s - a) <= b + u * m + eta.
Proof.
  intros H M. pose proof (rnd_err s) as R. assert (u * Rabs s <= u * m) by (apply Rmult_le_compat_l; [pose proof u53_pos; lra|exact M]).
  replace (rnd s - a) with ((rnd s - s) + (s - a)) by ring. apply Rle_trans with (1 := Rabs_triang _ _). lra.
Qed.
Lemma ap_add x a b y c d m : ap x a b -> ap y c d -> Rabs a + b + (Rabs c + d) <= m -> m <= 8 -> ap (fadd x y) (a + c) (b + d + u * m + eta).
Proof.
  intros X Y M M8. pose proof (ap_abs _ _ _ X) as AX. pose proof (ap_abs _ _ _ Y) as AY. destruct X as [FX X], Y as [FY Y].
  assert (S : Rabs (B2R x + B2R y) <= m) by (apply Rle_trans with (1 := Rabs_triang _ _); lra).
  destruct (fadd_rnd x y 3 FX FY ltac:(lia)) as [E F]; [rewrite <- room8; lra|]. split; [exact F|]. rewrite E. apply ap_rnd; [|exact S].
  replace (B2R x + B2R y - (a + c)) with ((B2R x - a) + (B2R y - c)) by ring. apply Rle_trans with (1 := Rabs_triang _ _). lra.
Qed.
Lemma ap_sub x a b y c d m : ap x a b -> ap y c d -> Rabs a + b + (Rabs c + d) <= m -> m <= 8 -> ap (fsub x y) (a - c) (b + d + u * m + eta).
Proof.
  intros X Y M M8. pose proof (ap_abs _ _ _ X) as AX. pose proof (ap_abs _ _ _ Y) as AY. destruct X as [FX X], Y as [FY Y].
  assert (S : Rabs (B2R x - B2R y) <= m) by (apply Rle_trans with (1 := Rabs_triang (B2R x) (- B2R y)); rewrite Rabs_Ropp; lra).
  destruct (fsub_rnd x y 3 FX FY ltac:(lia)) as [E F]; [rewrite <- room8; lra|]. split; [exact F|]. rewrite E. apply ap_rnd; [|exact S].
  replace (B2R x - B2R y - (a - c)) with ((B2R x - a) + - (B2R y - c)) by ring. apply Rle_trans with (1 := Rabs_triang _ _). rewrite Rabs_Ropp. lra.
Qed.
Lemma ap_op s x a b y c d m : ap x a b -> ap y c d -> Rabs a + b + (Rabs c + d) <= m -> m <= 8 -> ap (fop s x y) (rop s a c) (b + d + u * m + eta).
Proof. destruct s; [apply ap_sub|apply ap_add]. Qed.
Lemma ap_weaken x a b b' : ap x a b -> b <= b' -> ap x a b'.
Proof. intros [F H] L. split; [exact F|lra]. Qed.
Lemma ap_fabs x a b : ap x a b -> 0 <= a -> ap (fabs x) a b.
Proof.
  intros [F H] A. split.
  - unfold fabs. now rewrite is_finite_Babs.
  - unfold fabs. rewrite B2R_Babs. rewrite <- (Rabs_pos_eq a A) at 1. apply Rle_trans with (2 := H). apply Rabs_triang_inv2.
Qed.
Lemma ap_fneg x a b : ap x a b -> ap (fneg x) (- a) b.
Proof. intros [F H]. split; [unfold fneg; now rewrite is_finite_Bopp|]. unfold fneg. rewrite B2R_Bopp. replace (- B2R x - - a) with (- (B2R x - a)) by ring. now rewrite Rabs_Ropp. Qed.
Lemma half_val : B2R fhalf = 1 / 2 /\ is_finite fhalf = true.
Proof.
  split; [|vm_compute; reflexivity]. assert (S : B2SF fhalf = SpecFloat.S754_finite false 4503599627370496 (-53)) by (vm_compute; reflexivity).
  destruct fhalf as [s|s| |s m e p]; try discriminate. cbn in S. inversion S; subst. unfold B2R, F2R. cbn. lra.
Qed.
Lemma quarter_val : B2R fquarter = 1 / 4 /\ is_finite fquarter = true.
Proof.
  split; [|vm_compute; reflexivity]. assert (S : B2SF fquarter = SpecFloat.S754_finite false 4503599627370496 (-54)) by (vm_compute; reflexivity).
  destruct fquarter as [s|s| |s m e p]; try discriminate. cbn in S. inversion S; subst. unfold B2R, F2R. cbn. lra.
Qed.

(** ** one branch of r2quat *)
Section Branch.
  Variables (dlt : R).
  Hypothesis D : 0 <= dlt <= 1 / 10000.
  Notation eps := (3 * dlt + 10 * u).
  (** 1 +- c1 +- c5 +- c9 *)
  Lemma diag_ap s1 s2 s3 (x y z : f64) a b c : ap x a dlt -> ap y b dlt -> ap z c dlt -> Rabs a <= 1 -> Rabs b <= 1 -> Rabs c <= 1 ->
    0 <= rop s3 (rop s2 (rop s1 1 a) b) c -> ap (fabs (fop s3 (fop s2 (fop s1 (fofZ 1) x) y) z)) (rop s3 (rop s2 (rop s1 1 a) b) c) eps.
  Proof.
    intros X Y Z A B C P. apply ap_fabs; [|exact P]. pose proof u_val as UV. pose proof eta_small as ES. pose proof eta_pos as EP.
    assert (O : ap (fofZ 1) 1 0). { destruct (fofZ_correct 1 ltac:(lia)) as [V F]. split; [exact F|]. rewrite V, Rminus_diag_eq by reflexivity. rewrite Rabs_R0. lra. }
    assert (RO : forall s p q, Rabs (rop s p q) <= Rabs p + Rabs q).
    { intros [|] p q; unfold rop; [|apply Rabs_triang]. unfold Rminus. apply Rle_trans with (1 := Rabs_triang _ _). rewrite Rabs_Ropp. lra. }
    assert (R1 : Rabs 1 = 1) by (apply Rabs_pos_eq; lra).
    pose proof (ap_op s1 _ _ _ _ _ _ (201 / 100) O X ltac:(lra) ltac:(lra)) as K1. pose proof (RO s1 1 a) as B1.
    pose proof (ap_op s2 _ _ _ _ _ _ (302 / 100) K1 Y ltac:(lra) ltac:(lra)) as K2. pose proof (RO s2 (rop s1 1 a) b) as B2.
    pose proof (ap_op s3 _ _ _ _ _ _ (403 / 100) K2 Z ltac:(lra) ltac:(lra)) as K3.
    eapply ap_weaken; [exact K3|]. lra.
  Qed.
  Lemma pair_ap s (x y : f64) a b : ap x a dlt -> ap y b dlt -> Rabs a <= 1 -> Rabs b <= 1 -> ap (fop s x y) (rop s a b) (2 * dlt + 201 / 100 * u).
  Proof.
    intros X Y A B. pose proof u_val as UV. pose proof eta_small as ES. pose proof eta_pos as EP.
    eapply ap_weaken; [apply (ap_op s _ _ _ _ _ _ (20002 / 10000) X Y); lra|]. lra.
  Qed.
  (** the largest component: half the square root *)
  Lemma pivot_ap (d : f64) (Qm : R) : ap d (4 * (Qm * Qm)) eps -> 497 / 1000 <= Qm <= 1 -> ap (fmul fhalf (fsqrt d)) Qm (77 / 100 * dlt + 48 / 10 * u).
  Proof.
    intros X Q. pose proof u_val as UV. pose proof eta_small as ES. pose proof eta_pos as EP. pose proof (ap_abs _ _ _ X) as AX. destruct X as [F X].
    assert (Q2 : 0 <= 4 * (Qm * Qm) <= 4) by nra. rewrite (Rabs_pos_eq (4 * (Qm * Qm))) in AX by lra.
    assert (LB : 98 / 100 <= B2R d). { apply Rabs_le_inv in X. assert (247009 / 1000000 <= Qm * Qm) by nra. lra. }
    assert (UB : B2R d <= 401 / 100) by (rewrite (Rabs_pos_eq (B2R d)) in AX by lra; lra).
    destruct (fsqrt_rnd d F ltac:(lra)) as [ES' FS]. set (r := sqrt (B2R d)) in *.
    assert (R0 : 0 <= r) by apply sqrt_pos. assert (RR : r * r = B2R d) by (apply sqrt_sqrt; lra).
    assert (RL : 98 / 100 <= r).
    { destruct (Rle_or_lt (98 / 100) r) as [H|H]; [exact H|]. assert (r * r <= 98 / 100 * (98 / 100)) by (apply Rmult_le_compat; lra). lra. }
    assert (RU : r <= 201 / 100).
    { destruct (Rle_or_lt r (201 / 100)) as [H|H]; [exact H|]. assert (201 / 100 * (201 / 100) <= r * r) by (apply Rmult_le_compat; lra). lra. }
    assert (E1 : Rabs (r - 2 * Qm) <= eps * (51 / 100)).
    { assert (P : (r - 2 * Qm) * (r + 2 * Qm) = B2R d - 4 * (Qm * Qm)) by (rewrite <- RR; ring).
      assert (PA : Rabs (r - 2 * Qm) * (r + 2 * Qm) <= eps). { rewrite <- (Rabs_pos_eq (r + 2 * Qm)) by lra. rewrite <- Rabs_mult, P. exact X. }
      pose proof (Rabs_pos (r - 2 * Qm)) as A0. assert (Rabs (r - 2 * Qm) * (197 / 100) <= Rabs (r - 2 * Qm) * (r + 2 * Qm)) by (apply Rmult_le_compat_l; lra). lra. }
    assert (E2 : Rabs (B2R (fsqrt d) - 2 * Qm) <= eps * (51 / 100) + u * (201 / 100) + eta) by (rewrite ES'; apply ap_rnd; [exact E1|rewrite Rabs_pos_eq; lra]).
    destruct half_val as [HV HF]. set (s := fsqrt d) in *.
    assert (S2 : Rabs (B2R s) <= 202 / 100). { replace (B2R s) with ((B2R s - 2 * Qm) + 2 * Qm) by ring. apply Rle_trans with (1 := Rabs_triang _ _). rewrite (Rabs_pos_eq (2 * Qm)) by lra. lra. }
    assert (S3 : Rabs (B2R fhalf * B2R s) <= 101 / 100) by (rewrite HV, Rabs_mult, (Rabs_pos_eq (1 / 2)) by lra; lra).
    destruct (fmul_rnd fhalf s 3 HF FS ltac:(lia)) as [EM FM]; [rewrite <- room8; lra|]. split; [exact FM|]. rewrite EM.
    assert (E3 : Rabs (B2R fhalf * B2R s - Qm) <= (eps * (51 / 100) + u * (201 / 100) + eta) / 2).
    { rewrite HV. replace (1 / 2 * B2R s - Qm) with (1 / 2 * (B2R s - 2 * Qm)) by field. rewrite Rabs_mult, (Rabs_pos_eq (1 / 2)) by lra. lra. }
    apply Rle_trans with (1 := ap_rnd _ _ _ _ E3 S3). lra.
  Qed.
  (** the others: a sum of two coefficients over four times the largest component *)
  Lemma other_ap (x s : f64) (Qm Qj : R) : ap x Qm (77 / 100 * dlt + 48 / 10 * u) -> ap s (4 * (Qm * Qj)) (2 * dlt + 201 / 100 * u) -> 497 / 1000 <= Qm <= 1 -> Qm * Qm + Qj * Qj <= 1 ->
    ap (fmul (fdiv fquarter x) s) Qj (3 * dlt + 15 * u).
  Proof.
    intros X S Q QQ. pose proof u_val as UV. pose proof eta_small as ES. pose proof eta_pos as EP. destruct X as [FX X]. pose proof (ap_abs _ _ _ S) as AS. destruct S as [FS S].
    assert (QJ : Rabs (4 * (Qm * Qj)) <= 2).
    { apply Rabs_le. pose proof (Rle_0_sqr (Qm - Qj)) as Z1. pose proof (Rle_0_sqr (Qm + Qj)) as Z2. unfold Rsqr in *. lra. }
    assert (XL : 496 / 1000 <= B2R x) by (apply Rabs_le_inv in X; lra). destruct quarter_val as [QV QF].
    assert (NX : B2R x <> 0) by lra. assert (IX : 0 < / B2R x) by (apply Rinv_0_lt_compat; lra). assert (IXU : / B2R x <= 2017 / 1000).
    { apply Rle_trans with (/ (496 / 1000)); [apply Rinv_le; lra|]. lra. }
    assert (CV : Rabs (B2R fquarter / B2R x) <= 505 / 1000) by (rewrite QV; unfold Rdiv at 1; rewrite Rabs_pos_eq by (apply Rmult_le_pos; lra); lra).
    destruct (fdiv_rnd fquarter x 3 QF NX ltac:(lia)) as [EC FC]; [rewrite <- room8; lra|]. set (c := fdiv fquarter x) in *.
    assert (IQ : 0 < / Qm) by (apply Rinv_0_lt_compat; lra). assert (IQU : / Qm <= 2013 / 1000). { apply Rle_trans with (/ (497 / 1000)); [apply Rinv_le; lra|]. lra. }
    assert (C1 : Rabs (B2R fquarter / B2R x - 1 / 4 * / Qm) <= 1016 / 1000 * (77 / 100 * dlt + 48 / 10 * u)).
    { rewrite QV. replace (1 / 4 / B2R x - 1 / 4 * / Qm) with (1 / 4 * (/ B2R x * / Qm) * (Qm - B2R x)) by (field; lra).
      assert (PI : 0 <= / B2R x * / Qm <= 2017 / 1000 * (2013 / 1000)) by (split; [apply Rmult_le_pos; lra|apply Rmult_le_compat; lra]).
      rewrite Rabs_mult, (Rabs_pos_eq (1 / 4 * _)) by lra. rewrite Rabs_minus_sym. pose proof (Rabs_pos (B2R x - Qm)). apply Rmult_le_compat; lra. }
    assert (C2 : Rabs (B2R c - 1 / 4 * / Qm) <= 783 / 1000 * dlt + 54 / 10 * u) by (rewrite EC; apply Rle_trans with (1 := ap_rnd _ _ _ _ C1 CV); lra).
    assert (CA : Rabs (B2R c) <= 506 / 1000).
    { replace (B2R c) with ((B2R c - 1 / 4 * / Qm) + 1 / 4 * / Qm) by ring. apply Rle_trans with (1 := Rabs_triang _ _). rewrite (Rabs_pos_eq (1 / 4 * / Qm)) by lra. lra. }
    assert (PR : Rabs (B2R c * B2R s) <= 102 / 100).
    { rewrite Rabs_mult. apply Rle_trans with (506 / 1000 * (2001 / 1000)); [apply Rmult_le_compat; try apply Rabs_pos; lra|lra]. }
    destruct (fmul_rnd c s 3 FC FS ltac:(lia)) as [EM FM]; [rewrite <- room8; lra|]. split; [exact FM|]. rewrite EM.
    assert (E : Rabs (B2R c * B2R s - Qj) <= 506 / 1000 * (2 * dlt + 201 / 100 * u) + (783 / 1000 * dlt + 54 / 10 * u) * 2).
    { replace (B2R c * B2R s - Qj) with (B2R c * (B2R s - 4 * (Qm * Qj)) + (B2R c - 1 / 4 * / Qm) * (4 * (Qm * Qj))) by (field; lra).
      apply Rle_trans with (1 := Rabs_triang _ _). rewrite (Rabs_mult (B2R c) (B2R s - 4 * (Qm * Qj))), (Rabs_mult (B2R c - 1 / 4 * / Qm) (4 * (Qm * Qj))). apply Rplus_le_compat.
      - apply Rmult_le_compat; try apply Rabs_pos; lra.
      - apply Rmult_le_compat; try lra; try apply Rabs_pos. }
    apply Rle_trans with (1 := ap_rnd _ _ _ _ E PR). lra.
  Qed.
End Branch.

(** ** r2quat *)
Definition ap4 (x : F4) (v : vec4) (b : R) : Prop := ap (f0 x) (e0 v) b /\ ap (f1 x) (e1 v) b /\ ap (f2 x) (e2 v) b /\ ap (f3 x) (e3 v) b.
Lemma ap4_dist x v b : ap4 x v b -> finite4 x /\ dist4 (val4 x) v <= 2 * b.
Proof.
  intros ([F0 A0] & [F1 A1] & [F2 A2] & [F3 A3]). split; [repeat split; assumption|]. unfold dist4. pose proof (Rabs_pos (B2R (f0 x) - e0 v)). apply norm4_le; auto. lra.
Qed.
Lemma fltb_val (x y : f64) : is_finite x = true -> is_finite y = true -> (fltb x y = true -> B2R x < B2R y) /\ (fltb x y = false -> B2R y <= B2R x).
Proof.
  intros X Y. pose proof (fltb_ext x y (is_nan_finite _ X) (is_nan_finite _ Y)) as E. rewrite !ext_finite in E by assumption. split; intros H.
  - now apply E.
  - destruct (Rle_or_lt (B2R y) (B2R x)) as [L|L]; [exact L|]. apply E in L. congruence.
Qed.
Lemma quat2r_small Q : unit4 Q -> 
  (Rabs (vx (r30 (quat2r Q))) <= 1 /\ Rabs (vy (r30 (quat2r Q))) <= 1 /\ Rabs (vz (r30 (quat2r Q))) <= 1) /\
  (Rabs (vx (r31 (quat2r Q))) <= 1 /\ Rabs (vy (r31 (quat2r Q))) <= 1 /\ Rabs (vz (r31 (quat2r Q))) <= 1) /\
  (Rabs (vx (r32 (quat2r Q))) <= 1 /\ Rabs (vy (r32 (quat2r Q))) <= 1 /\ Rabs (vz (r32 (quat2r Q))) <= 1).
Proof.
  intros U. destruct Q as [a b c d]. unfold unit4, dot4 in U. unfold quat2r, m3. cbn [e0 e1 e2 e3 r30 r31 r32 vx vy vz] in *.
  pose proof (Rle_0_sqr a). pose proof (Rle_0_sqr b). pose proof (Rle_0_sqr c). pose proof (Rle_0_sqr d).
  pose proof (Rle_0_sqr (a - b)). pose proof (Rle_0_sqr (a + b)). pose proof (Rle_0_sqr (c - d)). pose proof (Rle_0_sqr (c + d)).
  pose proof (Rle_0_sqr (a - c)). pose proof (Rle_0_sqr (a + c)). pose proof (Rle_0_sqr (b - d)). pose proof (Rle_0_sqr (b + d)).
  pose proof (Rle_0_sqr (a - d)). pose proof (Rle_0_sqr (a + d)). pose proof (Rle_0_sqr (b - c)). pose proof (Rle_0_sqr (b + c)).
  unfold Rsqr in *. repeat split; apply Rabs_le; lra.
Qed.
Section R2Q.
  Variables (M : FM3) (dlt : R).
  Hypothesis D : 0 <= dlt <= 1 / 10000.
  Notation c1 := (fx (fr0 M)). Notation c2 := (fx (fr1 M)). Notation c3 := (fx (fr2 M)).
  Notation c4 := (fy (fr0 M)). Notation c5 := (fy (fr1 M)). Notation c6 := (fy (fr2 M)).
  Notation c7 := (fz (fr0 M)). Notation c8 := (fz (fr1 M)). Notation c9 := (fz (fr2 M)).
  Notation eps := (3 * dlt + 10 * u).
  Notation one := (fofZ 1).
  Notation d0 := (fabs (fsub (fsub (fadd one c1) c5) c9)). Notation d1 := (fabs (fsub (fadd (fsub one c1) c5) c9)).
  Notation d2 := (fabs (fadd (fsub (fsub one c1) c5) c9)). Notation d3 := (fabs (fadd (fadd (fadd one c1) c5) c9)).
  Section Q.
    Variable Q : vec4.
    Hypothesis U : unit4 Q.
    Hypothesis C : close33 M (quat2r Q) dlt.
    Lemma entries : (ap c1 (vx (r30 (quat2r Q))) dlt /\ ap c4 (vy (r30 (quat2r Q))) dlt /\ ap c7 (vz (r30 (quat2r Q))) dlt) /\
      (ap c2 (vx (r31 (quat2r Q))) dlt /\ ap c5 (vy (r31 (quat2r Q))) dlt /\ ap c8 (vz (r31 (quat2r Q))) dlt) /\
      (ap c3 (vx (r32 (quat2r Q))) dlt /\ ap c6 (vy (r32 (quat2r Q))) dlt /\ ap c9 (vz (r32 (quat2r Q))) dlt).
    Proof.
      destruct C as (((F00 & F01 & F02) & A00 & A01 & A02) & ((F10 & F11 & F12) & A10 & A11 & A12) & ((F20 & F21 & F22) & A20 & A21 & A22)).
      repeat match goal with |- _ /\ _ => split end; (split; assumption).
    Qed.
    Ltac polys := pose proof U as U'; unfold unit4, dot4 in U'; unfold quat2r, m3 in *; cbn [r30 r31 r32 vx vy vz] in *.
    Lemma diags : ap d0 (4 * (e0 Q * e0 Q)) eps /\ ap d1 (4 * (e1 Q * e1 Q)) eps /\ ap d2 (4 * (e2 Q * e2 Q)) eps /\ ap d3 (4 * (e3 Q * e3 Q)) eps.
    Proof.
      destruct entries as ((E1 & _ & _) & (_ & E5 & _) & (_ & _ & E9)). destruct (quat2r_small Q U) as ((S1 & _ & _) & (_ & S5 & _) & (_ & _ & S9)).
      pose proof (Rle_0_sqr (e0 Q)) as P0. pose proof (Rle_0_sqr (e1 Q)) as P1. pose proof (Rle_0_sqr (e2 Q)) as P2. pose proof (Rle_0_sqr (e3 Q)) as P3. unfold Rsqr in *.
      assert (T : forall s1 s2 s3 v, 0 <= v -> rop s3 (rop s2 (rop s1 1 (vx (r30 (quat2r Q)))) (vy (r31 (quat2r Q)))) (vz (r32 (quat2r Q))) = v ->
        ap (fabs (fop s3 (fop s2 (fop s1 (fofZ 1) c1) c5) c9)) v eps).
      { intros s1 s2 s3 v V H. rewrite <- H in V |- *. apply diag_ap; auto. }
      clear E1 E5 E9 S1 S5 S9. split; [|split; [|split]].
      - apply (T false true true); [lra|]. clear T. unfold rop. polys. lra.
      - apply (T true false true); [lra|]. clear T. unfold rop. polys. lra.
      - apply (T true true false); [lra|]. clear T. unfold rop. polys. lra.
      - apply (T false false false); [lra|]. clear T. unfold rop. polys. lra.
    Qed.
    Lemma off (s : bool) (x y : f64) a b v : ap x a dlt -> ap y b dlt -> Rabs a <= 1 -> Rabs b <= 1 -> rop s a b = v -> ap (fop s x y) v (2 * dlt + 201 / 100 * u).
    Proof. intros X Y A B <-. now apply pair_ap. Qed.
    Lemma sums : 
      ap (fadd c4 c2) (4 * (e0 Q * e1 Q)) (2 * dlt + 201 / 100 * u) /\ ap (fadd c7 c3) (4 * (e0 Q * e2 Q)) (2 * dlt + 201 / 100 * u) /\ ap (fadd c3 c7) (4 * (e0 Q * e2 Q)) (2 * dlt + 201 / 100 * u) /\
      ap (fadd c6 c8) (4 * (e1 Q * e2 Q)) (2 * dlt + 201 / 100 * u) /\
      ap (fsub c8 c6) (4 * (e0 Q * e3 Q)) (2 * dlt + 201 / 100 * u) /\ ap (fsub c3 c7) (4 * (e1 Q * e3 Q)) (2 * dlt + 201 / 100 * u) /\ ap (fsub c4 c2) (4 * (e2 Q * e3 Q)) (2 * dlt + 201 / 100 * u).
    Proof.
      destruct entries as ((E1 & E4 & E7) & (E2 & E5 & E8) & (E3 & E6 & E9)). destruct (quat2r_small Q U) as ((S1 & S4 & S7) & (S2 & S5 & S8) & (S3 & S6 & S9)).
      repeat match goal with |- _ /\ _ => split end.
      - apply (off false) with (1 := E4) (2 := E2); auto. clear. unfold rop, quat2r, m3. cbn [r30 r31 r32 vx vy vz]. lra.
      - apply (off false) with (1 := E7) (2 := E3); auto. clear. unfold rop, quat2r, m3. cbn [r30 r31 r32 vx vy vz]. lra.
      - apply (off false) with (1 := E3) (2 := E7); auto. clear. unfold rop, quat2r, m3. cbn [r30 r31 r32 vx vy vz]. lra.
      - apply (off false) with (1 := E6) (2 := E8); auto. clear. unfold rop, quat2r, m3. cbn [r30 r31 r32 vx vy vz]. lra.
      - apply (off true) with (1 := E8) (2 := E6); auto. clear. unfold rop, quat2r, m3. cbn [r30 r31 r32 vx vy vz]. lra.
      - apply (off true) with (1 := E3) (2 := E7); auto. clear. unfold rop, quat2r, m3. cbn [r30 r31 r32 vx vy vz]. lra.
      - apply (off true) with (1 := E4) (2 := E2); auto. clear. unfold rop, quat2r, m3. cbn [r30 r31 r32 vx vy vz]. lra.
    Qed.
    Lemma pivot_only (x : f64) v : ap x v (77 / 100 * dlt + 48 / 10 * u) -> ap x v (3 * dlt + 15 * u).
    Proof. intros H. eapply ap_weaken; [exact H|]. pose proof u53_pos. lra. Qed.
    Lemma le1 a b c d : a * a + b * b + c * c + d * d = 1 -> a <= 1 /\ a * a + b * b <= 1 /\ a * a + c * c <= 1 /\ a * a + d * d <= 1.
    Proof. intros H. pose proof (Rle_0_sqr b). pose proof (Rle_0_sqr c). pose proof (Rle_0_sqr d). unfold Rsqr in *. repeat split; nra. Qed.
    Lemma branch0 : 497 / 1000 <= e0 Q -> let x := fmul fhalf (fsqrt d0) in let c := fdiv fquarter x in
      ap4 (mkF4 x (fmul c (fadd c4 c2)) (fmul c (fadd c7 c3)) (fmul c (fsub c8 c6))) Q (3 * dlt + 15 * u).
    Proof.
      intros L x c. destruct diags as (X & _). destruct sums as (S1 & S2 & _ & _ & S3 & _). pose proof U as U'. unfold unit4, dot4 in U'. destruct (le1 _ _ _ _ U') as (A & B1 & B2 & B3).
      pose proof (pivot_ap dlt D _ _ X ltac:(lra)) as P. fold x in P. unfold ap4. cbn [f0 f1 f2 f3]. split; [now apply pivot_only|].
      repeat split; (eapply other_ap; [exact D|exact P| |lra|]); eassumption || idtac.
    Qed.
    Lemma branch1 : 497 / 1000 <= e1 Q -> let x := fmul fhalf (fsqrt d1) in let c := fdiv fquarter x in
      ap4 (mkF4 (fmul c (fadd c4 c2)) x (fmul c (fadd c6 c8)) (fmul c (fsub c3 c7))) Q (3 * dlt + 15 * u).
    Proof.
      intros L x c. destruct diags as (_ & X & _). destruct sums as (S1 & _ & _ & S2 & _ & S3 & _). pose proof U as U'. unfold unit4, dot4 in U'. 
      destruct (le1 (e1 Q) (e0 Q) (e2 Q) (e3 Q) ltac:(lra)) as (A & B1 & B2 & B3). rewrite (Rmult_comm (e0 Q)) in S1.
      pose proof (pivot_ap dlt D _ _ X ltac:(lra)) as P. fold x in P. unfold ap4. cbn [f0 f1 f2 f3].
      split; [apply (other_ap dlt D x _ (e1 Q)); auto; lra|]. split; [now apply pivot_only|]. split; apply (other_ap dlt D x _ (e1 Q)); auto; lra.
    Qed.
    Lemma branch2 : 497 / 1000 <= e2 Q -> let x := fmul fhalf (fsqrt d2) in let c := fdiv fquarter x in
      ap4 (mkF4 (fmul c (fadd c3 c7)) (fmul c (fadd c6 c8)) x (fmul c (fsub c4 c2))) Q (3 * dlt + 15 * u).
    Proof.
      intros L x c. destruct diags as (_ & _ & X & _). destruct sums as (_ & _ & S1 & S2 & _ & _ & S3). pose proof U as U'. unfold unit4, dot4 in U'. 
      destruct (le1 (e2 Q) (e0 Q) (e1 Q) (e3 Q) ltac:(lra)) as (A & B1 & B2 & B3). rewrite (Rmult_comm (e0 Q)) in S1. rewrite (Rmult_comm (e1 Q)) in S2.
      pose proof (pivot_ap dlt D _ _ X ltac:(lra)) as P. fold x in P. unfold ap4. cbn [f0 f1 f2 f3].
      split; [apply (other_ap dlt D x _ (e2 Q)); auto; lra|]. split; [apply (other_ap dlt D x _ (e2 Q)); auto; lra|]. split; [now apply pivot_only|]. apply (other_ap dlt D x _ (e2 Q)); auto; lra.
    Qed.
    Lemma branch3 : 497 / 1000 <= e3 Q -> let x := fmul fhalf (fsqrt d3) in let c := fdiv fquarter x in
      ap4 (mkF4 (fmul c (fsub c8 c6)) (fmul c (fsub c3 c7)) (fmul c (fsub c4 c2)) x) Q (3 * dlt + 15 * u).
    Proof.
      intros L x c. destruct diags as (_ & _ & _ & X). destruct sums as (_ & _ & _ & _ & S1 & S2 & S3). pose proof U as U'. unfold unit4, dot4 in U'. 
      destruct (le1 (e3 Q) (e0 Q) (e1 Q) (e2 Q) ltac:(lra)) as (A & B1 & B2 & B3). rewrite (Rmult_comm (e0 Q)) in S1. rewrite (Rmult_comm (e1 Q)) in S2. rewrite (Rmult_comm (e2 Q)) in S3.
      pose proof (pivot_ap dlt D _ _ X ltac:(lra)) as P. fold x in P. unfold ap4. cbn [f0 f1 f2 f3].
      split; [apply (other_ap dlt D x _ (e3 Q)); auto; lra|]. split; [apply (other_ap dlt D x _ (e3 Q)); auto; lra|]. split; [apply (other_ap dlt D x _ (e3 Q)); auto; lra|now apply pivot_only].
    Qed.
  End Q.
End R2Q.
Lemma unit_opp4 Q : unit4 Q -> unit4 (opp4 Q).
Proof. unfold unit4. intros <-. vring. Qed.
Lemma sign_choice Q (v : vec4 -> R) : (forall p, v (opp4 p) = - v p) -> unit4 Q -> 497 / 1000 <= Rabs (v Q) -> exists P, unit4 P /\ quat2r P = quat2r Q /\ 497 / 1000 <= v P.
Proof.
  intros V U H. destruct (Rle_or_lt 0 (v Q)) as [L|L].
  - exists Q. rewrite Rabs_pos_eq in H by lra. auto.
  - exists (opp4 Q). rewrite Rabs_left in H by lra. rewrite V. split; [now apply unit_opp4|]. split; [apply quat2r_opp|lra].
Qed.
Lemma pick_pivot (a b c d : R) (x0 x1 x2 x3 e : R) : 0 <= e <= 4 / 10000 -> a * a + b * b + c * c + d * d = 1 ->
  Rabs (x0 - 4 * (a * a)) <= e -> Rabs (x1 - 4 * (b * b)) <= e -> Rabs (x2 - 4 * (c * c)) <= e -> Rabs (x3 - 4 * (d * d)) <= e ->
  x1 <= x0 -> x2 <= x0 -> x3 <= x0 -> 497 / 1000 <= Rabs a.
Proof.
  intros E S A0 A1 A2 A3 L1 L2 L3. apply Rabs_le_inv in A0, A1, A2, A3.
  assert (H : 247009 / 1000000 <= a * a) by lra. destruct (Rle_or_lt (497 / 1000) (Rabs a)) as [K|K]; [exact K|]. exfalso.
  assert (a * a <= 497 / 1000 * (497 / 1000)).
  { replace (a * a) with (Rabs a * Rabs a) by (rewrite <- Rabs_mult; apply Rabs_pos_eq; lra). pose proof (Rabs_pos a). apply Rmult_le_compat; lra. }
  assert (H2 : 2478 / 10000 <= a * a) by lra. lra.
Qed.
Lemma fr2quat_ap M Q0 dlt : 0 <= dlt <= 1 / 10000 -> unit4 Q0 -> close33 M (quat2r Q0) dlt ->
  exists Q, unit4 Q /\ quat2r Q = quat2r Q0 /\ ap4 (fr2quat M) Q (3 * dlt + 15 * u) /\ 0 <= B2R (f3 (fr2quat M)).
Proof.
  intros D U C. destruct (diags M dlt D Q0 U C) as (A0 & A1 & A2 & A3).
  assert (FIN : forall q Q, unit4 Q -> quat2r Q = quat2r Q0 -> ap4 q Q (3 * dlt + 15 * u) ->
    let r := if fltb (f3 q) fzero then mkF4 (fneg (f0 q)) (fneg (f1 q)) (fneg (f2 q)) (fneg (f3 q)) else q in
    exists Q, unit4 Q /\ quat2r Q = quat2r Q0 /\ ap4 r Q (3 * dlt + 15 * u) /\ 0 <= B2R (f3 r)).
  { intros q Q UQ EQ (B0 & B1 & B2 & B3) r. unfold r. destruct (fltb_val (f3 q) fzero (proj1 B3) eq_refl) as [T F]. destruct (fltb (f3 q) fzero).
    - exists (opp4 Q). split; [now apply unit_opp4|]. split; [now rewrite quat2r_opp|]. split.
      + unfold ap4, opp4. cbn [f0 f1 f2 f3 e0 e1 e2 e3]. repeat match goal with |- _ /\ _ => split end; apply ap_fneg; assumption.
      + cbn [f3]. unfold fneg. rewrite B2R_Bopp. specialize (T eq_refl). cbn in T. lra.
    - exists Q. specialize (F eq_refl). split; [exact UQ|]. split; [exact EQ|]. split; [exact (conj B0 (conj B1 (conj B2 B3)))|exact F]. }
  assert (UU := U). unfold unit4, dot4 in UU.
  assert (ES : 0 <= 3 * dlt + 10 * u <= 4 / 10000) by (pose proof u_val; pose proof u53_pos; lra).
  pose proof (proj2 A0) as X0. pose proof (proj2 A1) as X1. pose proof (proj2 A2) as X2. pose proof (proj2 A3) as X3.
  apply proj1 in A0, A1, A2, A3.
  set (d0 := fabs (fsub (fsub (fadd (fofZ 1) (fx (fr0 M))) (fy (fr1 M))) (fz (fr2 M)))) in *.
  set (d1 := fabs (fsub (fadd (fsub (fofZ 1) (fx (fr0 M))) (fy (fr1 M))) (fz (fr2 M)))) in *.
  set (d2 := fabs (fadd (fsub (fsub (fofZ 1) (fx (fr0 M))) (fy (fr1 M))) (fz (fr2 M)))) in *.
  set (d3 := fabs (fadd (fadd (fadd (fofZ 1) (fx (fr0 M))) (fy (fr1 M))) (fz (fr2 M)))) in *.
  assert (P0 : B2R d1 <= B2R d0 -> B2R d2 <= B2R d0 -> B2R d3 <= B2R d0 -> exists Q, unit4 Q /\ quat2r Q = quat2r Q0 /\ ap4 (let x := fmul fhalf (fsqrt d0) in let c := fdiv fquarter x in mkF4 x (fmul c (fadd (fy (fr0 M)) (fx (fr1 M)))) (fmul c (fadd (fz (fr0 M)) (fx (fr2 M)))) (fmul c (fsub (fz (fr1 M)) (fy (fr2 M))))) Q (3 * dlt + 15 * u)).
  { intros L1 L2 L3. destruct (sign_choice Q0 e0) as (Q & UQ & EQ & LQ); [intros []; reflexivity|exact U|exact (pick_pivot _ _ _ _ _ _ _ _ _ ES UU X0 X1 X2 X3 L1 L2 L3)|].
    exists Q. split; [exact UQ|]. split; [exact EQ|]. apply branch0; auto. now rewrite EQ. }
  assert (P1 : B2R d0 <= B2R d1 -> B2R d2 <= B2R d1 -> B2R d3 <= B2R d1 -> exists Q, unit4 Q /\ quat2r Q = quat2r Q0 /\ ap4 (let x := fmul fhalf (fsqrt d1) in let c := fdiv fquarter x in mkF4 (fmul c (fadd (fy (fr0 M)) (fx (fr1 M)))) x (fmul c (fadd (fy (fr2 M)) (fz (fr1 M)))) (fmul c (fsub (fx (fr2 M)) (fz (fr0 M))))) Q (3 * dlt + 15 * u)).
  { intros L1 L2 L3. destruct (sign_choice Q0 e1) as (Q & UQ & EQ & LQ); [intros []; reflexivity|exact U|refine (pick_pivot _ _ _ _ _ _ _ _ _ ES _ X1 X0 X2 X3 L1 L2 L3); lra|].
    exists Q. split; [exact UQ|]. split; [exact EQ|]. apply branch1; auto. now rewrite EQ. }
  assert (P2 : B2R d0 <= B2R d2 -> B2R d1 <= B2R d2 -> B2R d3 <= B2R d2 -> exists Q, unit4 Q /\ quat2r Q = quat2r Q0 /\ ap4 (let x := fmul fhalf (fsqrt d2) in let c := fdiv fquarter x in mkF4 (fmul c (fadd (fx (fr2 M)) (fz (fr0 M)))) (fmul c (fadd (fy (fr2 M)) (fz (fr1 M)))) x (fmul c (fsub (fy (fr0 M)) (fx (fr1 M))))) Q (3 * dlt + 15 * u)).
  { intros L1 L2 L3. destruct (sign_choice Q0 e2) as (Q & UQ & EQ & LQ); [intros []; reflexivity|exact U|refine (pick_pivot _ _ _ _ _ _ _ _ _ ES _ X2 X0 X1 X3 L1 L2 L3); lra|].
    exists Q. split; [exact UQ|]. split; [exact EQ|]. apply branch2; auto. now rewrite EQ. }
  assert (P3 : B2R d0 <= B2R d3 -> B2R d1 <= B2R d3 -> B2R d2 <= B2R d3 -> exists Q, unit4 Q /\ quat2r Q = quat2r Q0 /\ ap4 (let x := fmul fhalf (fsqrt d3) in let c := fdiv fquarter x in mkF4 (fmul c (fsub (fz (fr1 M)) (fy (fr2 M)))) (fmul c (fsub (fx (fr2 M)) (fz (fr0 M)))) (fmul c (fsub (fy (fr0 M)) (fx (fr1 M)))) x) Q (3 * dlt + 15 * u)).
  { intros L1 L2 L3. destruct (sign_choice Q0 e3) as (Q & UQ & EQ & LQ); [intros []; reflexivity|exact U|refine (pick_pivot _ _ _ _ _ _ _ _ _ ES _ X3 X0 X1 X2 L1 L2 L3); lra|].
    exists Q. split; [exact UQ|]. split; [exact EQ|]. apply branch3; auto. now rewrite EQ. }
  unfold fr2quat. cbv zeta. fold d0 d1 d2 d3. clearbody d0 d1 d2 d3. cbv zeta in P0, P1, P2, P3, FIN.
  destruct (fltb_val d0 d1 A0 A1) as [T01 F01]. destruct (fltb d0 d1); cbv beta iota.
  - specialize (T01 eq_refl). destruct (fltb_val d1 d2 A1 A2) as [T12 F12]. destruct (fltb d1 d2); cbv beta iota.
    + specialize (T12 eq_refl). destruct (fltb_val d2 d3 A2 A3) as [T23 F23]. destruct (fltb d2 d3); cbv beta iota.
      * specialize (T23 eq_refl). destruct P3 as (Q & UQ & EQ & AQ); try lra. exact (FIN _ Q UQ EQ AQ).
      * specialize (F23 eq_refl). destruct P2 as (Q & UQ & EQ & AQ); try lra. exact (FIN _ Q UQ EQ AQ).
    + specialize (F12 eq_refl). destruct (fltb_val d1 d3 A1 A3) as [T13 F13]. destruct (fltb d1 d3); cbv beta iota.
      * specialize (T13 eq_refl). destruct P3 as (Q & UQ & EQ & AQ); try lra. exact (FIN _ Q UQ EQ AQ).
      * specialize (F13 eq_refl). destruct P1 as (Q & UQ & EQ & AQ); try lra. exact (FIN _ Q UQ EQ AQ).
  - specialize (F01 eq_refl). destruct (fltb_val d0 d2 A0 A2) as [T02 F02]. destruct (fltb d0 d2); cbv beta iota.
    + specialize (T02 eq_refl). destruct (fltb_val d2 d3 A2 A3) as [T23 F23]. destruct (fltb d2 d3); cbv beta iota.
      * specialize (T23 eq_refl). destruct P3 as (Q & UQ & EQ & AQ); try lra. exact (FIN _ Q UQ EQ AQ).
      * specialize (F23 eq_refl). destruct P2 as (Q & UQ & EQ & AQ); try lra. exact (FIN _ Q UQ EQ AQ).
    + specialize (F02 eq_refl). destruct (fltb_val d0 d3 A0 A3) as [T03 F03]. destruct (fltb d0 d3); cbv beta iota.
      * specialize (T03 eq_refl). destruct P3 as (Q & UQ & EQ & AQ); try lra. exact (FIN _ Q UQ EQ AQ).
      * specialize (F03 eq_refl). destruct P0 as (Q & UQ & EQ & AQ); try lra. exact (FIN _ Q UQ EQ AQ).
Qed.

(** ** C136 *)
Lemma float_mq M C dlt q : q = fr2quat M -> is_rotation C -> close33 M C dlt -> dlt <= 1 / 10000 ->
  finite4 q /\ 0 <= B2R (f3 q) /\ Rabs (norm4 (val4 q) - 1) <= 6 * dlt + 30 * u /\
  (exists Q, unit4 Q /\ quat2r Q = C /\ dist4 (val4 q) Q <= 6 * dlt + 30 * u) /\
  close33 (fquat2r q) C (13 * dlt + 65 * u).
Proof.
  intros Hq RC CM DL. assert (D : 0 <= dlt <= 1 / 10000) by (split; [|exact DL]; destruct CM as ((_ & H & _) & _); pose proof (Rabs_pos (B2R (fx (fr0 M)) - vx (r30 C))); lra).
  destruct (r2quat_correct C RC) as (U & E & _). rewrite <- E in CM. destruct (fr2quat_ap M _ dlt D U CM) as (Q & UQ & EQ & AQ & PQ). rewrite <- Hq in AQ, PQ. clear Hq. rewrite E in EQ.
  destruct (ap4_dist _ _ _ AQ) as [F DQ]. pose proof u_val as UV. pose proof u53_pos as UP.
  assert (NQ : Rabs (norm4 (val4 q) - 1) <= 6 * dlt + 30 * u). { rewrite <- (norm4_unit Q UQ). apply Rle_trans with (1 := dist4_norm _ _). lra. }
  split; [exact F|]. split; [exact PQ|]. split; [exact NQ|]. split; [exists Q; repeat split; auto; lra|].
  assert (SH : short (val4 q)) by (apply Rabs_le_inv in NQ; unfold short; lra).
  rewrite <- EQ. eapply close33_weaken; [eapply close33_move; [apply fquat2r_err; assumption|apply quat2r_lipschitz; [exact SH|now apply unit_short]]|]. lra.
Qed.

(** r2quat of any matrix close to a rotation: the quaternion is close to one of the two unit quaternions of that rotation; its last
    component is not negative; the matrix it stands for is the rotation again *)
Theorem float_matrix_to_quaternion M C dlt : is_rotation C -> close33 M C dlt -> dlt <= 1 / 10000 ->
  let q := fr2quat M in
  finite4 q /\ 0 <= B2R (f3 q) /\ Rabs (norm4 (val4 q) - 1) <= 6 * dlt + 30 * u /\
  (exists Q, unit4 Q /\ quat2r Q = C /\ dist4 (val4 q) Q <= 6 * dlt + 30 * u) /\
  close33 (fquat2r q) C (13 * dlt + 65 * u).
Proof. intros RC CM DL q. exact (float_mq M C dlt q eq_refl RC CM DL). Qed.
(** a transformation rebuilt from its own matrix: the same motion up to rounding, the translation bit for bit; the quaternion up to sign *)
Lemma near_matrix q : near_unit q -> close33 (fquat2r q) (quat2r (normalize4 (val4 q))) (21 * u).
Proof.
  intros N. assert (NP : 0 < norm4 (val4 q)) by (apply near_pos in N; lra). pose proof (normalize4_is_unit _ NP) as NU. pose proof (normalize4_dist _ NP) as ND. pose proof u53_pos as UP.
  eapply close33_weaken; [eapply close33_move; [apply fquat2r_err; [exact (proj1 N)|now apply near_short]|apply quat2r_lipschitz; [now apply near_short|now apply unit_short]]|].
  rewrite ND. destruct N as [_ N]. lra.
Qed.
Lemma round_trip_q q p : near_unit q -> p = fr2quat (fquat2r q) ->
  (dist4 (val4 p) (val4 q) <= 170 * u \/ dist4 (val4 p) (opp4 (val4 q)) <= 170 * u) /\ (170 * u < B2R (f3 q) -> dist4 (val4 p) (val4 q) <= 170 * u).
Proof.
  intros N EQY. pose proof u_val as UV. pose proof u53_pos as UP.
  assert (NP : 0 < norm4 (val4 q)) by (apply near_pos in N; lra). pose proof (normalize4_is_unit _ NP) as NU. pose proof (normalize4_dist _ NP) as ND.
  destruct (float_mq _ _ _ _ EQY (quat2r_rotation _ NU) (near_matrix q N) ltac:(lra)) as (_ & PQ & _ & (Q & UQ & EQ & DQ) & _). clear EQY.
  assert (ND' : dist4 (normalize4 (val4 q)) (val4 q) <= 8 * u) by (rewrite dist4_sym, ND; apply N).
  assert (OR : dist4 (val4 p) (val4 q) <= 170 * u \/ dist4 (val4 p) (opp4 (val4 q)) <= 170 * u).
  { destruct (quat2r_injective _ _ UQ NU EQ) as [-> | ->].
    - left. pose proof (dist4_tri (val4 p) (normalize4 (val4 q)) (val4 q)). lra.
    - right. pose proof (dist4_tri (val4 p) (opp4 (normalize4 (val4 q))) (opp4 (val4 q))) as T.
      assert (DO : forall a b, dist4 (opp4 a) (opp4 b) = dist4 a b) by (intros a b; unfold dist4, norm4; f_equal; vring). rewrite DO in T. lra. }
  split; [exact OR|]. intros P. destruct OR as [H|H]; [exact H|exfalso].
  destruct (comp4 (sub4 (val4 p) (opp4 (val4 q)))) as (_ & _ & _ & K). fold (dist4 (val4 p) (opp4 (val4 q))) in K.
  assert (K' : Rabs (B2R (f3 p) - - B2R (f3 q)) <= 170 * u) by (eapply Rle_trans; [exact K|exact H]).
  apply Rabs_le_inv in K'. lra.
Qed.
Lemma of_T_T x : ft_of_T (ft_T x) = FT (fr2quat (fquat2r (fq x))) (ft x). Proof. reflexivity. Qed.
Lemma set_T z x : ft_set z (ft_T x) = FT (fr2quat (fquat2r (fq x))) (ft x). Proof. reflexivity. Qed.
Lemma FT_parts q t : fq (FT q t) = q /\ ft (FT q t) = t. Proof. split; reflexivity. Qed.
Theorem float_matrix_round_trip x z y : near_unit (fq x) -> y = ft_of_T (ft_T x) \/ y = ft_set z (ft_T x) ->
  ft y = ft x /\ (dist4 (val4 (fq y)) (val4 (fq x)) <= 170 * u \/ dist4 (val4 (fq y)) (opp4 (val4 (fq x))) <= 170 * u) /\
  (170 * u < B2R (f3 (fq x)) -> dist4 (val4 (fq y)) (val4 (fq x)) <= 170 * u) /\
  val4 (fbot (ft_T x)) = V4 0 0 0 1 /\ ftr (ft_T x) = ft x.
Proof.
  intros N Y. assert (EY : fq y = fr2quat (fquat2r (fq x)) /\ ft y = ft x) by (destruct Y as [-> | ->]; [rewrite of_T_T|rewrite set_T]; apply FT_parts). destruct EY as [EQ ET].
  destruct (round_trip_q (fq x) (fq y) N EQ) as [A B]. repeat split; auto.
  unfold ft_T, val4. cbn [fbot f0 f1 f2 f3]. destruct (fofZ_correct 1 ltac:(lia)) as [V _]. rewrite V. reflexivity.
Qed.
(** the transformation built from a matrix [C | t] close to a rigid motion moves every point as that motion does *)
Theorem float_matrix_motion T C dlt p : is_rotation C -> close33 (fC T) C dlt -> dlt <= 1 / 10000 -> finite3 (ftr T) -> norm3 (val3 (ftr T)) <= bpow radix2 500 ->
  finite3 p -> norm3 (val3 p) <= bpow radix2 500 ->
  finite3 (ft_act3 (ft_of_T T) p) /\
  dist3 (val3 (ft_act3 (ft_of_T T) p)) (add3 (mv3 C (val3 p)) (val3 (ftr T))) <= 54 * dlt * norm3 (val3 p) + 400 * u * (norm3 (val3 p) + norm3 (val3 (ftr T))) + tiny.
Proof.
  intros RC CM DL FT TB FP PB. assert (EX : exists q, q = fr2quat (fC T)) by (eexists; reflexivity). destruct EX as [q Eq].
  assert (EA : ft_act3 (ft_of_T T) p = fadd3 (fquatRotate q p) (ftr T)) by (rewrite Eq; reflexivity). rewrite EA.
  destruct (float_mq _ _ _ _ Eq RC CM DL) as (FQ & _ & NQ & (Q & UQ & EQ & DQ) & _). clear Eq EA.
  assert (D : 0 <= dlt) by (destruct CM as ((_ & H & _) & _); pose proof (Rabs_pos (B2R (fx (fr0 (fC T))) - vx (r30 C))); lra).
  pose proof u_val as UV. pose proof u53_pos as UP. pose proof eta_pos as EP. pose proof far_room as FR. unfold FAR in FR. pose proof (bpow_gt_0 radix2 500) as B5.
  assert (SH : short (val4 q)) by (apply Rabs_le_inv in NQ; unfold short; lra).
  destruct (frotate_add_err q p (ftr T) FQ FP FT SH ltac:(lra) ltac:(lra)) as [F E]. split; [exact F|].
  rewrite <- EQ, <- quatRotate_matrix by exact UQ.
  pose proof (dist3_tri (val3 (fadd3 (fquatRotate q p) (ftr T))) (add3 (quatRotate (val4 q) (val3 p)) (val3 (ftr T))) (add3 (quatRotate Q (val3 p)) (val3 (ftr T)))) as T1.
  pose proof (dist3_add (quatRotate (val4 q) (val3 p)) (val3 (ftr T)) (quatRotate Q (val3 p)) (val3 (ftr T))) as T2. rewrite dist3_refl in T2.
  pose proof (quatRotate_lipschitz (val4 q) Q (val3 p) SH (unit_short _ UQ)) as LP.
  set (np := norm3 (val3 p)) in *. set (nt := norm3 (val3 (ftr T))) in *. pose proof (norm3_pos (val3 p) : 0 <= np) as NP0. pose proof (norm3_pos (val3 (ftr T)) : 0 <= nt) as NT0.
  assert (L2 : 9 * dist4 (val4 q) Q * np <= 9 * (6 * dlt + 30 * u) * np) by (apply Rmult_le_compat_r; lra).
  assert (UN : 0 <= u * np) by (apply Rmult_le_pos; lra). assert (UT : 0 <= u * nt) by (apply Rmult_le_pos; lra).
  assert (ET : 196 * eta <= tiny).
  { replace (bpow radix2 (-1000)) with (bpow radix2 75 * eta) by (rewrite <- bpow_plus; reflexivity). apply Rmult_le_compat_r; [lra|]. cbn. lra. }
  lra.
Qed.

(** ** a concrete case: the rotation by 90 degrees about z, with exact coefficients *)
Definition case_M : FM3 := mkFM3 (case_t 0 (-1) 0) (case_t 1 0 0) (case_t 0 0 1).
Definition case_C : mat3 := m3 0 (-1) 0 1 0 0 0 0 1.
Example float_matrix_case : is_rotation case_C /\ close33 case_M case_C 0 /\ (exists Q, unit4 Q /\ quat2r Q = case_C /\ dist4 (val4 (fr2quat case_M)) Q <= 30 * u).
Proof.
  assert (RC : is_rotation case_C) by (unfold is_rotation, case_C; repeat split; vring).
  assert (V : forall z, (Z.abs z <= 1)%Z -> Rabs (B2R (fofZ z) - IZR z) <= 0 /\ is_finite (fofZ z) = true).
  { intros z H. destruct (fofZ_correct z) as [E F]; [lia|]. split; [|exact F]. rewrite E, Rminus_diag_eq, Rabs_R0 by reflexivity. lra. }
  assert (CM : close33 case_M case_C 0).
  { unfold close33, close3, finite3, case_M, case_C, case_t, m3. cbn [fr0 fr1 fr2 fx fy fz r30 r31 r32 vx vy vz].
    repeat match goal with |- _ /\ _ => split end; try apply (V 0%Z); try apply (V 1%Z); try apply (V (-1)%Z); lia. }
  split; [exact RC|]. split; [exact CM|]. destruct (float_matrix_to_quaternion case_M case_C 0 RC CM ltac:(lra)) as (_ & _ & _ & (Q & U & E & D) & _).
  exists Q. split; [exact U|]. split; [exact E|]. apply Rle_trans with (1 := D). lra.
Qed.
