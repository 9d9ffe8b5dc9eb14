(** C146: 4x4 transformation matrices in binary64: inverseTransform, toTEuler, fromTEuler, transformationAndJacobian and their composition. *)
From Coq Require Import Reals Psatz List Permutation Lia.
From Verif Require GTest_Props.
From Verif Require Import PiBound Float64 Nsec_Proofs TimerTable_Num Round_Proofs Kin_Angle_Props Kin_Float_Model Kin_FloatExp_Model Kin_FloatR_Model Kin_FloatMat_Model Kin_FloatParam_Model Kin_FloatT_Model.
From Verif Require Import LinAlg Kin_Quat_Props Kin_Trans_Model Kin_Trans_Props Kin_Rot_Model Kin_Rot_Props Kin_Float_Geom Kin_Float_Num Kin_Float_Props Kin_Float_Matrix Kin_FloatR_Props Kin_FloatExp_Props Kin_FloatMat_Props Kin_FloatParam_Props Kin_Quat_Model.
Import ListNotations.
Open Scope R_scope.

(** ** Sums of products *)
Lemma signed_tree (x : nat -> f64) (a m : nat -> R) t : (forall i, In i (leaves t) -> nr (x i) (a i) (m i) (101 / 100) 2) ->
  let n := INR (length (leaves t)) in let S := Rsum (map m (leaves t)) in n <= 8 -> S <= BIG ->
  nr (fsum_tree x t) (Rsum (map a (leaves t))) S (101 / 100 * n) (4 * n - 2) /\ 0 <= S.
Proof.
  induction t as [i|l IHl r IHr]; cbv zeta; cbn [leaves fsum_tree].
  - intros H. cbn [length INR map Rsum fold_right]. intros _ B. rewrite !Rplus_0_r in *. specialize (H i (or_introl eq_refl)).
    split; [eapply nr_weaken; [exact H|lra|lra|lra|lra]|]. destruct H as (_ & H & _). pose proof (Rabs_pos (a i)). lra.
  - intros H. rewrite app_length, plus_INR, !map_app, !Rsum_app. intros K B. cbv zeta in IHl, IHr.
    pose proof (leaves_one l) as L1. pose proof (leaves_one r) as R1.
    assert (HP : forall i, In i (leaves l ++ leaves r) -> 0 <= m i) by (intros i I; destruct (H i I) as (_ & Q & _); pose proof (Rabs_pos (a i)); lra).
    assert (PL : 0 <= Rsum (map m (leaves l))) by (apply Rsum_nonneg, Forall_map, Forall_forall; intros i I; apply HP, in_or_app; auto).
    assert (PR : 0 <= Rsum (map m (leaves r))) by (apply Rsum_nonneg, Forall_map, Forall_forall; intros i I; apply HP, in_or_app; auto).
    destruct IHl as [IL _]; [intros i I; apply H, in_or_app; auto|lra|lra|]. destruct IHr as [IR _]; [intros i I; apply H, in_or_app; auto|lra|lra|].
    set (nl := INR (length (leaves l))) in *. set (n' := INR (length (leaves r))) in *.
    split; [|lra].
    pose proof (nr_weaken _ _ _ _ _ _ (101 / 100 * (nl + n' - 1)) _ IL (Rle_refl _) ltac:(lra) ltac:(lra) (Rle_refl _)) as JL.
    pose proof (nr_weaken _ _ _ _ _ _ (101 / 100 * (nl + n' - 1)) _ IR (Rle_refl _) ltac:(lra) ltac:(lra) (Rle_refl _)) as JR.
    pose proof (nr_add _ _ _ _ _ _ _ _ _ JL JR ltac:(lra) ltac:(lra) ltac:(lra) ltac:(lra) B) as KK.
    eapply nr_weaken; [exact KK|lra|lra|lra|lra].
Qed.
Lemma fat3_finite a : finite3 a -> forall i, is_finite (fat3 a i) = true.
Proof. intros (A & B & C) [|[|i]]; assumption. Qed.
Lemma fat4_finite a : finite4 a -> forall i, is_finite (fat4 a i) = true.
Proof. intros (A & B & C & D) [|[|[|i]]]; assumption. Qed.
Definition asum3 (a b : vec3) : R := Rabs (vx a) * Rabs (vx b) + Rabs (vy a) * Rabs (vy b) + Rabs (vz a) * Rabs (vz b).
Lemma fdot_3_err o a b : sums_ok o -> finite3 a -> finite3 b -> asum3 (val3 a) (val3 b) <= BIG ->
  is_finite (fdot_3 o a b) = true /\ Rabs (B2R (fdot_3 o a b) - dot3 (val3 a) (val3 b)) <= 304 / 100 * u * asum3 (val3 a) (val3 b) + 10 * eta.
Proof.
  intros [OK _] FA FB B. unfold fdot_3.
  set (av := fun i => B2R (fat3 a i) * B2R (fat3 b i)). set (mv := fun i => Rabs (B2R (fat3 a i)) * Rabs (B2R (fat3 b i))).
  assert (SM : Rsum (map mv (leaves (by3 o))) = asum3 (val3 a) (val3 b)).
  { rewrite (Rsum_perm _ _ (Permutation_map mv OK)). unfold mv, asum3, val3. cbn [map Rsum fold_right fat3 vx vy vz]. ring. }
  assert (SA : Rsum (map av (leaves (by3 o))) = dot3 (val3 a) (val3 b)).
  { rewrite (Rsum_perm _ _ (Permutation_map av OK)). unfold av, dot3, val3. cbn [map Rsum fold_right fat3 vx vy vz]. ring. }
  assert (LN : INR (length (leaves (by3 o))) = 3) by (rewrite (Permutation_length OK); cbn; lra).
  assert (P : forall i, 0 <= mv i) by (intros i; unfold mv; apply Rmult_le_pos; apply Rabs_pos).
  destruct (signed_tree (fun i => fmul (fat3 a i) (fat3 b i)) av mv (by3 o)) as [(F & _ & E) _].
  - intros i I. apply nr_mul_exact; [now apply fat3_finite|now apply fat3_finite|]. change (mv i <= BIG). apply Rle_trans with (2 := B).
    rewrite <- SM. rewrite (Rsum_perm _ _ (Permutation_map mv OK)). cbn [map Rsum fold_right]. pose proof (P 0%nat). pose proof (P 1%nat). pose proof (P 2%nat).
    apply (Permutation_in _ OK) in I as [<-|[<-|[<-|[]]]]; lra.
  - rewrite LN. lra.
  - rewrite SM. exact B.
  - rewrite LN, SM, SA in E. split; [exact F|]. apply Rle_trans with (1 := E). pose proof u53_pos as UP. pose proof eta_pos as EP.
    assert (A0 : 0 <= u * asum3 (val3 a) (val3 b)). { apply Rmult_le_pos; [lra|]. rewrite <- SM. apply Rsum_nonneg, Forall_map, Forall_forall. auto. } lra.
Qed.
Definition asum4 (a b : vec4) : R := Rabs (e0 a) * Rabs (e0 b) + Rabs (e1 a) * Rabs (e1 b) + Rabs (e2 a) * Rabs (e2 b) + Rabs (e3 a) * Rabs (e3 b).
Lemma fdot_4_err o a b : sums_ok o -> finite4 a -> finite4 b -> asum4 (val4 a) (val4 b) <= BIG ->
  is_finite (fdot_4 o a b) = true /\ Rabs (B2R (fdot_4 o a b) - dot4 (val4 a) (val4 b)) <= 404 / 100 * u * asum4 (val4 a) (val4 b) + 14 * eta.
Proof.
  intros [_ OK] FA FB B. unfold fdot_4.
  set (av := fun i => B2R (fat4 a i) * B2R (fat4 b i)). set (mv := fun i => Rabs (B2R (fat4 a i)) * Rabs (B2R (fat4 b i))).
  assert (SM : Rsum (map mv (leaves (by4 o))) = asum4 (val4 a) (val4 b)).
  { rewrite (Rsum_perm _ _ (Permutation_map mv OK)). unfold mv, asum4, val4. cbn [map Rsum fold_right fat4 e0 e1 e2 e3]. ring. }
  assert (SA : Rsum (map av (leaves (by4 o))) = dot4 (val4 a) (val4 b)).
  { rewrite (Rsum_perm _ _ (Permutation_map av OK)). unfold av, dot4, val4. cbn [map Rsum fold_right fat4 e0 e1 e2 e3]. ring. }
  assert (LN : INR (length (leaves (by4 o))) = 4) by (rewrite (Permutation_length OK); cbn; lra).
  assert (P : forall i, 0 <= mv i) by (intros i; unfold mv; apply Rmult_le_pos; apply Rabs_pos).
  destruct (signed_tree (fun i => fmul (fat4 a i) (fat4 b i)) av mv (by4 o)) as [(F & _ & E) _].
  - intros i I. apply nr_mul_exact; [now apply fat4_finite|now apply fat4_finite|]. change (mv i <= BIG). apply Rle_trans with (2 := B).
    rewrite <- SM. rewrite (Rsum_perm _ _ (Permutation_map mv OK)). cbn [map Rsum fold_right]. pose proof (P 0%nat). pose proof (P 1%nat). pose proof (P 2%nat). pose proof (P 3%nat).
    apply (Permutation_in _ OK) in I as [<-|[<-|[<-|[<-|[]]]]]; lra.
  - rewrite LN. lra.
  - rewrite SM. exact B.
  - rewrite LN, SM, SA in E. split; [exact F|]. apply Rle_trans with (1 := E). pose proof u53_pos as UP. pose proof eta_pos as EP.
    assert (A0 : 0 <= u * asum4 (val4 a) (val4 b)). { apply Rmult_le_pos; [lra|]. rewrite <- SM. apply Rsum_nonneg, Forall_map, Forall_forall. auto. } lra.
Qed.
(** the bottom row: zeros and the scale; exact *)
Lemma rnd_B2R (x : f64) : is_finite x = true -> rnd (B2R x) = B2R x.
Proof. intros F. apply rnd_id. apply generic_format_B2R. Qed.
Lemma fadd_exact (x y : f64) (s : R) : is_finite x = true -> is_finite y = true -> (B2R x = 0 /\ B2R y = s \/ B2R x = s /\ B2R y = 0) ->
  is_finite (fadd x y) = true /\ B2R (fadd x y) = s.
Proof.
  intros FX FY H. pose proof (Bplus_correct 53 1024 _ _ mode_NE x y FX FY) as C.
  assert (S : exists z : f64, B2R z = s /\ B2R x + B2R y = B2R z).
  { destruct H as [[A B]|[A B]]; [exists y|exists x]; split; auto; lra. }
  destruct S as (z & Ez & ES). rewrite ES in C.
  assert (RZ : round radix2 (SpecFloat.fexp 53 1024) (round_mode mode_NE) (B2R z) = B2R z).
  { apply round_generic; [typeclasses eauto|apply generic_format_B2R]. }
  rewrite RZ in C. rewrite Rlt_bool_true in C by apply abs_B2R_lt_emax. destruct C as (C1 & C2 & _). unfold fadd. split; [exact C2|]. rewrite <- Ez. exact C1.
Qed.
Lemma fmul_zero (x y : f64) : is_finite x = true -> is_finite y = true -> B2R x = 0 -> is_finite (fmul x y) = true /\ B2R (fmul x y) = 0.
Proof.
  intros FX FY Z. pose proof (Bmult_correct 53 1024 _ _ mode_NE x y) as H. rewrite Z, Rmult_0_l, round_0, Rabs_R0 in H by apply valid_rnd_N.
  rewrite Rlt_bool_true in H by apply bpow_gt_0. destruct H as (H1 & H2 & _). rewrite FX, FY in H2. split; [exact H2|exact H1].
Qed.
Lemma fmul_one_val (x y : f64) : is_finite x = true -> is_finite y = true -> B2R x = 1 -> is_finite (fmul x y) = true /\ B2R (fmul x y) = B2R y.
Proof.
  intros FX FY Z. pose proof (Bmult_correct 53 1024 _ _ mode_NE x y) as H. rewrite Z, Rmult_1_l in H.
  assert (RZ : round radix2 (SpecFloat.fexp 53 1024) (round_mode mode_NE) (B2R y) = B2R y).
  { apply round_generic; [typeclasses eauto|apply generic_format_B2R]. }
  rewrite RZ in H. rewrite Rlt_bool_true in H by apply abs_B2R_lt_emax. destruct H as (H1 & H2 & _). rewrite FX, FY in H2. split; [exact H2|exact H1].
Qed.
Lemma nodup_parts (l r : list nat) : NoDup (l ++ r) -> NoDup l /\ NoDup r.
Proof.
  induction l as [|a l IH]; cbn [app]; intros H; [split; [constructor|exact H]|]. apply NoDup_cons_iff in H as [A B]. destruct (IH B) as [C D]. split; [|exact D].
  constructor; [|exact C]. intros I. apply A, in_or_app. now left.
Qed.
Lemma one_term (x : nat -> f64) k t : NoDup (leaves t) -> (forall i, In i (leaves t) -> is_finite (x i) = true /\ (i <> k -> B2R (x i) = 0)) ->
  is_finite (fsum_tree x t) = true /\ B2R (fsum_tree x t) = if in_dec Nat.eq_dec k (leaves t) then B2R (x k) else 0.
Proof.
  induction t as [i|l IHl r IHr]; cbn [leaves fsum_tree]; intros ND H.
  - destruct (H i (or_introl eq_refl)) as [F Z]. split; [exact F|]. destruct (in_dec Nat.eq_dec k [i]) as [[-> |[]]|N]; [reflexivity|]. apply Z. intros ->. apply N. now left.
  - destruct (nodup_parts _ _ ND) as [NL NR].
    destruct (IHl NL ltac:(intros i I; apply H, in_or_app; auto)) as [FL VL]. destruct (IHr NR ltac:(intros i I; apply H, in_or_app; auto)) as [FR VR].
    apply fadd_exact; auto. rewrite VL, VR.
    destruct (in_dec Nat.eq_dec k (leaves l)) as [IL|IL], (in_dec Nat.eq_dec k (leaves r)) as [IR|IR], (in_dec Nat.eq_dec k (leaves l ++ leaves r)) as [I|I]; auto;
      try (exfalso; apply I, in_or_app; now auto).
    + exfalso. apply in_split in IL as (l1 & l2 & E). rewrite E, <- app_assoc in ND. apply NoDup_remove_2 in ND. apply ND. rewrite !in_app_iff. auto.
    + exfalso. apply in_app_iff in I. tauto.
Qed.
Lemma bottom_row o v : sums_ok o -> finite4 v -> is_finite (fdot_4 o bottom v) = true /\ B2R (fdot_4 o bottom v) = B2R (f3 v).
Proof.
  intros [_ OK] FV. unfold fdot_4. destruct (fofZ_correct 1 ltac:(lia)) as [V1 F1]. pose proof (fat4_finite v FV) as FA.
  destruct (one_term (fun i => fmul (fat4 bottom i) (fat4 v i)) 3 (by4 o)) as [F E].
  - apply (Permutation_NoDup (Permutation_sym OK)). repeat constructor; cbn; intuition discriminate.
  - intros i I. apply (Permutation_in _ OK) in I. destruct I as [<-|[<-|[<-|[<-|[]]]]]; cbn [fat4 bottom f0 f1 f2 f3];
      try (destruct (fmul_zero fzero (fat4 v 0) eq_refl (FA 0%nat) eq_refl) as [A0 B0]; destruct (fmul_zero fzero (fat4 v 1) eq_refl (FA 1%nat) eq_refl) as [A1 B1];
           destruct (fmul_zero fzero (fat4 v 2) eq_refl (FA 2%nat) eq_refl) as [A2 B2]; split; [assumption|intros _; assumption]).
    destruct (fmul_one_val (fofZ 1) (fat4 v 3) F1 (FA 3%nat) V1) as [A B]. split; [exact A|]. intros X. now contradiction X.
  - split; [exact F|]. rewrite E. destruct (in_dec Nat.eq_dec 3%nat (leaves (by4 o))) as [I|I].
    + cbn [fat4 bottom f3]. apply (fmul_one_val (fofZ 1) (f3 v) F1 (FA 3%nat) V1).
    + exfalso. apply I. apply (Permutation_in _ (Permutation_sym OK)). cbn. auto.
Qed.

(** ** Rows of matrices close to rotations *)
Lemma asum3_cauchy a b : asum3 a b <= norm3 a * norm3 b.
Proof.
  set (aa := V3 (Rabs (vx a)) (Rabs (vy a)) (Rabs (vz a))). set (bb := V3 (Rabs (vx b)) (Rabs (vy b)) (Rabs (vz b))).
  assert (EN : forall c, norm3 (V3 (Rabs (vx c)) (Rabs (vy c)) (Rabs (vz c))) = norm3 c).
  { intros c. unfold norm3, dot3. cbn [vx vy vz]. rewrite <- !Rabs_mult. f_equal. rewrite !Rabs_pos_eq; try ring; apply Rle_0_sqr. }
  pose proof (cauchy3 aa bb) as C. unfold aa, bb in C. rewrite !EN in C. apply Rle_trans with (2 := C). unfold asum3, dot3. cbn [vx vy vz]. apply RRle_abs.
Qed.
Lemma asum3_pos a b : 0 <= asum3 a b.
Proof. unfold asum3. pose proof (Rmult_le_pos _ _ (Rabs_pos (vx a)) (Rabs_pos (vx b))). pose proof (Rmult_le_pos _ _ (Rabs_pos (vy a)) (Rabs_pos (vy b))). pose proof (Rmult_le_pos _ _ (Rabs_pos (vz a)) (Rabs_pos (vz b))). lra. Qed.
Lemma sum_abs3 v : Rabs (vx v) + Rabs (vy v) + Rabs (vz v) <= 2 * norm3 v.
Proof.
  pose proof (asum3_cauchy (V3 1 1 1) v) as C. unfold asum3 in C. cbn [vx vy vz] in C. rewrite Rabs_R1, !Rmult_1_l in C. apply Rle_trans with (1 := C).
  apply Rmult_le_compat_r; [apply norm3_pos|]. unfold norm3, dot3. cbn [vx vy vz]. rewrite <- (sqrt_square 2) by lra. apply sqrt_le_1_alt. lra.
Qed.
Definition near3 (a r : vec3) (d : R) : Prop := Rabs (vx a - vx r) <= d /\ Rabs (vy a - vy r) <= d /\ Rabs (vz a - vz r) <= d.
Lemma near_row a r v d : dot3 r r = 1 -> near3 a r d ->
  asum3 a v <= (1 + 2 * d) * norm3 v /\ Rabs (dot3 a v - dot3 r v) <= 2 * d * norm3 v.
Proof.
  intros UR (HX & HY & HZ). pose proof (sum_abs3 v) as S. pose proof (asum3_cauchy r v) as C. unfold norm3 at 1 in C. rewrite UR, sqrt_1, Rmult_1_l in C.
  pose proof (Rabs_pos (vx v)) as X0. pose proof (Rabs_pos (vy v)) as Y0. pose proof (Rabs_pos (vz v)) as Z0. pose proof (Rabs_pos (vx a - vx r)) as D0.
  assert (T : forall p q w, Rabs (p - q) <= d -> Rabs p * Rabs w <= Rabs q * Rabs w + d * Rabs w /\ Rabs ((p - q) * w) <= d * Rabs w).
  { intros p q w H. split.
    - rewrite <- Rmult_plus_distr_r. apply Rmult_le_compat_r; [apply Rabs_pos|]. replace p with ((p - q) + q) by ring. pose proof (Rabs_triang (p - q) q). lra.
    - rewrite Rabs_mult. apply Rmult_le_compat_r; [apply Rabs_pos|exact H]. }
  destruct (T _ _ (vx v) HX) as [A1 B1]. destruct (T _ _ (vy v) HY) as [A2 B2]. destruct (T _ _ (vz v) HZ) as [A3 B3].
  assert (K : d * (Rabs (vx v) + Rabs (vy v) + Rabs (vz v)) <= d * (2 * norm3 v)) by (apply Rmult_le_compat_l; lra).
  split.
  - unfold asum3 in *. lra.
  - replace (dot3 a v - dot3 r v) with ((vx a - vx r) * vx v + (vy a - vy r) * vy v + (vz a - vz r) * vz v) by (unfold dot3; ring).
    pose proof (Rabs_triang ((vx a - vx r) * vx v + (vy a - vy r) * vy v) ((vz a - vz r) * vz v)). pose proof (Rabs_triang ((vx a - vx r) * vx v) ((vy a - vy r) * vy v)). lra.
Qed.
Lemma close3_near A r d : close3 A r d -> finite3 A /\ near3 (val3 A) r d.
Proof. intros (F & X & Y & Z). split; [exact F|]. repeat split; assumption. Qed.
Lemma near_opp a r d : near3 a r d -> near3 (opp3 a) (opp3 r) d.
Proof. intros (X & Y & Z). unfold near3, opp3. cbn [vx vy vz]. repeat split; [replace (- vx a - - vx r) with (- (vx a - vx r)) by ring|replace (- vy a - - vy r) with (- (vy a - vy r)) by ring|replace (- vz a - - vz r) with (- (vz a - vz r)) by ring]; now rewrite Rabs_Ropp. Qed.
Lemma rows_unit M : is_rotation M -> dot3 (r30 M) (r30 M) = 1 /\ dot3 (r31 M) (r31 M) = 1 /\ dot3 (r32 M) (r32 M) = 1.
Proof. intros RM. pose proof (rotation_rows M RM) as H. cbv zeta in H. repeat split; [exact (H 0%nat 0%nat ltac:(lia) ltac:(lia))|exact (H 1%nat 1%nat ltac:(lia) ltac:(lia))|exact (H 2%nat 2%nat ltac:(lia) ltac:(lia))]. Qed.
Lemma close_transpose A M d : close33 A M d -> close33 (ftranspose A) (tr3 M) d.
Proof. intros ((F0 & X0 & Y0 & Z0) & (F1 & X1 & Y1 & Z1) & (F2 & X2 & Y2 & Z2)). destruct F0 as (? & ? & ?), F1 as (? & ? & ?), F2 as (? & ? & ?). destruct M as [[? ? ?] [? ? ?] [? ? ?]]. repeat split; assumption. Qed.
Lemma val_neg3 a : finite3 a -> finite3 (fneg3 a) /\ val3 (fneg3 a) = opp3 (val3 a).
Proof. intros (X & Y & Z). destruct (fneg_val _ X) as [FX VX]. destruct (fneg_val _ Y) as [FY VY]. destruct (fneg_val _ Z) as [FZ VZ]. split; [split; [exact FX|split; [exact FY|exact FZ]]|]. unfold val3, opp3, fneg3. cbn [fx fy fz vx vy vz]. now rewrite VX, VY, VZ. Qed.

(** *** one row of T * v *)
Lemma row_point o a t v r d : sums_ok o -> finite3 a -> near3 (val3 a) r d -> dot3 r r = 1 -> 0 <= d <= 1 / 10000 -> is_finite t = true -> finite4 v ->
  norm3 (val3 (fhead3 v)) <= bpow radix2 500 -> Rabs (B2R (f3 v)) * Rabs (B2R t) <= bpow radix2 500 ->
  is_finite (fdot_4 o (frow a t) v) = true /\
  Rabs (B2R (fdot_4 o (frow a t) v) - (dot3 r (val3 (fhead3 v)) + B2R (f3 v) * B2R t)) <=
    (2 * d + 405 / 100 * u) * norm3 (val3 (fhead3 v)) + 405 / 100 * u * (Rabs (B2R (f3 v)) * Rabs (B2R t)) + 14 * eta.
Proof.
  intros OK FA NR UR D FT FV HV HT. destruct (near_row _ _ (val3 (fhead3 v)) _ UR NR) as [S E].
  set (V := norm3 (val3 (fhead3 v))) in *. pose proof (norm3_pos (val3 (fhead3 v)) : 0 <= V) as V0.
  assert (W0 : 0 <= Rabs (B2R (f3 v)) * Rabs (B2R t)) by (apply Rmult_le_pos; apply Rabs_pos). set (W := Rabs (B2R (f3 v)) * Rabs (B2R t)) in *.
  assert (SV : (1 + 2 * d) * V <= 1001 / 1000 * V) by (apply Rmult_le_compat_r; lra).
  assert (AS : asum4 (val4 (frow a t)) (val4 v) = asum3 (val3 a) (val3 (fhead3 v)) + W).
  { unfold asum4, asum3, W, val4, val3, frow, fhead3. cbn [f0 f1 f2 f3 fx fy fz e0 e1 e2 e3 vx vy vz]. ring. }
  assert (BB : 4 * bpow radix2 500 <= BIG) by (unfold BIG; change 4 with (bpow radix2 2); rewrite <- bpow_plus; apply bpow_le; lia).
  assert (B5 : 0 < bpow radix2 500) by apply bpow_gt_0.
  destruct FA as (FX & FY & FZ). destruct (fdot_4_err o (frow a t) v OK) as [F H]; [repeat split; assumption|exact FV|rewrite AS; lra|].
  split; [exact F|]. rewrite AS in H.
  assert (DT : dot4 (val4 (frow a t)) (val4 v) = dot3 (val3 a) (val3 (fhead3 v)) + B2R (f3 v) * B2R t).
  { unfold dot4, dot3, val4, val3, frow, fhead3. cbn [f0 f1 f2 f3 fx fy fz e0 e1 e2 e3 vx vy vz]. ring. }
  rewrite DT in H. pose proof u53_pos as UP. pose proof eta_pos as EP.
  assert (M1 : 404 / 100 * u * (asum3 (val3 a) (val3 (fhead3 v)) + W) <= 404 / 100 * u * (1001 / 1000 * V + W)) by (apply Rmult_le_compat_l; lra).
  assert (UV : 0 <= u * V) by (apply Rmult_le_pos; lra). assert (UW : 0 <= u * W) by (apply Rmult_le_pos; lra).
  set (X := B2R (fdot_4 o (frow a t) v)) in *. set (Y := dot3 (val3 a) (val3 (fhead3 v))) in *. set (Z := dot3 r (val3 (fhead3 v))) in *. set (K := B2R (f3 v) * B2R t) in *.
  replace (X - (Z + K)) with ((X - (Y + K)) + (Y - Z)) by ring. apply Rle_trans with (1 := Rabs_triang _ _). lra.
Qed.

(** ** Points *)
(** a 4x4 matrix whose rotation block is within dlt of the rotation M, whose last row is exactly (0, 0, 0, 1) *)
Definition near_rigid (T : FM4) (M : mat3) (dlt : R) : Prop :=
  is_rotation M /\ close33 (fC T) M dlt /\ 0 <= dlt <= 1 / 10000 /\ finite3 (ftr T) /\ fbot T = bottom.
Lemma mv3_rows M v : mv3 M v = V3 (dot3 (r30 M) v) (dot3 (r31 M) v) (dot3 (r32 M) v). Proof. reflexivity. Qed.
Lemma dist3_le a b m : 0 <= m -> Rabs (vx a - vx b) <= m -> Rabs (vy a - vy b) <= m -> Rabs (vz a - vz b) <= m -> dist3 a b <= 2 * m.
Proof. intros M X Y Z. unfold dist3. apply norm3_le; assumption. Qed.
Lemma eta_tiny k : 0 <= k <= 1000 -> k * eta <= tiny.
Proof.
  intros K. apply Rle_trans with (bpow radix2 10 * eta); [apply Rmult_le_compat_r; [apply Rlt_le, eta_pos|change (bpow radix2 10) with 1024; lra]|].
  rewrite <- bpow_plus. apply bpow_le. lia.
Qed.
Theorem float_transform_point o T M dlt v : sums_ok o -> near_rigid T M dlt -> finite4 v ->
  norm3 (val3 (fhead3 v)) <= bpow radix2 500 -> Rabs (B2R (f3 v)) * norm3 (val3 (ftr T)) <= bpow radix2 500 ->
  finite4 (fTv o T v) /\ B2R (f3 (fTv o T v)) = B2R (f3 v) /\
  dist3 (val3 (fhead3 (fTv o T v))) (add3 (mv3 M (val3 (fhead3 v))) (scale3 (B2R (f3 v)) (val3 (ftr T)))) <=
    (4 * dlt + 9 * u) * norm3 (val3 (fhead3 v)) + 9 * u * (Rabs (B2R (f3 v)) * norm3 (val3 (ftr T))) + tiny.
Proof.
  intros OK (RM & (C0 & C1 & C2) & D & (T0 & T1 & T2) & BT) FV HV HT.
  destruct (close3_near _ _ _ C0) as [A0 N0]. destruct (close3_near _ _ _ C1) as [A1 N1]. destruct (close3_near _ _ _ C2) as [A2 N2]. destruct (rows_unit M RM) as (U0 & U1 & U2).
  destruct (comp3 (val3 (ftr T))) as (L0 & L1 & L2). pose proof (norm3_pos (val3 (ftr T))) as TP. pose proof (norm3_pos (val3 (fhead3 v))) as VP. pose proof (Rabs_pos (B2R (f3 v))) as WP.
  assert (K : forall c, Rabs c <= norm3 (val3 (ftr T)) -> Rabs (B2R (f3 v)) * Rabs c <= Rabs (B2R (f3 v)) * norm3 (val3 (ftr T))) by (intros c Hc; now apply Rmult_le_compat_l).
  pose proof (K _ L0) as K0. pose proof (K _ L1) as K1. pose proof (K _ L2) as K2. unfold val3 in K0, K1, K2. cbn [vx vy vz] in K0, K1, K2. fold (val3 (ftr T)) in K0, K1, K2.
  destruct (row_point o _ _ v _ _ OK A0 N0 U0 D T0 FV HV ltac:(lra)) as [F0 E0]. destruct (row_point o _ _ v _ _ OK A1 N1 U1 D T1 FV HV ltac:(lra)) as [F1 E1].
  destruct (row_point o _ _ v _ _ OK A2 N2 U2 D T2 FV HV ltac:(lra)) as [F2 E2]. destruct (bottom_row o v OK FV) as [F3 E3].
  unfold fTv. rewrite BT. cbn [f3]. refine (conj _ (conj E3 _)); [repeat split; assumption|].
  pose proof u53_pos as UP. pose proof eta_pos as EP. pose proof (eta_tiny 28 ltac:(lra)) as ET.
  set (W := Rabs (B2R (f3 v)) * norm3 (val3 (ftr T))) in *. assert (W0 : 0 <= W) by (apply Rmult_le_pos; lra). set (V := norm3 (val3 (fhead3 v))) in *.
  assert (DV : 0 <= dlt * V) by (apply Rmult_le_pos; lra). assert (UV : 0 <= u * V) by (apply Rmult_le_pos; lra). assert (UW : 0 <= u * W) by (apply Rmult_le_pos; lra).
  assert (X0 : forall w, w <= W -> 405 / 100 * u * w <= 405 / 100 * u * W) by (intros w Hw; apply Rmult_le_compat_l; lra).
  pose proof (X0 _ K0) as Y0. pose proof (X0 _ K1) as Y1. pose proof (X0 _ K2) as Y2.
  apply Rle_trans with (2 * ((2 * dlt + 405 / 100 * u) * V + 405 / 100 * u * W + 14 * eta)); [|lra].
  apply dist3_le; [lra| | |]; unfold val3, fhead3, add3, scale3; rewrite mv3_rows; cbn [vx vy vz fx fy fz f0 f1 f2]; [apply Rle_trans with (1 := E0)|apply Rle_trans with (1 := E1)|apply Rle_trans with (1 := E2)]; lra.
Qed.

(** ** inverseTransform *)
Lemma row_inverse o a t r d : sums_ok o -> finite3 a -> near3 (val3 a) r d -> dot3 r r = 1 -> 0 <= d <= 1 / 10000 -> finite3 t -> norm3 (val3 t) <= bpow radix2 500 ->
  is_finite (fdot_3 o (fneg3 a) t) = true /\ Rabs (B2R (fdot_3 o (fneg3 a) t) - - dot3 r (val3 t)) <= (2 * d + 305 / 100 * u) * norm3 (val3 t) + 10 * eta.
Proof.
  intros OK FA NR UR D FT HT. destruct (val_neg3 _ FA) as [FN VN]. pose proof (near_opp _ _ _ NR) as NO. rewrite <- VN in NO.
  assert (UO : dot3 (opp3 r) (opp3 r) = 1) by (rewrite <- UR; clear; vring). destruct (near_row _ _ (val3 t) _ UO NO) as [S E].
  pose proof (norm3_pos (val3 t)) as V0. set (V := norm3 (val3 t)) in *.
  assert (SV : (1 + 2 * d) * V <= 1001 / 1000 * V) by (apply Rmult_le_compat_r; lra).
  assert (BB : 4 * bpow radix2 500 <= BIG) by (unfold BIG; change 4 with (bpow radix2 2); rewrite <- bpow_plus; apply bpow_le; lia).
  assert (B5 : 0 < bpow radix2 500) by apply bpow_gt_0.
  destruct (fdot_3_err o (fneg3 a) t OK FN FT ltac:(lra)) as [F H]. split; [exact F|]. pose proof u53_pos as UP.
  assert (M1 : 304 / 100 * u * asum3 (val3 (fneg3 a)) (val3 t) <= 304 / 100 * u * (1001 / 1000 * V)) by (apply Rmult_le_compat_l; lra).
  assert (UV : 0 <= u * V) by (apply Rmult_le_pos; lra).
  replace (- dot3 r (val3 t)) with (dot3 (opp3 r) (val3 t)) by (clear; vring).
  set (X := B2R (fdot_3 o (fneg3 a) t)) in *. set (Y := dot3 (val3 (fneg3 a)) (val3 t)) in *. set (Z := dot3 (opp3 r) (val3 t)) in *.
  replace (X - Z) with ((X - Y) + (Y - Z)) by ring. apply Rle_trans with (1 := Rabs_triang _ _). lra.
Qed.
Theorem float_inverseTransform o T M dlt : sums_ok o -> near_rigid T M dlt -> norm3 (val3 (ftr T)) <= bpow radix2 500 ->
  fC (finverseTransform o T) = ftranspose (fC T) /\ near_rigid (finverseTransform o T) (tr3 M) dlt /\
  dist3 (val3 (ftr (finverseTransform o T))) (opp3 (mv3 (tr3 M) (val3 (ftr T)))) <= (4 * dlt + 7 * u) * norm3 (val3 (ftr T)) + tiny.
Proof.
  intros OK (RM & CM & D & FT & BT) HT. pose proof (orth_rotation_tr M RM) as RT. pose proof (close_transpose _ _ _ CM) as CT. refine (conj eq_refl _).
  pose proof CT as (C0 & C1 & C2). set (A := ftranspose (fC T)) in *.
  destruct (close3_near _ _ _ C0) as [A0 N0]. destruct (close3_near _ _ _ C1) as [A1 N1]. destruct (close3_near _ _ _ C2) as [A2 N2]. destruct (rows_unit _ RT) as (U0 & U1 & U2).
  destruct (row_inverse o _ _ _ _ OK A0 N0 U0 D FT HT) as [F0 E0]. destruct (row_inverse o _ _ _ _ OK A1 N1 U1 D FT HT) as [F1 E1]. destruct (row_inverse o _ _ _ _ OK A2 N2 U2 D FT HT) as [F2 E2].
  unfold finverseTransform. fold A. cbn [fC ftr fbot]. split.
  - unfold near_rigid. cbn [fC ftr fbot]. refine (conj RT (conj CT (conj D (conj _ eq_refl)))). repeat split; assumption.
  - pose proof u53_pos as UP. pose proof eta_pos as EP. pose proof (eta_tiny 20 ltac:(lra)) as ET. pose proof (norm3_pos (val3 (ftr T))) as TP. set (V := norm3 (val3 (ftr T))) in *.
    assert (DV : 0 <= dlt * V) by (apply Rmult_le_pos; lra). assert (UV : 0 <= u * V) by (apply Rmult_le_pos; lra).
    apply Rle_trans with (2 * ((2 * dlt + 305 / 100 * u) * V + 10 * eta)); [|lra].
    apply dist3_le; [lra| | |]; unfold val3 at 1, opp3; rewrite mv3_rows; cbn [vx vy vz fx fy fz]; assumption.
Qed.
Lemma mv3_norm M v : is_rotation M -> norm3 (mv3 M v) = norm3 v.
Proof. intros [[_ O] _]. unfold norm3. f_equal. rewrite dot3_tr, <- mv3_mm, O, mv3_I. auto. Qed.
Lemma mv3_dist M v w : is_rotation M -> dist3 (mv3 M v) (mv3 M w) = dist3 v w.
Proof. intros RM. unfold dist3. rewrite <- mv3_sub. now apply mv3_norm. Qed.
Lemma tr3_tr3 M : tr3 (tr3 M) = M. Proof. destruct M as [[? ? ?] [? ? ?] [? ? ?]]. reflexivity. Qed.
Lemma tr_mv M v : is_rotation M -> mv3 (tr3 M) (mv3 M v) = v.
Proof. intros [[_ O] _]. now rewrite <- mv3_mm, O, mv3_I. Qed.
Lemma mv_tr M v : is_rotation M -> mv3 M (mv3 (tr3 M) v) = v.
Proof. intros RM. rewrite <- (tr3_tr3 M) at 1. apply tr_mv. now apply orth_rotation_tr. Qed.
Lemma p400_500 : 8 * bpow radix2 400 <= bpow radix2 500.
Proof. change 8 with (bpow radix2 3). rewrite <- bpow_plus. apply bpow_le. lia. Qed.
Lemma tiny_small : tiny <= / 10 ^ 20.
Proof. apply Rle_trans with (bpow radix2 (-70)); [apply bpow_le; lia|]. cbn. lra. Qed.
Theorem float_inverse_undoes o T M dlt v : sums_ok o -> near_rigid T M dlt -> finite4 v -> let p := val3 (fhead3 v) in let w := B2R (f3 v) in let t := val3 (ftr T) in
  norm3 p <= bpow radix2 400 -> norm3 t <= bpow radix2 400 -> Rabs w <= bpow radix2 400 -> Rabs w * norm3 t <= bpow radix2 400 ->
  let z := fTv o (finverseTransform o T) (fTv o T v) in
  finite4 z /\ B2R (f3 z) = w /\ dist3 (val3 (fhead3 z)) p <= (9 * dlt + 35 * u) * (norm3 p + Rabs w * norm3 t) + (3 + 2 * Rabs w) * tiny.
Proof.
  intros OK NR FV p w t HP HT HW HWT z. pose proof p400_500 as P45. assert (P4 : 1 <= bpow radix2 400) by (change 1 with (bpow radix2 0); apply bpow_le; lia).
  destruct (float_transform_point o T M dlt v OK NR FV ltac:(fold p; lra) ltac:(fold w t; lra)) as (FY & WY & EY). fold p w t in EY, WY.
  destruct (float_inverseTransform o T M dlt OK NR ltac:(fold t; lra)) as (_ & NI & ET). fold t in ET.
  pose proof NR as (RM & _ & D & _). pose proof (orth_rotation_tr M RM) as RT.
  set (y := fTv o T v) in *. set (TI := finverseTransform o T) in *. set (ti := val3 (ftr TI)) in *. set (yp := val3 (fhead3 y)) in *.
  pose proof u53_pos as UP. assert (US : u <= / 10 ^ 15) by (rewrite u_val; lra). pose proof (bpow_gt_0 radix2 (-1000)) as TP. pose proof tiny_small as TS.
  pose proof (norm3_pos p) as P0. pose proof (norm3_pos t) as T0. pose proof (Rabs_pos w) as W0. assert (WT0 : 0 <= Rabs w * norm3 t) by (apply Rmult_le_pos; lra).
  (* sizes *)
  assert (NY : norm3 yp <= 1001 / 1000 * (norm3 p + Rabs w * norm3 t) + tiny).
  { pose proof (dist3_norm yp (add3 (mv3 M p) (scale3 w t))) as Q. pose proof (norm3_triangle (mv3 M p) (scale3 w t)) as Q2. rewrite (mv3_norm M p RM), norm3_scale_abs in Q2.
    assert (K1 : (4 * dlt + 9 * u) * norm3 p <= / 1000 * norm3 p) by (apply Rmult_le_compat_r; lra).
    assert (K2 : 9 * u * (Rabs w * norm3 t) <= / 1000 * (Rabs w * norm3 t)) by (apply Rmult_le_compat_r; lra). lra. }
  assert (NTI : norm3 ti <= 1001 / 1000 * norm3 t + tiny).
  { pose proof (dist3_norm ti (opp3 (mv3 (tr3 M) t))) as Q. rewrite norm3_opp, (mv3_norm _ t RT) in Q.
    assert (K1 : (4 * dlt + 7 * u) * norm3 t <= / 1000 * norm3 t) by (apply Rmult_le_compat_r; lra). lra. }
  assert (WTI : Rabs w * norm3 ti <= 1001 / 1000 * (Rabs w * norm3 t) + Rabs w * tiny).
  { apply Rle_trans with (Rabs w * (1001 / 1000 * norm3 t + tiny)); [now apply Rmult_le_compat_l|]. apply Req_le. ring. }
  assert (WTN : Rabs w * tiny <= Rabs w * 1) by (apply Rmult_le_compat_l; lra).
  destruct (float_transform_point o TI (tr3 M) dlt y OK NI FY ltac:(fold yp; lra) ltac:(rewrite WY; fold ti; lra)) as (FZ & WZ & EZ).
  fold z yp ti in FZ, WZ, EZ. rewrite WY in WZ, EZ. refine (conj FZ (conj WZ _)).
  (* the exact composition of the computed pieces *)
  assert (E1 : dist3 (add3 (mv3 (tr3 M) yp) (scale3 w ti)) p <= dist3 yp (add3 (mv3 M p) (scale3 w t)) + Rabs w * dist3 ti (opp3 (mv3 (tr3 M) t))).
  { replace p with (add3 (mv3 (tr3 M) (add3 (mv3 M p) (scale3 w t))) (scale3 w (opp3 (mv3 (tr3 M) t)))) at 1.
    2: { rewrite mv3_add, tr_mv by exact RM. clear. vring. }
    apply Rle_trans with (1 := dist3_add _ _ _ _). rewrite (mv3_dist _ _ _ RT). apply Rplus_le_compat_l. unfold dist3. 
    replace (sub3 (scale3 w ti) (scale3 w (opp3 (mv3 (tr3 M) t)))) with (scale3 w (sub3 ti (opp3 (mv3 (tr3 M) t)))) by (clear; vring). rewrite norm3_scale_abs. lra. }
  pose proof (dist3_tri (val3 (fhead3 z)) (add3 (mv3 (tr3 M) yp) (scale3 w ti)) p) as TRI.
  set (P := norm3 p) in *. set (W := Rabs w * norm3 t) in *.
  assert (KW : Rabs w * dist3 ti (opp3 (mv3 (tr3 M) t)) <= (4 * dlt + 7 * u) * W + Rabs w * tiny).
  { apply Rle_trans with (Rabs w * ((4 * dlt + 7 * u) * norm3 t + tiny)); [now apply Rmult_le_compat_l|]. apply Req_le. unfold W. ring. }
  assert (KY : (4 * dlt + 9 * u) * norm3 yp <= (4 * dlt + 9 * u) * (1001 / 1000 * (P + W) + tiny)) by (apply Rmult_le_compat_l; lra).
  assert (KT : 9 * u * (Rabs w * norm3 ti) <= 9 * u * (1001 / 1000 * W + Rabs w * tiny)) by (apply Rmult_le_compat_l; lra).
  assert (S1 : (4 * dlt + 9 * u) * tiny <= 1 / 1000 * tiny) by (apply Rmult_le_compat_r; lra).
  assert (S2 : 9 * u * (Rabs w * tiny) <= 1 / 1000 * (Rabs w * tiny)) by (apply Rmult_le_compat_r; [apply Rmult_le_pos; lra|lra]).
  assert (DP : 0 <= dlt * P) by (apply Rmult_le_pos; lra). assert (UPP : 0 <= u * P) by (apply Rmult_le_pos; lra).
  assert (DW : 0 <= dlt * W) by (apply Rmult_le_pos; lra). assert (UW : 0 <= u * W) by (apply Rmult_le_pos; lra).
  assert (WN : 0 <= Rabs w * tiny) by (apply Rmult_le_pos; lra).
  apply Rle_trans with (1 := TRI). lra.
Qed.
(** the matrix of a stored transformation *)
Theorem float_inverse_undoes_stored o x v : sums_ok o -> stored_ok x -> finite4 v -> let p := val3 (fhead3 v) in let w := B2R (f3 v) in let t := val3 (ft x) in
  norm3 p <= bpow radix2 400 -> norm3 t <= bpow radix2 400 -> Rabs w <= bpow radix2 400 -> Rabs w * norm3 t <= bpow radix2 400 ->
  let z := fTv o (finverseTransform o (ft_T x)) (fTv o (ft_T x) v) in
  finite4 z /\ B2R (f3 z) = w /\ dist3 (val3 (fhead3 z)) p <= 224 * u * (norm3 p + Rabs w * norm3 t) + (3 + 2 * Rabs w) * tiny.
Proof.
  intros OK [NU FT] FV p w t HP HT HW HWT z.
  assert (NP : 0 < norm4 (val4 (fq x))) by (pose proof (near_pos _ NU); lra).
  assert (NR : near_rigid (ft_T x) (quat2r (normalize4 (val4 (fq x)))) (21 * u)).
  { refine (conj _ (conj _ (conj _ (conj FT eq_refl)))); [apply quat2r_rotation, normalize4_is_unit; exact NP|exact (near_matrix _ NU)|rewrite u_val; lra]. }
  destruct (float_inverse_undoes o _ _ _ v OK NR FV HP HT HW HWT) as (FZ & WZ & E). refine (conj FZ (conj WZ _)). apply Rle_trans with (1 := E).
  apply Req_le. fold p w. change (ftr (ft_T x)) with (ft x). fold t. ring.
Qed.
(** *** inverting twice: the rotation block bit for bit, the translation up to a few roundings - and in general not bit for bit *)
Lemma ftranspose_twice A : ftranspose (ftranspose A) = A. Proof. destruct A as [[? ? ?] [? ? ?] [? ? ?]]. reflexivity. Qed.
Theorem float_inverse_twice o T M dlt : sums_ok o -> near_rigid T M dlt -> norm3 (val3 (ftr T)) <= bpow radix2 400 ->
  let TT := finverseTransform o (finverseTransform o T) in
  fC TT = fC T /\ fbot TT = fbot T /\ finite3 (ftr TT) /\ dist3 (val3 (ftr TT)) (val3 (ftr T)) <= (9 * dlt + 15 * u) * norm3 (val3 (ftr T)) + 3 * tiny.
Proof.
  intros OK NR HT TT. pose proof NR as (RM & _ & D & _ & BT). pose proof (orth_rotation_tr M RM) as RT. pose proof p400_500 as P45. assert (P4 : 1 <= bpow radix2 400) by (change 1 with (bpow radix2 0); apply bpow_le; lia).
  set (t := val3 (ftr T)) in *. destruct (float_inverseTransform o T M dlt OK NR ltac:(fold t; lra)) as (C1 & NI & ET). fold t in ET. set (TI := finverseTransform o T) in *. set (ti := val3 (ftr TI)) in *.
  pose proof u53_pos as UP. assert (US : u <= / 10 ^ 15) by (rewrite u_val; lra). pose proof (bpow_gt_0 radix2 (-1000)) as TP. pose proof tiny_small as TS. pose proof (norm3_pos t) as T0.
  assert (NTI : norm3 ti <= 1001 / 1000 * norm3 t + tiny).
  { pose proof (dist3_norm ti (opp3 (mv3 (tr3 M) t))) as Q. rewrite norm3_opp, (mv3_norm _ t RT) in Q.
    assert (K1 : (4 * dlt + 7 * u) * norm3 t <= / 1000 * norm3 t) by (apply Rmult_le_compat_r; lra). lra. }
  destruct (float_inverseTransform o TI (tr3 M) dlt OK NI ltac:(fold ti; lra)) as (C2 & NI2 & ET2). fold ti TT in C2, NI2, ET2. rewrite tr3_tr3 in ET2.
  refine (conj _ (conj _ (conj _ _))).
  - rewrite C2, C1. apply ftranspose_twice.
  - rewrite BT. exact (proj2 (proj2 (proj2 (proj2 NI2)))).
  - exact (proj1 (proj2 (proj2 (proj2 NI2)))).
  - set (tt := val3 (ftr TT)) in *. pose proof (dist3_tri tt (opp3 (mv3 M ti)) t) as TRI.
    assert (E : dist3 (opp3 (mv3 M ti)) t = dist3 ti (opp3 (mv3 (tr3 M) t))).
    { rewrite <- (mv3_dist M ti) by exact RM. rewrite mv3_opp, mv_tr by exact RM. unfold dist3, norm3. f_equal. clear. vring. }
    rewrite E in TRI. assert (KK : (4 * dlt + 7 * u) * norm3 ti <= (4 * dlt + 7 * u) * (1001 / 1000 * norm3 t + tiny)) by (apply Rmult_le_compat_l; lra).
    assert (S1 : (4 * dlt + 7 * u) * tiny <= 1 / 1000 * tiny) by (apply Rmult_le_compat_r; lra).
    assert (DP : 0 <= dlt * norm3 t) by (apply Rmult_le_pos; lra). assert (UPP : 0 <= u * norm3 t) by (apply Rmult_le_pos; lra). lra.
Qed.
Definition lin (a b c : nat) : list stree := [SAdd (SAdd (SLeaf a) (SLeaf b)) (SLeaf c); SAdd (SLeaf a) (SAdd (SLeaf b) (SLeaf c))].
Definition all_orders3 : list stree := lin 0 1 2 ++ lin 0 2 1 ++ lin 1 0 2 ++ lin 1 2 0 ++ lin 2 0 1 ++ lin 2 1 0.
Lemma perm3_lin a b c : Permutation [a; b; c] [0; 1; 2]%nat -> forall t, In t (lin a b c) -> In t all_orders3.
Proof.
  intros H t I. assert (ND : NoDup [a; b; c]) by (apply (Permutation_NoDup (Permutation_sym H)); repeat constructor; cbn; intuition discriminate).
  assert (IA : In a [0; 1; 2]%nat) by (apply (Permutation_in _ H); cbn; auto). assert (IB : In b [0; 1; 2]%nat) by (apply (Permutation_in _ H); cbn; auto). assert (IC : In c [0; 1; 2]%nat) by (apply (Permutation_in _ H); cbn; auto).
  clear H. inversion ND as [|? ? N1 ND1]; subst. inversion ND1 as [|? ? N2 _]; subst. cbn [In] in N1, N2. unfold all_orders3. rewrite !in_app_iff.
  cbn [In] in IA, IB, IC.
  destruct IA as [<-|[<-|[<-|[]]]], IB as [<-|[<-|[<-|[]]]], IC as [<-|[<-|[<-|[]]]]; try (exfalso; tauto); tauto.
Qed.
Lemma orders3_complete t : Permutation (leaves t) [0; 1; 2]%nat -> In t all_orders3.
Proof.
  intros H. pose proof (Permutation_length H) as LN. cbn [length] in LN.
  assert (L1 : forall s, (1 <= length (leaves s))%nat) by (induction s as [i|l IHl r IHr]; cbn [leaves length]; [lia|rewrite app_length; lia]).
  destruct t as [i|[i|l r] [j|l' r']]; cbn [leaves length] in *; rewrite ?app_length in LN; cbn [length] in LN; try lia.
  - pose proof (L1 l') as A. pose proof (L1 r') as B. destruct l' as [a|? ?]; [|cbn [leaves] in LN; rewrite app_length in LN; pose proof (L1 l'1); pose proof (L1 l'2); lia].
    destruct r' as [b|? ?]; [|cbn [leaves] in LN; rewrite app_length in LN; cbn [length] in LN; pose proof (L1 r'1); pose proof (L1 r'2); lia].
    apply (perm3_lin i a b H). cbn. auto.
  - pose proof (L1 l) as A. pose proof (L1 r) as B. destruct l as [a|? ?]; [|cbn [leaves] in LN; rewrite app_length in LN; pose proof (L1 l1); pose proof (L1 l2); cbn [length] in LN; lia].
    destruct r as [b|? ?]; [|cbn [leaves] in LN; rewrite app_length in LN; pose proof (L1 r1); pose proof (L1 r2); cbn [length] in LN; lia].
    apply (perm3_lin a b j H). cbn. auto.
  - pose proof (L1 l). pose proof (L1 r). pose proof (L1 l'). pose proof (L1 r'). lia.
Qed.
(** a rotation by atan2(4, 3) about the z axis *)
Definition T68 (t : F3) : FM4 :=
  frt2Transform (mkFM3 (mkF3 (fdec 6 1) (fneg (fdec 8 1)) fzero) (mkF3 (fdec 8 1) (fdec 6 1) fzero) (mkF3 fzero fzero (fofZ 1))) t.
Definition R68 : mat3 := m3 (3 / 5) (- (4 / 5)) 0 (4 / 5) (3 / 5) 0 0 0 1.
Lemma T68_rigid t : finite3 t -> near_rigid (T68 t) R68 u.
Proof.
  intros FT. unfold near_rigid. refine (conj _ (conj _ (conj _ (conj FT eq_refl)))).
  - unfold R68. split; [split; vunfold; veq; field|vunfold; field].
  - assert (F6 : is_finite (fdec 6 1) = true) by reflexivity. assert (F8 : is_finite (fdec 8 1) = true) by reflexivity.
    assert (E6 : Rabs (B2R (fdec 6 1) - 3 / 5) <= u) by (rewrite u_val; vm_compute B2R; apply Rabs_le; lra).
    assert (E8 : Rabs (B2R (fdec 8 1) - 4 / 5) <= u) by (rewrite u_val; vm_compute B2R; apply Rabs_le; lra).
    destruct (neg_close _ _ _ F8 E8) as [G8 N8]. destruct (fofZ_correct 1 ltac:(lia)) as [V1 F1].
    assert (Z0 : Rabs (B2R fzero - 0) <= u) by (rewrite u_val; change (B2R fzero) with 0; rewrite Rminus_0_r, Rabs_R0; lra).
    assert (O1 : Rabs (B2R (fofZ 1) - 1) <= u) by (rewrite V1, u_val, Rminus_diag_eq, Rabs_R0 by reflexivity; lra).
    unfold T68, frt2Transform, R68, m3. cbn [fC]. set (a := fdec 6 1) in *. set (b := fdec 8 1) in *. clearbody a b. repeat split; assumption || reflexivity.
  - rewrite u_val. lra.
Qed.
Definition ones : F3 := mkF3 (fofZ 1) (fofZ 1) fzero.
Lemma twice_computed : forallb (fun s => let o := mkSumOrder s by_loop in negb (feqb (fy (ftr (finverseTransform o (finverseTransform o (T68 ones))))) (fofZ 1))) all_orders3 = true.
Proof. vm_compute. reflexivity. Qed.
Theorem float_inverse_twice_refuted : exists T M, near_rigid T M u /\ norm3 (val3 (ftr T)) <= 2 /\ forall o, sums_ok o -> finverseTransform o (finverseTransform o T) <> T.
Proof.
  exists (T68 ones), R68. destruct (fofZ_correct 1 ltac:(lia)) as [V1 F1]. refine (conj _ (conj _ _)).
  - apply T68_rigid. repeat split; assumption || reflexivity.
  - unfold T68, frt2Transform, val3, ones. cbn [ftr fx fy fz]. rewrite V1. change (B2R fzero) with 0. apply Rle_trans with (2 * 1); [|lra]. apply norm3_le; cbn [vx vy vz]; rewrite ?Rabs_R1, ?Rabs_R0; lra.
  - intros o [O3 _] EQ. pose proof twice_computed as TC. rewrite forallb_forall in TC. specialize (TC (by3 o) (orders3_complete _ O3)). cbv zeta in TC.
    change (finverseTransform (mkSumOrder (by3 o) by_loop) (finverseTransform (mkSumOrder (by3 o) by_loop) (T68 ones))) with (finverseTransform o (finverseTransform o (T68 ones))) in TC.
    rewrite EQ in TC. change (fy (ftr (T68 ones))) with (fofZ 1) in TC. 
    assert (EE : feqb (fofZ 1) (fofZ 1) = true) by reflexivity. rewrite EE in TC. cbn in TC. congruence.
Qed.

(** ** Assembling and taking apart: no operation rounds *)
Theorem float_blocks C rho T :
  ftransform2C (frt2Transform C rho) = C /\ ftransform2rho (frt2Transform C rho) = rho /\ (fbot T = bottom <-> frt2Transform (ftransform2C T) (ftransform2rho T) = T) /\
  (fbot T = bottom -> forall o v, finite4 v -> sums_ok o -> B2R (f3 (fTv o T v)) = B2R (f3 v)) /\
  map B2R [f0 (ftransform2rhoHomogeneous (frt2Transform C rho)); f1 (ftransform2rhoHomogeneous (frt2Transform C rho)); f2 (ftransform2rhoHomogeneous (frt2Transform C rho)); f3 (ftransform2rhoHomogeneous (frt2Transform C rho))] =
    [B2R (fx rho); B2R (fy rho); B2R (fz rho); 1].
Proof.
  refine (conj eq_refl (conj eq_refl (conj _ (conj _ _)))).
  - unfold frt2Transform, ftransform2C, ftransform2rho. split; [intros <-; now destruct T|intros <-; reflexivity].
  - intros B o v FV OK. unfold fTv. cbn [f3]. rewrite B. now apply bottom_row.
  - cbn [ftransform2rhoHomogeneous frt2Transform ftr fbot f0 f1 f2 f3 bottom map]. destruct (fofZ_correct 1 ltac:(lia)) as [V1 _]. now rewrite V1.
Qed.

(** ** Euler angles *)
Theorem float_TEuler L t a : lib2_ok L -> finite3 t ->
  ftoTEuler6 L (fx t) (fy t) (fz t) (fx a) (fy a) (fz a) = ftoTEuler L t a /\
  (finite3 a -> near_rigid (ftoTEuler L t a) (mm3 (Rz (- B2R (fz a))) (mm3 (Ry (- B2R (fy a))) (Rx (- B2R (fx a))))) (16 * u)) /\
  (in_range a -> fst (ffromTEuler L (ftoTEuler L t a)) = t /\ recovered a (snd (ffromTEuler L (ftoTEuler L t a)))).
Proof.
  intros OK FT. refine (conj _ (conj _ _)).
  - unfold ftoTEuler6, ftoTEuler. destruct t. reflexivity.
  - intros FA. destruct (val_neg3 a FA) as [FN VN]. destruct (float_euler_matrices (base L) (fneg3 a) (proj1 OK) FN) as [C _].
    assert (VX : B2R (fx (fneg3 a)) = - B2R (fx a)) by exact (f_equal vx VN). assert (VY : B2R (fy (fneg3 a)) = - B2R (fy a)) by exact (f_equal vy VN). assert (VZ : B2R (fz (fneg3 a)) = - B2R (fz a)) by exact (f_equal vz VN).
    rewrite VX, VY, VZ in C. unfold near_rigid, ftoTEuler. cbn [fC ftr fbot]. refine (conj _ (conj C (conj _ (conj FT eq_refl)))); [|rewrite u_val; lra].
    rewrite <- rph2R_product. apply rph2R_rotation.
  - intros (FA & BX & BY & BZ). split; [reflexivity|]. destruct (val_neg3 a FA) as [FN VN].
    assert (VX : B2R (fx (fneg3 a)) = - B2R (fx a)) by exact (f_equal vx VN). assert (VY : B2R (fy (fneg3 a)) = - B2R (fy a)) by exact (f_equal vy VN). assert (VZ : B2R (fz (fneg3 a)) = - B2R (fz a)) by exact (f_equal vz VN).
    assert (IR : in_range (fneg3 a)) by (refine (conj FN _); rewrite VX, VY, VZ, !Rabs_Ropp; auto).
    destruct (float_euler_round_trip L (fneg3 a) OK IR) as [RR _]. unfold ffromTEuler, ftoTEuler. cbn [fC ftr snd].
    change (frph2R (base L) (fneg (fx a)) (fneg (fy a)) (fneg (fz a))) with (frph2R (base L) (fx (fneg3 a)) (fy (fneg3 a)) (fz (fneg3 a))).
    set (q := fR2rph L _) in *. clearbody q. destruct RR as (FQ & EX & EZ & EY & EY2). rewrite VX, VY, VZ in *. rewrite cos_neg in EY2.
    destruct (val_neg3 q FQ) as [FNQ _]. pose proof FQ as (Q1 & Q2 & Q3).
    assert (NG : forall (x : f64) (c b : R), is_finite x = true -> Rabs (B2R x - - c) <= b -> Rabs (B2R (fneg x) - c) <= b).
    { intros x c b F H. destruct (neg_close _ _ _ F H) as [_ K]. now rewrite Ropp_involutive in K. }
    unfold recovered. refine (conj FNQ _). unfold fneg3. cbn [fx fy fz]. refine (conj (NG _ _ _ Q1 EX) (conj (NG _ _ _ Q3 EZ) (conj (NG _ _ _ Q2 EY) _))).
    intros C. apply NG; auto.
Qed.
Theorem float_TEuler_refuted : exists q, finite4 q /\ Rabs (norm4 (val4 q) - 1) <= 2 * u /\
  forall E t L, In E orders_in_use -> lib2_ok L -> let T := ft_T (ft_make E q t) in finite33 (fC T) /\ ftr T = t /\ is_nan (fy (snd (ffromTEuler L T))) = true.
Proof.
  destruct float_euler_params_refuted as (q & r0 & FQ & _ & NQ & _ & H). exists q. refine (conj FQ (conj NQ _)). intros E t L I OK. cbv zeta.
  destruct (H E t L I OK) as [(F & N & _) _]. refine (conj F (conj eq_refl _)). unfold ffromTEuler, fneg3. cbn [snd fy]. rewrite is_nan_fneg. exact N.
Qed.

(** ** Jacobians *)
Definition rows46 (M : mat46) : list (list R) :=
  let row a b := [vx a; vy a; vz a; vx b; vy b; vz b] in
  [row (s0 (l46 M)) (s0 (h46 M)); row (s1 (l46 M)) (s1 (h46 M)); row (s2 (l46 M)) (s2 (h46 M)); row (s3 (l46 M)) (s3 (h46 M))].
(** transformationAndJacobian: the product, and - exactly - the boxMinus matrix of the product *)
Theorem float_transformationAndJacobian o T v : let r := ftransformationAndJacobian o T v in
  fst r = fTv o T v /\ map (map B2R) (snd r) = rows46 (boxMinus (val4 (fst r))).
Proof.
  cbv zeta. split; [reflexivity|]. unfold ftransformationAndJacobian. cbn [fst snd]. set (p := fTv o T v). clearbody p. 
  unfold fboxMinus, rows46, boxMinus, val4. cbn [map l46 h46 s0 s1 s2 s3 vx vy vz e0 e1 e2 e3]. unfold fneg. rewrite !B2R_Bopp. reflexivity.
Qed.
Lemma rotation_entry r d a : dot3 r r = 1 -> near3 a r d -> 0 <= d <= 1 / 10000 -> Rabs (vx a) <= 1001 / 1000 /\ Rabs (vy a) <= 1001 / 1000 /\ Rabs (vz a) <= 1001 / 1000.
Proof.
  intros UR (X & Y & Z) D. destruct (comp3 r) as (A & B & C). unfold norm3 in A, B, C. rewrite UR, sqrt_1 in A, B, C.
  assert (T : forall p q : R, Rabs (p - q) <= d -> Rabs q <= 1 -> Rabs p <= 1001 / 1000).
  { intros p q H1 H2. replace p with ((p - q) + q) by ring. apply Rle_trans with (1 := Rabs_triang _ _). lra. }
  repeat split; eapply T; eassumption.
Qed.
Lemma scaled_row w a r d : is_finite w = true -> Rabs (B2R w) <= bpow radix2 500 -> finite3 a -> near3 (val3 a) r d -> dot3 r r = 1 -> 0 <= d <= 1 / 10000 ->
  close3 (fscale3 w a) (scale3 (B2R w) r) ((d + 2 * u) * Rabs (B2R w) + tiny).
Proof.
  intros FW BW (FX & FY & FZ) NR UR D. destruct (rotation_entry _ _ _ UR NR D) as (X & Y & Z). destruct NR as (NX & NY & NZ). pose proof u53_pos as UP. pose proof (eta_tiny 2 ltac:(lra)) as ET. pose proof (Rabs_pos (B2R w)) as W0.
  assert (BB : 4 * bpow radix2 500 <= BIG) by (unfold BIG; change 4 with (bpow radix2 2); rewrite <- bpow_plus; apply bpow_le; lia).
  assert (B5 : 0 < bpow radix2 500) by apply bpow_gt_0.
  assert (T : forall (c : f64) (q : R), is_finite c = true -> Rabs (B2R c) <= 1001 / 1000 -> Rabs (B2R c - q) <= d ->
    is_finite (fmul w c) = true /\ Rabs (B2R (fmul w c) - B2R w * q) <= (d + 2 * u) * Rabs (B2R w) + tiny).
  { intros c q FC BC NC. assert (M : Rabs (B2R w) * Rabs (B2R c) <= Rabs (B2R w) * (1001 / 1000)) by (now apply Rmult_le_compat_l).
    destruct (nr_mul_exact w c FW FC ltac:(lra)) as (F & _ & E). split; [exact F|].
    replace (B2R (fmul w c) - B2R w * q) with ((B2R (fmul w c) - B2R w * B2R c) + B2R w * (B2R c - q)) by ring. apply Rle_trans with (1 := Rabs_triang _ _).
    rewrite Rabs_mult. assert (K : Rabs (B2R w) * Rabs (B2R c - q) <= Rabs (B2R w) * d) by (now apply Rmult_le_compat_l).
    assert (K2 : 101 / 100 * u * (Rabs (B2R w) * Rabs (B2R c)) <= 101 / 100 * u * (Rabs (B2R w) * (1001 / 1000))) by (apply Rmult_le_compat_l; lra).
    assert (UW : 0 <= u * Rabs (B2R w)) by (apply Rmult_le_pos; lra). lra. }
  destruct (T _ _ FX X NX) as [F0 E0]. destruct (T _ _ FY Y NY) as [F1 E1]. destruct (T _ _ FZ Z NZ) as [F2 E2].
  split; [repeat split; assumption|]. unfold fscale3, scale3. cbn [fx fy fz vx vy vz]. auto.
Qed.
Lemma val_neg (x : f64) : B2R (fneg x) = - B2R x. Proof. apply B2R_Bopp. Qed.
(** inverseTransformationAndJacobian: the product with the inverse, and the two halves of the exact Jacobian up to a few roundings *)
Theorem float_inverseTransformationAndJacobian o T M dlt v : sums_ok o -> near_rigid T M dlt -> finite4 v ->
  let p := val3 (fhead3 v) in let w := B2R (f3 v) in norm3 p <= bpow radix2 500 -> Rabs w <= bpow radix2 500 ->
  let r := finverseTransformationAndJacobian o T v in
  fst r = fTv o (finverseTransform o T) v /\
  close33 (fst (snd r)) (mscale3 (- w) (tr3 M)) ((dlt + 2 * u) * Rabs w + tiny) /\
  close33 (snd (snd r)) (mm3 (mopp3 (tr3 M)) (crossMx p)) ((2 * dlt + 4 * u) * norm3 p + tiny).
Proof.
  intros OK (RM & CM & D & FT & BT) FV p w HP HW. cbv zeta. refine (conj eq_refl _). pose proof (orth_rotation_tr M RM) as RT. pose proof (close_transpose _ _ _ CM) as CT.
  unfold finverseTransformationAndJacobian, finverseTransform. cbn [fC fst snd]. set (A := ftranspose (fC T)) in *. destruct CT as (C0 & C1 & C2).
  destruct (close3_near _ _ _ C0) as [A0 N0]. destruct (close3_near _ _ _ C1) as [A1 N1]. destruct (close3_near _ _ _ C2) as [A2 N2]. destruct (rows_unit _ RT) as (U0 & U1 & U2).
  destruct FV as (V0 & V1 & V2 & VV3). destruct (fneg_val _ VV3) as [FW VW]. split.
  - assert (BW : Rabs (B2R (fneg (f3 v))) <= bpow radix2 500) by (rewrite VW, Rabs_Ropp; exact HW).
    pose proof (scaled_row _ _ _ _ FW BW A0 N0 U0 D) as S0. pose proof (scaled_row _ _ _ _ FW BW A1 N1 U1 D) as S1. pose proof (scaled_row _ _ _ _ FW BW A2 N2 U2 D) as S2.
    rewrite VW, Rabs_Ropp in S0, S1, S2. unfold close33, mscale3. cbn [fr0 fr1 fr2 r30 r31 r32]. fold w in S0, S1, S2. auto.
  - set (c0 := mkF3 fzero (f2 v) (fneg (f1 v))). set (c1 := mkF3 (fneg (f2 v)) fzero (f0 v)). set (c2 := mkF3 (f1 v) (fneg (f0 v)) fzero).
    destruct (fneg_val _ V0) as [G0 W0]. destruct (fneg_val _ V1) as [G1 W1]. destruct (fneg_val _ V2) as [G2 W2].
    assert (FC : finite3 c0 /\ finite3 c1 /\ finite3 c2) by (repeat split; assumption || reflexivity). destruct FC as (F0 & F1 & F2).
    assert (E0 : val3 c0 = V3 0 (vz p) (- vy p)) by (unfold val3, c0, p, fhead3; cbn [fx fy fz vx vy vz]; rewrite W1; reflexivity).
    assert (E1 : val3 c1 = V3 (- vz p) 0 (vx p)) by (unfold val3, c1, p, fhead3; cbn [fx fy fz vx vy vz]; rewrite W2; reflexivity).
    assert (E2 : val3 c2 = V3 (vy p) (- vx p) 0) by (unfold val3, c2, p, fhead3; cbn [fx fy fz vx vy vz]; rewrite W0; reflexivity).
    assert (NB : norm3 (val3 c0) <= norm3 p /\ norm3 (val3 c1) <= norm3 p /\ norm3 (val3 c2) <= norm3 p).
    { rewrite E0, E1, E2. unfold norm3, dot3. cbn [vx vy vz].
      pose proof (Rle_0_sqr (vx p)) as Q0. pose proof (Rle_0_sqr (vy p)) as Q1. pose proof (Rle_0_sqr (vz p)) as Q2. unfold Rsqr in *. repeat split; apply sqrt_le_1_alt; lra. }
    destruct NB as (B0 & B1 & B2). pose proof u53_pos as UP. pose proof (eta_tiny 10 ltac:(lra)) as ET. pose proof (norm3_pos p) as PP.
    assert (K : forall a r c, finite3 a -> near3 (val3 a) r dlt -> dot3 r r = 1 -> finite3 c -> norm3 (val3 c) <= norm3 p ->
      is_finite (fdot_3 o (fneg3 a) c) = true /\ Rabs (B2R (fdot_3 o (fneg3 a) c) - - dot3 r (val3 c)) <= (2 * dlt + 4 * u) * norm3 p + tiny).
    { intros a r c FA NA UA FC BC. destruct (row_inverse o a c r dlt OK FA NA UA D FC ltac:(lra)) as [F E]. split; [exact F|]. apply Rle_trans with (1 := E).
      assert (Z : (2 * dlt + 305 / 100 * u) * norm3 (val3 c) <= (2 * dlt + 4 * u) * norm3 p); [|lra].
      pose proof (norm3_pos (val3 c)). apply Rmult_le_compat; lra. }
    assert (RR : forall a r, finite3 a -> near3 (val3 a) r dlt -> dot3 r r = 1 ->
      close3 (mkF3 (fdot_3 o (fneg3 a) c0) (fdot_3 o (fneg3 a) c1) (fdot_3 o (fneg3 a) c2)) (V3 (- dot3 r (val3 c0)) (- dot3 r (val3 c1)) (- dot3 r (val3 c2))) ((2 * dlt + 4 * u) * norm3 p + tiny)).
    { intros a r FA NA UA. destruct (K _ _ _ FA NA UA F0 B0) as [H0 L0]. destruct (K _ _ _ FA NA UA F1 B1) as [H1 L1]. destruct (K _ _ _ FA NA UA F2 B2) as [H2 L2].
      split; [repeat split; assumption|]. cbn [fx fy fz vx vy vz]. auto. }
    pose proof (RR _ _ A0 N0 U0) as S0. pose proof (RR _ _ A1 N1 U1) as S1. pose proof (RR _ _ A2 N2 U2) as S2. rewrite E0, E1, E2 in S0, S1, S2.
    assert (MM : forall r, V3 (- dot3 r (V3 0 (vz p) (- vy p))) (- dot3 r (V3 (- vz p) 0 (vx p))) (- dot3 r (V3 (vy p) (- vx p) 0)) = mv3 (tr3 (crossMx p)) (opp3 r)).
    { intros r. clear. unfold crossMx. vring. }
    rewrite MM in S0, S1, S2. unfold close33. cbn [fr0 fr1 fr2].
    assert (ME : mm3 (mopp3 (tr3 M)) (crossMx p) = M3 (mv3 (tr3 (crossMx p)) (opp3 (r30 (tr3 M)))) (mv3 (tr3 (crossMx p)) (opp3 (r31 (tr3 M)))) (mv3 (tr3 (crossMx p)) (opp3 (r32 (tr3 M))))).
    { clear. clearbody p. unfold crossMx. vring. }
    rewrite ME. cbn [r30 r31 r32]. auto.
Qed.

(** ** A concrete case *)
Definition column_sums : sumorder := mkSumOrder (SAdd (SAdd (SLeaf 0) (SLeaf 1)) (SLeaf 2)) by_loop.
Example column_sums_ok : sums_ok column_sums. Proof. split; apply Permutation_refl. Qed.
Definition vec1231 : F4 := mkF4 (fofZ 1) (fofZ 2) (fofZ 3) (fofZ 1).
Example T68_point : near_rigid (T68 ones) R68 u /\ finite4 vec1231 /\ map (fun x => feqb x (fofZ 0)) [f0 (fTv column_sums (T68 ones) vec1231); f1 (fTv column_sums (T68 ones) vec1231)] = [true; false] /\
  feqb (f1 (fTv column_sums (T68 ones) vec1231)) (fofZ 3) = true /\ feqb (f2 (fTv column_sums (T68 ones) vec1231)) (fofZ 3) = true.
Proof. split; [apply T68_rigid; repeat split; reflexivity|]. split; [repeat split; reflexivity|]. vm_compute. auto. Qed.
