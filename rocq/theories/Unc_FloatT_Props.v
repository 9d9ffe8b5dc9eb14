(** C151: the covariances of UncertainTransformation in binary64. *)
From Coq Require Import Reals Psatz Lia.
From Verif Require Import Float64 Nsec_Proofs TimerTable_Num Round_Proofs LinAlg DenseN Kin_Unc_Model Kin_Float_Model Kin_Float_Num Kin_FloatExp_Props Kin_FloatMat_Props Kin_FloatSlerp_Props Unc_FloatModel Unc_FloatProps.
Import ListNotations.
Open Scope R_scope.

(** ** specification *)
(** the skew matrix of t, boxTimes of the matrix with blocks C and t, boxMinus of p, over the reals *)
Definition skewn (t : vecn) : matn := fun i j =>
  match i, j with 0, 1 => (- t 2%nat)%R | 0, 2 => (t 1%nat)%R | 1, 0 => (t 2%nat)%R | 1, 2 => (- t 0%nat)%R | 2, 0 => (- t 1%nat)%R | 2, 1 => (t 0%nat)%R | _, _ => (0)%R end%nat.
Definition boxn (C : matn) (t : vecn) : matn := fun i j =>
  if (i <? 3)%nat then (if (j <? 3)%nat then C i j else - mmn 3 (skewn t) C i (j - 3)%nat) else if (j <? 3)%nat then 0 else C (i - 3)%nat (j - 3)%nat.
Definition boxMinusn (p : vecn) : matn := fun i j =>
  match i, j with 0, 0 => (p 3%nat)%R | 1, 1 => (p 3%nat)%R | 2, 2 => (p 3%nat)%R
  | 0, 4 => (- p 2%nat)%R | 0, 5 => (p 1%nat)%R | 1, 3 => (p 2%nat)%R | 1, 5 => (- p 0%nat)%R | 2, 3 => (- p 1%nat)%R | 2, 4 => (p 0%nat)%R | _, _ => (0)%R end%nat.
(** the same with absolute values everywhere: what the rounding errors are measured against *)
Definition abs_boxn (C : matn) (t : vecn) : matn := fun i j =>
  if (i <? 3)%nat then (if (j <? 3)%nat then Rabs (C i j) else mmn 3 (absm (skewn t)) (absm C) i (j - 3)%nat) else if (j <? 3)%nat then 0 else Rabs (C (i - 3)%nat (j - 3)%nat).
Definition sandwichn (n : nat) (J U : matn) : matn := mmn n (mmn n J U) (trn J).
(** the upper blocks of a rigid transformation, as doubles *)
Definition rigid_size (C : fmatn) (t : fvecn) : Prop :=
  (forall i j, (i < 3)%nat -> (j < 3)%nat -> is_finite (C i j) = true /\ Rabs (B2R (C i j)) <= 2) /\
  forall i, (i < 3)%nat -> is_finite (t i) = true /\ Rabs (B2R (t i)) <= bpow radix2 90.
Definition slack : R := bpow radix2 (-700).

(** boxn is boxTimes of Kin_Trans_Model *)
Definition at3 (v : vec3) (i : nat) : R := match i with 0 => vx v | 1 => vy v | _ => vz v end%nat.
Definition at33 (M : mat3) (i j : nat) : R := match i with 0 => at3 (r30 M) j | 1 => at3 (r31 M) j | _ => at3 (r32 M) j end%nat.
Definition at66 (M : mat6) (i j : nat) : R :=
  if (i <? 3)%nat then (if (j <? 3)%nat then at33 (b11 M) i j else at33 (b12 M) i (j - 3)%nat) else if (j <? 3)%nat then at33 (b21 M) (i - 3)%nat j else at33 (b22 M) (i - 3)%nat (j - 3)%nat.
Lemma below6 (P : nat -> Prop) : P 0%nat -> P 1%nat -> P 2%nat -> P 3%nat -> P 4%nat -> P 5%nat -> forall i, (i < 6)%nat -> P i.
Proof. intros ? ? ? ? ? ? i H. destruct i as [|[|[|[|[|[|i]]]]]]; auto; lia. Qed.
Lemma boxn_boxTimes (T : mat4) : meqn 6 6 (boxn (at33 (topLeft T)) (at3 (topRight T))) (at66 (boxTimes T)).
Proof.
  destruct T as [[a0 a1 a2 a3] [b0 b1 b2 b3] [c0 c1 c2 c3] [d0 d1 d2 d3]]. intros i j I J. revert i I. apply below6; revert j J; apply below6; cbv -[Rplus Rmult Ropp Rminus IZR]; ring.
Qed.

(** ** the computed boxTimes *)
Lemma below3 (P : nat -> Prop) : P 0%nat -> P 1%nat -> P 2%nat -> forall i, (i < 3)%nat -> P i.
Proof. intros ? ? ? i H. destruct i as [|[|[|i]]]; auto; lia. Qed.
Lemma fneg_value a : is_finite a = true -> is_finite (fneg a) = true /\ B2R (fneg a) = - B2R a.
Proof. intros F. unfold fneg. rewrite is_finite_Bopp, B2R_Bopp. auto. Qed.
Lemma cross_val t i j : (forall i, (i < 3)%nat -> is_finite (t i) = true /\ Rabs (B2R (t i)) <= bpow radix2 90) -> (i < 3)%nat -> (j < 3)%nat ->
  is_finite (fneg (fcrossMx t i j)) = true /\ B2R (fneg (fcrossMx t i j)) = - skewn (vv t) i j /\ Rabs (skewn (vv t) i j) <= bpow radix2 90.
Proof.
  intros T I J. pose proof (T 0%nat ltac:(lia)) as [F0 B0]. pose proof (T 1%nat ltac:(lia)) as [F1 B1]. pose proof (T 2%nat ltac:(lia)) as [F2 B2].
  pose proof (bpow_ge_0 radix2 90) as B9.   assert (N : forall a, is_finite a = true -> is_finite (fneg (fneg a)) = true /\ B2R (fneg (fneg a)) = - - B2R a).
  { intros a F. destruct (fneg_value a F) as [G E]. destruct (fneg_value _ G) as [G' E']. rewrite E', E. auto. }
  assert (Z : is_finite (fneg fzero) = true /\ B2R (fneg fzero) = - 0) by (split; [reflexivity|cbn; lra]).
  revert i I; apply below3; revert j J; apply below3; cbn [fcrossMx skewn]; unfold vv;
    ((split; [|split]; [apply Z|apply Z|rewrite Rabs_R0; lra]) || (rewrite Rabs_Ropp; split; [|split]; [apply N; assumption|apply N; assumption|assumption]) || (split; [|split]; [apply fneg_value; assumption|apply fneg_value; assumption|assumption])).
Qed.
Lemma g3 : 0 <= g 3 <= 304 / 100 * u.
Proof.
  split; [apply g_pos|]. pose proof u_val as UV. assert (I3 : INR 3 = 3) by (cbn; lra). apply Rle_trans with (101 / 100 * INR 3 * u); [apply g_small|]; rewrite I3, UV; lra.
Qed.
Definition ebox : R := 6 * eta.
Lemma ebox_pos : 0 <= ebox. Proof. unfold ebox. pose proof eta_pos. lra. Qed.
Lemma fbox_err o C t : orders_ok 3 o -> rigid_size C t -> forall i j, (i < 6)%nat -> (j < 6)%nat ->
  is_finite (fbox o C t i j) = true /\ Rabs (B2R (fbox o C t i j) - boxn (mv C) (vv t) i j) <= g 3 * abs_boxn (mv C) (vv t) i j + ebox /\
  Rabs (boxn (mv C) (vv t) i j) <= abs_boxn (mv C) (vv t) i j <= bpow radix2 100.
Proof.
  intros O [RC RT] i j I J. pose proof ebox_pos as EB. pose proof g3 as [G3 _].
  assert (CC : forall i j, (i < 3)%nat -> (j < 3)%nat -> is_finite (C i j) = true /\ Rabs (B2R (C i j) - mv C i j) <= g 3 * Rabs (mv C i j) + ebox /\ Rabs (mv C i j) <= Rabs (mv C i j) <= bpow radix2 100).
  { intros i' j' I' J'. destruct (RC i' j' I' J') as [F B]. split; [exact F|]. unfold mv. rewrite Rminus_diag_eq, Rabs_R0 by reflexivity. split; [|split; [lra|]].
    - assert (0 <= g 3 * Rabs (B2R (C i' j'))) by (apply Rmult_le_pos; [exact G3|apply Rabs_pos]). lra.
    - apply Rle_trans with (1 := B). change 2 with (bpow radix2 1). apply bpow_le. lia. }
  unfold fbox, boxn, abs_boxn. destruct (i <? 3)%nat eqn:I3; destruct (j <? 3)%nat eqn:J3.
  - apply Nat.ltb_lt in I3, J3. apply CC; auto.
  - apply Nat.ltb_lt in I3. apply Nat.ltb_ge in J3. set (k := (j - 3)%nat). assert (K : (k < 3)%nat) by (unfold k; lia). clearbody k. unfold fmmn.
    assert (D3 : dim_ok 3) by (unfold dim_ok; cbn; lra).
    destruct (fdot_err 3 (o i k) (fun l => fneg (fcrossMx t i l)) (fun l => C l k) D3 (O i k)) as [F E].
    + intros l L. destruct (cross_val t i l RT I3 L) as (F1 & E1 & B1). destruct (RC l k L K) as [F2 B2]. split; [exact F1|]. split; [exact F2|]. rewrite E1, Rabs_Ropp.
      apply Rle_trans with (bpow radix2 90 * 2); [apply Rmult_le_compat; auto using Rabs_pos|]. change 2 with (bpow radix2 1). rewrite <- bpow_plus. apply bpow_le. lia.
    + split; [exact F|]. replace (dotn 3 (vv (fun l => fneg (fcrossMx t i l))) (vv (fun l => C l k))) with (- mmn 3 (skewn (vv t)) (mv C) i k) in E.
      2: { unfold dotn, mmn, vv. rewrite <- (Rmult_1_l (sumn 3 (fun k0 => skewn _ _ _ * _))), Ropp_mult_distr_l, <- DenseN.sum_scal. apply sum_ext. intros l L. destruct (cross_val t i l RT I3 L) as (_ & E1 & _). rewrite E1. unfold mv, vv. ring. }
      replace (dotn 3 (absv (vv (fun l => fneg (fcrossMx t i l)))) (absv (vv (fun l => C l k)))) with (mmn 3 (absm (skewn (vv t))) (absm (mv C)) i k) in E.
      2: { unfold dotn, mmn, absv, absm. apply sum_ext. intros l L. destruct (cross_val t i l RT I3 L) as (_ & E1 & _). unfold vv at 2. rewrite E1, Rabs_Ropp. reflexivity. }
      split; [|split].
      * unfold ebox. replace (2 * INR 3 * eta) with (6 * eta) in E by (cbn; ring). exact E.
      * rewrite Rabs_Ropp. unfold mmn. eapply Rle_trans; [apply sum_abs|]. apply sum_mono. intros l L. rewrite Rabs_mult. unfold absm. lra.
      * apply Rle_trans with (sumn 3 (fun _ => bpow radix2 90 * 2)).
        -- apply sum_mono. intros l L. destruct (cross_val t i l RT I3 L) as (_ & _ & B1). destruct (RC l k L K) as [_ B2]. apply Rmult_le_compat; try apply Rabs_pos; assumption.
        -- rewrite sum_const. cbn [INR]. replace (bpow radix2 100) with (1024 * bpow radix2 90) by (change 1024 with (bpow radix2 10); rewrite <- bpow_plus; reflexivity). pose proof (bpow_ge_0 radix2 90). lra.
  - split; [reflexivity|]. cbn [B2R fzero]. unfold fzero. cbn [B2R]. rewrite Rminus_0_r, Rabs_R0. pose proof (bpow_ge_0 radix2 100). rewrite Rmult_0_r. lra.
  - apply Nat.ltb_ge in I3, J3. apply CC; lia.
Qed.

(** ** products with perturbed factors *)
Lemma sandwich_expand n J U i j : sandwichn n J U i j = sumn n (fun l => sumn n (fun k => J i k * U k l * J j l)).
Proof. unfold sandwichn, mmn, trn. apply sum_ext. intros l L. rewrite DenseN.sum_scal_r. reflexivity. Qed.
Lemma double_mono n f h : (forall k l, (k < n)%nat -> (l < n)%nat -> f l k <= h l k) -> sumn n (fun l => sumn n (fun k => f l k)) <= sumn n (fun l => sumn n (fun k => h l k)).
Proof. intros H. apply sum_mono. intros l L. apply sum_mono. intros k K. auto. Qed.
Lemma double_abs n f : Rabs (sumn n (fun l => sumn n (fun k => f l k))) <= sumn n (fun l => sumn n (fun k => Rabs (f l k))).
Proof. eapply Rle_trans; [apply sum_abs|]. apply sum_mono. intros l L. apply sum_abs. Qed.
Lemma double_split n c f e : sumn n (fun l => sumn n (fun k => c * f l k + e)) = c * sumn n (fun l => sumn n (fun k => f l k)) + INR n * INR n * e.
Proof.
  rewrite (sum_ext n _ (fun l => c * sumn n (fun k => f l k) + INR n * e)); [|intros l L; rewrite DenseN.sum_plus, DenseN.sum_scal, sum_const; reflexivity].
  rewrite DenseN.sum_plus, DenseN.sum_scal, sum_const. ring.
Qed.
Lemma perturbed n (Jf J a U : matn) D e (A H : R) i j : 0 <= D <= / 1000 -> 0 <= e <= 1 -> 1 <= A -> 0 <= H ->
  (forall i' k, (i' = i \/ i' = j) -> (k < n)%nat -> Rabs (Jf i' k - J i' k) <= D * a i' k + e /\ Rabs (J i' k) <= a i' k <= A) -> (forall k l, (k < n)%nat -> (l < n)%nat -> Rabs (U k l) <= H) ->
  let T := sandwichn n a (absm U) i j in let z := INR n * INR n * (4 * e * A * H) in
  Rabs (sandwichn n Jf U i j - sandwichn n J U i j) <= (2 * D + D * D) * T + z /\ sandwichn n (absm Jf) (absm U) i j <= (1 + D) * (1 + D) * T + z.
Proof.
  intros HD He HA HH HJ HU T z. unfold T, z. rewrite !sandwich_expand.
  assert (P : forall k l, (k < n)%nat -> (l < n)%nat -> let p := a i k in let q := a j l in
    Rabs (Jf i k * U k l * Jf j l - J i k * U k l * J j l) <= (2 * D + D * D) * (p * absm U k l * q) + 4 * e * A * H /\
    absm Jf i k * absm U k l * absm Jf j l <= (1 + D) * (1 + D) * (p * absm U k l * q) + 4 * e * A * H).
  { intros k l K L p q. destruct (HJ i k (or_introl eq_refl) K) as [E1 [B1 A1]]. destruct (HJ j l (or_intror eq_refl) L) as [E2 [B2 A2]]. specialize (HU k l K L). unfold absm. fold p in E1, B1, A1. fold q in E2, B2, A2.
    set (x := J i k) in *. set (y := J j l) in *. set (xf := Jf i k) in *. set (yf := Jf j l) in *. set (w := U k l) in *. clearbody x y xf yf w p q.
    pose proof (Rabs_pos x) as X0. pose proof (Rabs_pos y) as Y0. pose proof (Rabs_pos w) as W0. assert (P0 : 0 <= p) by lra. assert (Q0 : 0 <= q) by lra.
    assert (XF : Rabs xf <= (1 + D) * p + e) by (replace xf with (x + (xf - x)) by ring; eapply Rle_trans; [apply Rabs_triang|]; lra).
    assert (YF : Rabs yf <= (1 + D) * q + e) by (replace yf with (y + (yf - y)) by ring; eapply Rle_trans; [apply Rabs_triang|]; lra).
    assert (eA : 0 <= e * A) by (apply Rmult_le_pos; lra). assert (ep : 0 <= e * p) by (apply Rmult_le_pos; lra). assert (eq0 : 0 <= e * q) by (apply Rmult_le_pos; lra).
    assert (ep' : e * p <= e * A) by (apply Rmult_le_compat_l; lra). assert (eq' : e * q <= e * A) by (apply Rmult_le_compat_l; lra). assert (ee : e * e <= e * A) by (apply Rmult_le_compat_l; lra).
    assert (Dep : D * (e * p) <= / 1000 * (e * p)) by (apply Rmult_le_compat_r; lra). assert (Deq : D * (e * q) <= / 1000 * (e * q)) by (apply Rmult_le_compat_r; lra).
    assert (Dp0 : 0 <= D * p) by (apply Rmult_le_pos; lra). assert (Dq0 : 0 <= D * q) by (apply Rmult_le_pos; lra).
    assert (F : Rabs xf * Rabs yf <= (1 + D) * (1 + D) * (p * q) + 4 * e * A).
    { apply Rle_trans with (((1 + D) * p + e) * ((1 + D) * q + e)); [apply Rmult_le_compat; auto using Rabs_pos|]. 
      replace (((1 + D) * p + e) * ((1 + D) * q + e)) with ((1 + D) * (1 + D) * (p * q) + (e * p + D * (e * p) + (e * q + D * (e * q)) + e * e)) by ring. lra. }
    assert (G : Rabs (xf * yf - x * y) <= (2 * D + D * D) * (p * q) + 4 * e * A).
    { replace (xf * yf - x * y) with ((xf - x) * yf + x * (yf - y)) by ring. eapply Rle_trans; [apply Rabs_triang|]. rewrite !Rabs_mult.
      assert (G1 : Rabs (xf - x) * Rabs yf <= (D * p + e) * ((1 + D) * q + e)) by (apply Rmult_le_compat; auto using Rabs_pos).
      assert (G2 : Rabs x * Rabs (yf - y) <= p * (D * q + e)) by (apply Rmult_le_compat; auto using Rabs_pos).
      replace ((D * p + e) * ((1 + D) * q + e)) with ((D + D * D) * (p * q) + D * (e * p) + (e * q + D * (e * q)) + e * e) in G1 by ring. replace (p * (D * q + e)) with (D * (p * q) + e * p) in G2 by ring. lra. }
    assert (WH : 4 * e * A * Rabs w <= 4 * e * A * H) by (apply Rmult_le_compat_l; lra). split.
    - replace (xf * w * yf - x * w * y) with ((xf * yf - x * y) * w) by ring. rewrite Rabs_mult. pose proof (Rmult_le_compat_r (Rabs w) _ _ W0 G) as M. rewrite Rmult_plus_distr_r in M.
      replace ((2 * D + D * D) * (p * Rabs w * q)) with ((2 * D + D * D) * (p * q) * Rabs w) by ring. lra.
    - pose proof (Rmult_le_compat_r (Rabs w) _ _ W0 F) as M. rewrite Rmult_plus_distr_r in M. replace (Rabs xf * Rabs w * Rabs yf) with (Rabs xf * Rabs yf * Rabs w) by ring.
      replace ((1 + D) * (1 + D) * (p * Rabs w * q)) with ((1 + D) * (1 + D) * (p * q) * Rabs w) by ring. lra. }
  rewrite <- !double_split. split.
  - rewrite <- DenseN.sum_minus. rewrite (sum_ext n _ (fun l => sumn n (fun k => Jf i k * U k l * Jf j l - J i k * U k l * J j l))) by (intros l L; rewrite <- DenseN.sum_minus; reflexivity).
    eapply Rle_trans; [apply double_abs|]. apply double_mono. intros k l K L. apply P; auto.
  - apply double_mono. intros k l K L. apply P; auto.
Qed.

(** ** theorems *)
(** the covariance of a product is measured against T: the same product with absolute values everywhere *)
Definition scale6 (C : fmatn) (t : fvecn) (U : fmatn) : matn := sandwichn 6 (abs_boxn (mv C) (vv t)) (absm (mv U)).
Lemma dim6 : dim_ok 6. Proof. unfold dim_ok. cbn. lra. Qed.
Lemma INR6 : INR 6 = 6. Proof. cbn. lra. Qed.
Lemma fbox_fine o C t : orders_ok 3 o -> rigid_size C t -> forall i j, (i < 6)%nat -> (j < 6)%nat -> is_finite (fbox o C t i j) = true /\ Rabs (B2R (fbox o C t i j)) <= bpow radix2 101.
Proof.
  intros O RS i j I J. destruct (fbox_err o C t O RS i j I J) as (F & E & A & B). split; [exact F|]. set (x := B2R (fbox o C t i j)) in *. set (y := boxn (mv C) (vv t) i j) in *.
  replace x with (y + (x - y)) by ring. eapply Rle_trans; [apply Rabs_triang|]. set (a := abs_boxn (mv C) (vv t) i j) in *. clearbody x y a. pose proof (Rabs_pos y). pose proof g3 as [G0 G3]. pose proof u_val as UV.
  assert (G : g 3 * a <= / 1000 * a) by (apply Rmult_le_compat_r; [lra|]; apply Rle_trans with (1 := G3); rewrite UV; lra).
  assert (EB : ebox <= / 1000). { unfold ebox. pose proof eta_smaller as ES. rewrite UV in ES. lra. }
  replace (bpow radix2 101) with (2 * bpow radix2 100) by (change 2 with (bpow radix2 1); rewrite <- bpow_plus; reflexivity). assert (1 <= bpow radix2 100) by (change 1 with (bpow radix2 0); apply bpow_le; lia). lra.
Qed.
Lemma scale6_pos C t U i j : (i < 6)%nat -> (j < 6)%nat -> orders_ok 3 (fun _ _ => SAdd (SLeaf 0) (SAdd (SLeaf 1) (SLeaf 2))) -> rigid_size C t -> 0 <= scale6 C t U i j.
Proof.
  intros I J O RS. unfold scale6. rewrite sandwich_expand. apply sum_nonneg. intros l L. apply sum_nonneg. intros k K.
  destruct (fbox_err _ C t O RS i k I K) as (_ & _ & A & _). destruct (fbox_err _ C t O RS j l J L) as (_ & _ & B & _).
  apply Rmult_le_pos; [apply Rmult_le_pos|]; [exact (Rle_trans _ _ _ (Rabs_pos _) A)|apply Rabs_pos|exact (Rle_trans _ _ _ (Rabs_pos _) B)].
Qed.
Lemma order3 : orders_ok 3 (fun _ _ => SAdd (SLeaf 0) (SAdd (SLeaf 1) (SLeaf 2))). Proof. intros i j. apply Permutation_refl. Qed.
Lemma small_terms : 24 * eta * (1 + 6 * bpow radix2 101) + 2 * (36 * (4 * ebox * bpow radix2 100 * BIGE)) <= slack / 2.
Proof.
  unfold ebox, slack, BIGE. replace (bpow radix2 (-1075)) with (bpow radix2 (-700) * bpow radix2 (-375)) by (rewrite <- bpow_plus; reflexivity).
  set (s := bpow radix2 (-700)). assert (S0 : 0 <= s) by apply bpow_ge_0. clearbody s.
  replace (36 * (4 * (6 * (s * bpow radix2 (-375))) * bpow radix2 100 * bpow radix2 200)) with (s * (864 * bpow radix2 (-75))).
  2: { replace (bpow radix2 (-75)) with (bpow radix2 (-375) * bpow radix2 100 * bpow radix2 200) by (rewrite <- !bpow_plus; reflexivity). ring. }
  replace (24 * (s * bpow radix2 (-375)) * (1 + 6 * bpow radix2 101)) with (s * (24 * bpow radix2 (-375) + 144 * bpow radix2 (-274))).
  2: { replace (bpow radix2 (-274)) with (bpow radix2 (-375) * bpow radix2 101) by (rewrite <- !bpow_plus; reflexivity). ring. }
  assert (A : bpow radix2 (-75) <= / 1000000). { apply Rle_trans with (bpow radix2 (-30)); [apply bpow_le; lia|cbn; lra]. }
  assert (B : bpow radix2 (-375) <= bpow radix2 (-75)) by (apply bpow_le; lia). assert (B2 : bpow radix2 (-274) <= bpow radix2 (-75)) by (apply bpow_le; lia).
  replace (s * (24 * bpow radix2 (-375) + 144 * bpow radix2 (-274)) + 2 * (s * (864 * bpow radix2 (-75)))) with (s * (24 * bpow radix2 (-375) + 144 * bpow radix2 (-274) + 1728 * bpow radix2 (-75))) by ring.
  unfold Rdiv. apply Rmult_le_compat_l; [exact S0|]. lra.
Qed.
Theorem float_box_sandwich : forall o o1 o2 (C : fmatn) (t : fvecn) (U : fmatn), orders_ok 3 o -> orders_ok 6 o1 -> orders_ok 6 o2 -> rigid_size C t -> fine_m 6 U ->
  forall i j, (i < 6)%nat -> (j < 6)%nat ->
  is_finite (fsandwich o1 o2 (fbox o C t) U i j) = true /\
  Rabs (B2R (fsandwich o1 o2 (fbox o C t) U i j) - sandwichn 6 (boxn (mv C) (vv t)) (mv U) i j) <= 19 * u * scale6 C t U i j + slack.
Proof.
  intros o o1 o2 C t U O O1 O2 RS FU i j I J. pose proof u_val as UV. pose proof u53_pos as UP. pose proof eta_pos as EP. pose proof g3 as [G0 G3]. pose proof ebox_pos as EB0.
  assert (EB : ebox <= 1). { unfold ebox. pose proof eta_smaller as ES. rewrite UV in ES. lra. }
  assert (GT : g 3 <= / 1000) by (apply Rle_trans with (1 := G3); rewrite UV; lra).
  assert (FB : fine_mn 6 6 (fbox o C t)). { intros k l K L. destruct (fbox_fine o C t O RS k l K L) as [F B]. split; [exact F|]. apply Rle_trans with (1 := B). apply bpow_le. lia. }
  destruct (float_sandwich 6 6 o1 o2 (fbox o C t) U dim6 O1 O2 FB FU i j I J) as [F E]. split; [exact F|].
  destruct (perturbed 6 (mv (fbox o C t)) (boxn (mv C) (vv t)) (abs_boxn (mv C) (vv t)) (mv U) (g 3) ebox (bpow radix2 100) BIGE i j) as [P1 P2]; [lra|lra|change 1 with (bpow radix2 0); apply bpow_le; lia|apply bpow_ge_0| |intros k l K L; apply FU; auto|].
  { intros i' k H K. assert (I' : (i' < 6)%nat) by (destruct H as [-> | ->]; assumption). destruct (fbox_err o C t O RS i' k I' K) as (_ & E1 & A1). split; [exact E1|exact A1]. }
  pose proof (scale6_pos C t U i j I J order3 RS) as T0. fold (scale6 C t U i j) in P1, P2. set (T := scale6 C t U i j) in *. clearbody T. cbv zeta in P1, P2. rewrite INR6 in P1, P2.
  unfold sandwich_bound in E. rewrite INR6 in E. fold (sandwichn 6 (absm (mv (fbox o C t))) (absm (mv U)) i j) in E. fold (sandwichn 6 (mv (fbox o C t)) (mv U) i j) in E.
  assert (SB : sumn 6 (fun k => Rabs (mv (fbox o C t) j k)) <= 6 * bpow radix2 101).
  { rewrite <- INR6, <- sum_const. apply sum_mono. intros k K. apply (fbox_fine o C t O RS j k J K). }
  set (f := B2R (fsandwich o1 o2 (fbox o C t) U i j)) in *. set (Q := sandwichn 6 (absm (mv (fbox o C t))) (absm (mv U)) i j) in *. set (b := sandwichn 6 (mv (fbox o C t)) (mv U) i j) in *. set (x := sandwichn 6 (boxn (mv C) (vv t)) (mv U) i j) in *.
  set (Sg := sumn 6 (fun k => Rabs (mv (fbox o C t) j k))) in *. clearbody f Q b x Sg. pose proof small_terms as ST. set (z := 36 * (4 * ebox * bpow radix2 100 * BIGE)) in *.
  assert (Z0 : 0 <= z) by (unfold z; pose proof (bpow_ge_0 radix2 100); pose proof (bpow_ge_0 radix2 200); unfold BIGE; apply Rmult_le_pos; [lra|]; apply Rmult_le_pos; [apply Rmult_le_pos; [lra|assumption]|assumption]).
  replace (6 * 6 * (4 * ebox * bpow radix2 100 * BIGE)) with z in P1, P2 by (unfold z; ring). clearbody z.
  replace (f - x) with ((f - b) + (b - x)) by ring. eapply Rle_trans; [apply Rabs_triang|].
  assert (ET : 4 * 6 * eta * (1 + Sg) <= 24 * eta * (1 + 6 * bpow radix2 101)). { replace (4 * 6 * eta) with (24 * eta) by ring. apply Rmult_le_compat_l; lra. }
  assert (QL : 101 / 50 * 6 * u * Q <= 101 / 50 * 6 * u * ((1 + g 3) * (1 + g 3) * T + z)) by (apply Rmult_le_compat_l; [rewrite UV; lra|exact P2]).
  assert (GG : g 3 * g 3 <= / 1000 * g 3) by (apply Rmult_le_compat_r; lra).
  assert (K1 : (1 + g 3) * (1 + g 3) * T <= 1003 / 1000 * T). { apply Rmult_le_compat_r; [exact T0|]. lra. }
  assert (K2 : (2 * g 3 + g 3 * g 3) * T <= 62 / 10 * u * T). { apply Rmult_le_compat_r; [exact T0|]. lra. }
  assert (K3 : 101 / 50 * 6 * u * ((1 + g 3) * (1 + g 3) * T + z) <= 101 / 50 * 6 * u * (1003 / 1000 * T + z)) by (apply Rmult_le_compat_l; [rewrite UV; lra|lra]).
  assert (UT : 0 <= u * T) by (apply Rmult_le_pos; lra). assert (UZ : 101 / 50 * 6 * u * z <= 1 * z) by (apply Rmult_le_compat_r; [exact Z0|rewrite UV; lra]).
  assert (SP : 0 <= slack) by apply bpow_ge_0. replace (101 / 50 * 6 * u * (1003 / 1000 * T + z)) with (101 / 50 * 6 * (1003 / 1000) * (u * T) + 101 / 50 * 6 * u * z) in K3 by ring. lra.
Qed.
Definition compose_bound (C : fmatn) (t : fvecn) (U1 U2 : fmatn) (i j : nat) : R := u * Rabs (B2R (U1 i j)) + 21 * u * scale6 C t U2 i j + 2 * slack.
Lemma exact_le_scale o C t U i j : orders_ok 3 o -> rigid_size C t -> fine_m 6 U -> (i < 6)%nat -> (j < 6)%nat ->
  Rabs (sandwichn 6 (boxn (mv C) (vv t)) (mv U) i j) <= scale6 C t U i j <= bpow radix2 500.
Proof.
  intros O RS FU I J. unfold scale6. rewrite !sandwich_expand. split.
  - eapply Rle_trans; [apply double_abs|]. apply double_mono. intros k l K L. rewrite !Rabs_mult. destruct (fbox_err o C t O RS i k I K) as (_ & _ & A & _). destruct (fbox_err o C t O RS j l J L) as (_ & _ & B & _).
    apply Rmult_le_compat; [apply Rmult_le_pos; apply Rabs_pos|apply Rabs_pos| |exact B]. apply Rmult_le_compat_r; [apply Rabs_pos|exact A].
  - apply Rle_trans with (sumn 6 (fun _ => sumn 6 (fun _ => bpow radix2 100 * BIGE * bpow radix2 100))).
    + apply double_mono. intros k l K L. destruct (fbox_err o C t O RS i k I K) as (_ & _ & A & A2). destruct (fbox_err o C t O RS j l J L) as (_ & _ & B & B2). pose proof (Rle_trans _ _ _ (Rabs_pos _) A). pose proof (Rle_trans _ _ _ (Rabs_pos _) B).
      apply Rmult_le_compat; [apply Rmult_le_pos; [assumption|apply Rabs_pos]|assumption| |exact B2]. apply Rmult_le_compat; [assumption|apply Rabs_pos|exact A2|apply FU; auto].
    + rewrite sum_const, sum_const, INR6. unfold BIGE. rewrite <- !bpow_plus. replace (bpow radix2 500) with (bpow radix2 100 * bpow radix2 (100 + 200 + 100)) by (rewrite <- bpow_plus; reflexivity). rewrite <- Rmult_assoc. apply Rmult_le_compat_r; [apply bpow_ge_0|].
      apply Rle_trans with (bpow radix2 6); [cbn; lra|apply bpow_le; lia].
Qed.
Theorem float_compose : forall o o1 o2 (C : fmatn) (t : fvecn) (U1 U2 : fmatn), orders_ok 3 o -> orders_ok 6 o1 -> orders_ok 6 o2 -> rigid_size C t -> fine_m 6 U1 -> fine_m 6 U2 ->
  let F := fut_cov_mul o1 o2 (fbox o C t) U1 U2 in
  forall i j, (i < 6)%nat -> (j < 6)%nat ->
  is_finite (F i j) = true /\ Rabs (B2R (F i j) - (B2R (U1 i j) + sandwichn 6 (boxn (mv C) (vv t)) (mv U2) i j)) <= compose_bound C t U1 U2 i j.
Proof.
  intros o o1 o2 C t U1 U2 O O1 O2 RS F1 F2 F i j I J. unfold F, fut_cov_mul, fmaddn, compose_bound. destruct (float_box_sandwich o o1 o2 C t U2 O O1 O2 RS F2 i j I J) as [G E]. destruct (F1 i j I J) as [GU BU].
  destruct (exact_le_scale o C t U2 i j O RS F2 I J) as [XL XB]. set (s := fsandwich o1 o2 (fbox o C t) U2 i j) in *. set (a := U1 i j) in *. clearbody s a. set (T := scale6 C t U2 i j) in *. set (x := sandwichn 6 (boxn (mv C) (vv t)) (mv U2) i j) in *. clearbody T x.
  pose proof u_val as UV. pose proof u53_pos as UP. pose proof (Rabs_pos x) as X0. assert (SP : 0 <= slack <= 1) by (split; [apply bpow_ge_0|change 1 with (bpow radix2 0); apply bpow_le; lia]).
  assert (UT : 19 * u * T <= / 1000 * T) by (apply Rmult_le_compat_r; [lra|rewrite UV; lra]).
  assert (SB : Rabs (B2R s) <= 2 * T + 1). { replace (B2R s) with (x + (B2R s - x)) by ring. eapply Rle_trans; [apply Rabs_triang|]. lra. }
  destruct (fine_add a s GU G) as [ES GS]; [pose proof BIGE_1000; lra| |].
  { apply Rle_trans with (1 := SB). assert (1 <= bpow radix2 500) by (change 1 with (bpow radix2 0); apply bpow_le; lia). replace (bpow radix2 1000) with (bpow radix2 500 * bpow radix2 500) by (rewrite <- bpow_plus; reflexivity).
    assert (4 <= bpow radix2 500) by (apply Rle_trans with (bpow radix2 2); [cbn; lra|apply bpow_le; lia]). assert (4 * bpow radix2 500 <= bpow radix2 500 * bpow radix2 500) by (apply Rmult_le_compat_r; lra). lra. }
  split; [exact GS|]. rewrite ES. pose proof (rnd_sum_rel (B2R a) (B2R s) (generic_format_B2R 53 1024 a) (generic_format_B2R 53 1024 s)) as R1. set (va := B2R a) in *. set (vs := B2R s) in *. clearbody va vs.
  replace (rnd (va + vs) - (va + x)) with ((rnd (va + vs) - (va + vs)) + (vs - x)) by ring. eapply Rle_trans; [apply Rabs_triang|].
  assert (A : Rabs (va + vs) <= Rabs va + (T + (19 * u * T + slack))). { replace (va + vs) with (va + (x + (vs - x))) by ring. eapply Rle_trans; [apply Rabs_triang|]. apply Rplus_le_compat_l. eapply Rle_trans; [apply Rabs_triang|]. lra. }
  pose proof (Rmult_le_compat_l u _ _ ltac:(lra) A) as M. assert (UUT : u * (19 * u * T) <= u * (/ 1000 * T)) by (apply Rmult_le_compat_l; lra). assert (US : u * slack <= / 1000 * slack) by (apply Rmult_le_compat_r; [lra|rewrite UV; lra]).
  assert (UT0 : 0 <= u * T) by (apply Rmult_le_pos; lra). lra.
Qed.
Theorem float_compose_cov : forall o o1 o2 (C : fmatn) (t : fvecn) (U1 U2 : fmatn), orders_ok 3 o -> orders_ok 6 o1 -> orders_ok 6 o2 -> rigid_size C t -> fine_m 6 U1 -> fine_m 6 U2 ->
  covn 6 (mv U1) -> covn 6 (mv U2) ->
  let F := mv (fut_cov_mul o1 o2 (fbox o C t) U1 U2) in let b := compose_bound C t U1 U2 in
  (forall i j, (i < 6)%nat -> (j < 6)%nat -> Rabs (F i j - F j i) <= b i j + b j i) /\
  forall x, - dotn 6 (absv x) (mvn 6 b (absv x)) <= dotn 6 x (mvn 6 F x).
Proof.
  intros o o1 o2 C t U1 U2 O O1 O2 RS F1 F2 C1 C2 F b. set (G := maddn (mv U1) (sandwichn 6 (boxn (mv C) (vv t)) (mv U2))).
  assert (CG : covn 6 G) by (apply cov_add; [exact C1|apply (cov_sandwich 6 6), C2]). destruct CG as [SY PS].
  assert (H : forall i j, (i < 6)%nat -> (j < 6)%nat -> Rabs (F i j - G i j) <= b i j) by (intros i j I J; apply (float_compose o o1 o2 C t U1 U2 O O1 O2 RS F1 F2 i j I J)). split.
  - intros i j I J. pose proof (H i j I J) as H1. pose proof (H j i J I) as H2. pose proof (SY i j I J) as SE. unfold trn in SE. replace (F i j - F j i) with ((F i j - G i j) + - (F j i - G j i)) by (rewrite SE; ring).
    eapply Rle_trans; [apply Rabs_triang|]. rewrite Rabs_Ropp. lra.
  - intros x. pose proof (quadratic_off 6 F G b x H) as Q. pose proof (PS x). apply Rabs_le_inv in Q. lra.
Qed.

(** *** points *)
Lemma below4 (P : nat -> Prop) : P 0%nat -> P 1%nat -> P 2%nat -> P 3%nat -> forall i, (i < 4)%nat -> P i.
Proof. intros ? ? ? ? i H. destruct i as [|[|[|[|i]]]]; auto; lia. Qed.
Lemma boxMinus_exact p : fine_v 4 p -> fine_mn 4 6 (fboxMinus p) /\ meqn 4 6 (mv (fboxMinus p)) (boxMinusn (vv p)).
Proof.
  intros FP. pose proof (FP 0%nat ltac:(lia)) as [F0 B0]. pose proof (FP 1%nat ltac:(lia)) as [F1 B1]. pose proof (FP 2%nat ltac:(lia)) as [F2 B2]. pose proof (FP 3%nat ltac:(lia)) as [F3 B3].
  assert (BP : 0 <= BIGE) by apply bpow_ge_0.
  assert (N : forall a, is_finite a = true -> Rabs (B2R a) <= BIGE -> (is_finite (fneg a) = true /\ Rabs (B2R (fneg a)) <= BIGE) /\ B2R (fneg a) = - B2R a).
  { intros a F B. destruct (fneg_value a F) as [G E]. rewrite E, Rabs_Ropp. auto. }
  assert (Z : is_finite fzero = true /\ Rabs (B2R fzero) <= BIGE) by (split; [reflexivity|unfold fzero; cbn [B2R]; rewrite Rabs_R0; exact BP]).
  split.
  - intros i j I J. revert i I. apply below4; revert j J; apply below6; cbn [fboxMinus]; solve [exact Z|split; assumption|apply N; assumption].
  - intros i j I J. unfold mv, vv. revert i I. apply below4; revert j J; apply below6; cbn [fboxMinus boxMinusn]; solve [reflexivity|apply N; assumption].
Qed.
Theorem float_act : forall o1 o2 o3 o4 (p : fvecn) (U T P : fmatn), orders_ok 6 o1 -> orders_ok 6 o2 -> orders_ok 4 o3 -> orders_ok 4 o4 -> fine_v 4 p -> fine_m 6 U -> fine_m 4 T -> fine_m 4 P ->
  let J := boxMinusn (vv p) in
  forall i j, (i < 4)%nat -> (j < 4)%nat ->
  (is_finite (fsandwich o1 o2 (fboxMinus p) U i j) = true /\
   Rabs (B2R (fsandwich o1 o2 (fboxMinus p) U i j) - sandwichn 6 J (mv U) i j) <= sandwich_bound 6 J (mv U) i j) /\
  let F := fut_cov_act o1 o2 o3 o4 (fboxMinus p) U T P in let e := sandwichn 6 J (mv U) i j + sandwichn 4 (mv T) (mv P) i j in
  (is_finite (F i j) = true -> Rabs (B2R (F i j) - e) <= u * Rabs e + (1 + u) * (sandwich_bound 6 J (mv U) i j + sandwich_bound 4 (mv T) (mv P) i j)).
Proof.
  intros o1 o2 o3 o4 p U T P O1 O2 O3 O4 FP FU FT FPP J i j I K. destruct (boxMinus_exact p FP) as [FJ EJ].
  assert (D4 : dim_ok 4) by (unfold dim_ok; cbn; lra).
  destruct (float_sandwich 4 6 o1 o2 (fboxMinus p) U dim6 O1 O2 FJ FU i j I K) as [F1 E1].
  assert (XE : forall A : matn, mmn 6 (mmn 6 (mv (fboxMinus p)) A) (trn (mv (fboxMinus p))) i j = sandwichn 6 J A i j).
  { intros A. unfold sandwichn. apply mmn_ext; [|intros k L; unfold trn; apply EJ; auto]. intros k L. apply mmn_ext; [intros l M; apply EJ; auto|auto]. }
  assert (XA : mmn 6 (mmn 6 (absm (mv (fboxMinus p))) (absm (mv U))) (trn (absm (mv (fboxMinus p)))) i j = mmn 6 (mmn 6 (absm J) (absm (mv U))) (trn (absm J)) i j).
  { apply mmn_ext; [|intros k L; unfold trn, absm; rewrite EJ by auto; reflexivity]. intros k L. apply mmn_ext; [intros l M; unfold absm; rewrite EJ by auto; reflexivity|auto]. }
  assert (XS : sumn 6 (fun k => Rabs (mv (fboxMinus p) j k)) = sumn 6 (fun k => Rabs (J j k))) by (apply sum_ext; intros k L; rewrite EJ by auto; reflexivity).
  rewrite XE in E1. unfold sandwich_bound in E1. rewrite XA, XS in E1. fold (sandwich_bound 6 J (mv U) i j) in E1. refine (conj (conj F1 E1) _).
  intros F e FF. destruct (float_sandwich 4 4 o3 o4 T P D4 O3 O4 FT FPP i j I K) as [F2 E2]. fold (sandwichn 4 (mv T) (mv P) i j) in E2.
  unfold F, fut_cov_act, fmaddn in FF |- *. set (f1 := fsandwich o1 o2 (fboxMinus p) U i j) in *. set (f2 := fsandwich o3 o4 T P i j) in *. clearbody f1 f2. set (b1 := sandwich_bound 6 J (mv U) i j) in *. set (b2 := sandwich_bound 4 (mv T) (mv P) i j) in *. unfold e.
  set (e1 := sandwichn 6 J (mv U) i j) in *. set (e2 := sandwichn 4 (mv T) (mv P) i j) in *. clearbody b1 b2 e1 e2.
  assert (E : B2R (fadd f1 f2) = rnd (B2R f1 + B2R f2)).
  { pose proof (Bplus_correct 53 1024 _ _ mode_NE f1 f2 F1 F2) as C. cbn [round_mode] in C. destruct (Rlt_bool _ _) eqn:RL in C; [apply C|]. destruct C as [C _]. exfalso. clear - C FF.
    change (B2SF (fadd f1 f2) = binary_overflow 53 1024 mode_NE (Bsign f1)) in C. destruct (fadd f1 f2); try discriminate FF; cbn in C; discriminate C. }
  rewrite E. pose proof u53_pos as UP. pose proof (rnd_sum_rel (B2R f1) (B2R f2) (generic_format_B2R 53 1024 f1) (generic_format_B2R 53 1024 f2)) as R1. set (v1 := B2R f1) in *. set (v2 := B2R f2) in *. clearbody v1 v2.
  replace (rnd (v1 + v2) - (e1 + e2)) with ((rnd (v1 + v2) - (v1 + v2)) + ((v1 - e1) + (v2 - e2))) by ring. eapply Rle_trans; [apply Rabs_triang|]. pose proof (Rabs_triang (v1 - e1) (v2 - e2)).
  assert (A : Rabs (v1 + v2) <= Rabs (e1 + e2) + (b1 + b2)). { replace (v1 + v2) with ((e1 + e2) + ((v1 - e1) + (v2 - e2))) by ring. eapply Rle_trans; [apply Rabs_triang|]. lra. }
  pose proof (Rmult_le_compat_l u _ _ ltac:(lra) A) as M. lra.
Qed.

(** *** what is lost *)
Definition order6 : orders := fun _ _ => SAdd (SAdd (SAdd (SAdd (SAdd (SLeaf 0) (SLeaf 1)) (SLeaf 2)) (SLeaf 3)) (SLeaf 4)) (SLeaf 5).
Definition C_id : fmatn := fun i j => if Nat.eqb i j then fofZ 1 else fzero.
Definition t_refuted : fvecn := fun i => match i with 2%nat => fdiv (fofZ 17) (fofZ 7) | _ => fzero end.
Definition w_refuted (i : nat) : Z := match i with 0%nat => -17 | 4%nat => 7 | _ => 0 end%Z.
Definition U_refuted : fmatn := fun i j => fofZ (w_refuted i * w_refuted j).
Definition U_zero : fmatn := fun _ _ => fzero.
Lemma order6_ok : orders_ok 6 order6. Proof. intros i j. apply Permutation_refl. Qed.
Theorem float_compose_refuted : exists o o1 o2 (C : fmatn) (t : fvecn) (U1 U2 : fmatn), orders_ok 3 o /\ orders_ok 6 o1 /\ orders_ok 6 o2 /\ rigid_size C t /\ meqn 3 3 (mv C) In_ /\ fine_m 6 U1 /\ fine_m 6 U2 /\
  bitsym 6 U2 /\ covn 6 (mv U1) /\ covn 6 (mv U2) /\ B2R (fut_cov_mul o1 o2 (fbox o C t) U1 U2 0%nat 0%nat) < 0.
Proof.
  exists (fun _ _ => SAdd (SLeaf 0) (SAdd (SLeaf 1) (SLeaf 2))), order6, order6, C_id, t_refuted, U_zero, U_refuted.
  assert (H : 1000 <= BIGE) by (apply Rle_trans with (bpow radix2 10); [cbn; lra|apply bpow_le; lia]). assert (H9 : 1000 <= bpow radix2 90) by (apply Rle_trans with (bpow radix2 10); [cbn; lra|apply bpow_le; lia]).
  split; [exact order3|]. split; [exact order6_ok|]. split; [exact order6_ok|].
  split. { split.
    - intros i j I J. revert i I. apply below3; revert j J; apply below3; (split; [vm_compute; reflexivity|vm_compute; apply Rabs_le; lra]).
    - apply below3; (split; [vm_compute; reflexivity|apply Rle_trans with (2 := H9); vm_compute; apply Rabs_le; lra]). }
  split. { intros i j I J. revert i I. apply below3; revert j J; apply below3; vm_compute; lra. }
  split. { intros i j I J. split; [reflexivity|]. unfold U_zero, fzero. cbn [B2R]. rewrite Rabs_R0. lra. }
  split. { intros i j I J. revert i I. apply below6; revert j J; apply below6; (split; [vm_compute; reflexivity|apply Rle_trans with (2 := H); vm_compute; apply Rabs_le; lra]). }
  split. { intros i j I J. unfold U_refuted. rewrite Z.mul_comm. reflexivity. }
  split. { apply (cov_ext 6 Zn); [intros i j I J; reflexivity|apply cov_zero]. }
  split. { apply (cov_ext 6 (outern (fun i => IZR (w_refuted i)) (fun i => IZR (w_refuted i)))); [|apply cov_outer]. intros i j I J. revert i I. apply below6; revert j J; apply below6; vm_compute; lra. }
  vm_compute. lra.
Qed.
Example float_compose_hypotheses : rigid_size C_id t_refuted /\ fine_m 6 U_refuted /\ covn 6 (mv U_refuted) /\ fine_v 4 (fun _ => fofZ 2).
Proof.
  assert (H : 1000 <= BIGE) by (apply Rle_trans with (bpow radix2 10); [cbn; lra|apply bpow_le; lia]). assert (H9 : 1000 <= bpow radix2 90) by (apply Rle_trans with (bpow radix2 10); [cbn; lra|apply bpow_le; lia]).
  split. { split.
    - intros i j I J. revert i I. apply below3; revert j J; apply below3; (split; [vm_compute; reflexivity|vm_compute; apply Rabs_le; lra]).
    - apply below3; (split; [vm_compute; reflexivity|apply Rle_trans with (2 := H9); vm_compute; apply Rabs_le; lra]). }
  split. { intros i j I J. revert i I. apply below6; revert j J; apply below6; (split; [vm_compute; reflexivity|apply Rle_trans with (2 := H); vm_compute; apply Rabs_le; lra]). }
  split. { apply (cov_ext 6 (outern (fun i => IZR (w_refuted i)) (fun i => IZR (w_refuted i)))); [|apply cov_outer]. intros i j I J. revert i I. apply below6; revert j J; apply below6; vm_compute; lra. }
  intros i I. split; [vm_compute; reflexivity|apply Rle_trans with (2 := H); vm_compute; apply Rabs_le; lra].
Qed.
(** *** the exact covariance in float_compose is the one of Kin_Unc_Model *)
Lemma at66_mm6 (A B : mat6) i j : (i < 6)%nat -> (j < 6)%nat -> at66 (mm6 A B) i j = mmn 6 (at66 A) (at66 B) i j.
Proof.
  intros I J. destruct A as [[[] [] []] [[] [] []] [[] [] []] [[] [] []]], B as [[[] [] []] [[] [] []] [[] [] []] [[] [] []]].
  revert i I. apply below6; revert j J; apply below6; cbv -[Rplus Rmult Ropp Rminus IZR]; ring.
Qed.
Lemma at66_tr6 (A : mat6) i j : (i < 6)%nat -> (j < 6)%nat -> at66 (tr6 A) i j = at66 A j i.
Proof.
  intros I J. destruct A as [[[] [] []] [[] [] []] [[] [] []] [[] [] []]]. revert i I. apply below6; revert j J; apply below6; reflexivity.
Qed.
Lemma at66_madd6 (A B : mat6) i j : (i < 6)%nat -> (j < 6)%nat -> at66 (madd6 A B) i j = at66 A i j + at66 B i j.
Proof.
  intros I J. destruct A as [[[] [] []] [[] [] []] [[] [] []] [[] [] []]], B as [[[] [] []] [[] [] []] [[] [] []] [[] [] []]].
  revert i I. apply below6; revert j J; apply below6; reflexivity.
Qed.
Theorem float_compose_reference : forall (x y : utf) i j, (i < 6)%nat -> (j < 6)%nat ->
  let B := boxn (at33 (topLeft (tf_T (ut_T x)))) (at3 (topRight (tf_T (ut_T x)))) in
  at66 (ut_U (ut_mul x y)) i j = at66 (ut_U x) i j + sandwichn 6 B (at66 (ut_U y)) i j /\
  (let D := boxn (at33 (topLeft (tf_T (tf_inverse (ut_T x))))) (at3 (topRight (tf_T (tf_inverse (ut_T x))))) in at66 (ut_U (ut_inverse x)) i j = sandwichn 6 D (at66 (ut_U x)) i j) /\
  at66 (ut_U (tf_mul_ut (ut_T x) y)) i j = sandwichn 6 B (at66 (ut_U y)) i j.
Proof.
  intros x y i j I J.
  assert (K : forall T U, at66 (mm6 (mm6 (boxTimes T) U) (tr6 (boxTimes T))) i j = sandwichn 6 (boxn (at33 (topLeft T)) (at3 (topRight T))) (at66 U) i j).
  { intros T U. rewrite at66_mm6 by assumption. unfold sandwichn. apply mmn_ext.
    - intros k L. rewrite at66_mm6 by assumption. apply mmn_ext; [|reflexivity]. intros l M. symmetry. apply boxn_boxTimes; assumption.
    - intros k L. rewrite at66_tr6 by assumption. unfold trn. symmetry. apply boxn_boxTimes; assumption. }
  cbv zeta. refine (conj _ (conj _ _)).
  - unfold ut_mul. cbn [ut_U]. rewrite at66_madd6, K by assumption. reflexivity.
  - unfold ut_inverse. cbn [ut_U ut_T]. apply K.
  - unfold tf_mul_ut. cbn [ut_U]. apply K.
Qed.
