(** C118: showProgress. *)
From Coq Require Import Reals Lra Psatz.
From Flocq Require Import Core.
From Verif Require Import Float64 Round_Model Round_Proofs Nsec_Model Nsec_Proofs PTree_Model GTest_Props ShowProgress_Model.
Import ListNotations.
Open Scope R_scope.

(** k hundredths of a per cent *)
Definition percent_line (k : Z) : bytes := 13%N :: print_int (k / 100) ++ str "." ++ print_int (k mod 100 / 10) ++ print_int (k mod 10) ++ str "% complete ".
Lemma two_digits k : two (k mod 100) = print_int (k mod 100 / 10) ++ print_int (k mod 10).
Proof.
  replace (k mod 10)%Z with (k mod 100 mod 10)%Z.
  2:{ rewrite (Z.div_mod k 100) at 2 by lia. replace (100 * (k / 100) + k mod 100)%Z with (k mod 100 + (10 * (k / 100)) * 10)%Z by lia. now rewrite Z.mod_add by lia. }
  pose proof (Z.mod_pos_bound k 100 ltac:(lia)) as B. generalize dependent (k mod 100)%Z. intros z B.
  assert (A : forallb (fun i => bytes_eqb (two (Z.of_nat i)) (print_int (Z.of_nat i / 10) ++ print_int (Z.of_nat i mod 10))) (seq 0 100) = true) by (vm_compute; reflexivity).
  rewrite forallb_forall in A. specialize (A (Z.to_nat z)). rewrite Z2Nat.id in A by lia. apply bytes_eqb_eq. apply A. apply in_seq. lia.
Qed.
Definition complete_line : bytes := 13%N :: str "Complete!             " ++ [10%N].

Lemma one_c : B2R (fofZ 1) = 1 /\ is_finite (fofZ 1) = true. Proof. exact (fofZ_correct 1 ltac:(lia)). Qed.
Lemma fdiv_int d a : (Z.abs d <= 2 ^ 53)%Z -> (0 < a <= 2 ^ 53)%Z ->
  B2R (fdiv (fofZ d) (fofZ a)) = rnd (IZR d / IZR a) /\ is_finite (fdiv (fofZ d) (fofZ a)) = true.
Proof.
  intros D A. destruct (fofZ_correct d D) as [Ed Fd]. destruct (fofZ_correct a ltac:(rewrite Z.abs_eq; lia)) as [Ea Fa].
  assert (A1 : 1 <= IZR a) by (apply IZR_le; lia).
  assert (Q : Rabs (IZR d / IZR a) <= bpow radix2 53).
  { unfold Rdiv. rewrite Rabs_mult, (Rabs_pos_eq (/ IZR a)) by (apply Rlt_le, Rinv_0_lt_compat; lra). apply Rle_trans with (Rabs (IZR d)).
    - apply Rmult_le_reg_r with (IZR a); [lra|]. rewrite Rmult_assoc, Rinv_l by lra. pose proof (Rabs_pos (IZR d)). nra.
    - rewrite <- abs_IZR. rewrite <- (IZR_Zpower radix2) by lia. apply IZR_le. exact D. }
  pose proof (Bdiv_correct 53 1024 _ _ mode_NE (fofZ d) (fofZ a)) as C. rewrite Ed, Ea in C. specialize (C ltac:(lra)).
  rewrite Rlt_bool_true in C.
  2:{ apply Rle_lt_trans with (bpow radix2 53); [apply rnd_abs_le; [lia|exact Q]|apply bpow_lt; lia]. }
  destruct C as (C1 & C2 & _). unfold fdiv. rewrite C1, C2. auto.
Qed.
Lemma bp53 : bpow radix2 (-53) = / 9007199254740992. Proof. reflexivity. Qed.
(** the largest double below 1 *)
Lemma below_1 : format64 (1 - bpow radix2 (-53)).
Proof.
  replace (1 - bpow radix2 (-53)) with (IZR 9007199254740991 * bpow radix2 (-53)) by (rewrite bp53; lra). apply format_scaled; lia.
Qed.
Lemma ratio_lt d a : (0 <= d < a)%Z -> (a <= 2 ^ 53)%Z -> 0 <= IZR d / IZR a <= 1 - bpow radix2 (-53).
Proof.
  intros D A. assert (A1 : 0 < IZR a) by (apply IZR_lt; lia). assert (D0 : 0 <= IZR d) by (apply IZR_le; lia).
  assert (DA : IZR d <= IZR a - 1) by (rewrite <- minus_IZR; apply IZR_le; lia). assert (AM : IZR a <= 9007199254740992) by (apply IZR_le; exact A).
  rewrite bp53. split.
  - apply Rmult_le_pos; [auto|apply Rlt_le, Rinv_0_lt_compat; auto].
  - apply Rmult_le_reg_r with (IZR a); auto. unfold Rdiv. rewrite Rmult_assoc, Rinv_l by lra. nra.
Qed.
Lemma unit_err x : 0 <= x <= 1 -> Rabs (rnd x - x) <= bpow radix2 (-53).
Proof. intros H. replace (bpow radix2 (-53)) with (bpow radix2 (-53) * IZR 1) by ring. apply rnd_err_int; [lia|]. rewrite Rabs_pos_eq; lra. Qed.
Lemma fixed2_pos (x : f64) : is_finite x = true -> 0 <= B2R x -> Bsign x = false -> exists k, k = ZnearestE (B2R x * 100) /\ (0 <= k)%Z /\ fixed2 x = print_int (k / 100) ++ 46%N :: two (k mod 100).
Proof.
  intros F P B. assert (K : (0 <= ZnearestE (B2R x * 100))%Z).
  { apply le_IZR. pose proof (Znearest_half (fun x => negb (Z.even x)) (B2R x * 100)) as H. apply Rabs_le_inv in H.
    apply IZR_le. enough (-1 < ZnearestE (B2R x * 100))%Z by lia. apply lt_IZR. lra. }
  exists (ZnearestE (B2R x * 100)). split; auto. split; auto.
  destruct x as [s|s| |s m e p]; try discriminate F; unfold fixed2; rewrite B; rewrite Z.abs_eq by exact K; reflexivity.
Qed.
Lemma fofZ_sign z : (0 <= z <= 2 ^ 53)%Z -> Bsign (fofZ z) = false.
Proof.
  intros H. pose proof (binary_normalize_correct 53 1024 _ _ mode_NE z 0 false) as K. cbn [round_mode] in K.
  assert (E : F2R (Float radix2 z 0) = IZR z) by (unfold F2R; cbn; ring). rewrite E in K.
  rewrite (rnd_id (IZR z)) in K by (apply format_IZR; rewrite Z.abs_eq; lia). rewrite Rlt_bool_true in K.
  - destruct K as (_ & _ & K). unfold fofZ. rewrite K. destruct (Rcompare_spec (IZR z) 0) as [L|L|L]; auto. apply lt_IZR in L. lia.
  - rewrite <- abs_IZR. apply Rle_lt_trans with (IZR (2^53)); [apply IZR_le; rewrite Z.abs_eq; lia|]. rewrite (IZR_Zpower radix2) by lia. apply bpow_lt. reflexivity.
Qed.
Lemma rnd_unit x : 0 <= x <= 1 -> 0 <= rnd x <= 1.
Proof.
  intros H. split.
  - rewrite <- rnd_0. apply rnd_le. lra.
  - rewrite <- (rnd_id 1) by (apply (format_IZR 1); lia). apply rnd_le. lra.
Qed.
(** the number that is printed, for 0 <= done <= all *)
Lemma percentage d a : (0 <= d <= a)%Z -> (0 < a <= 2 ^ 53)%Z -> let p := fdiv (fofZ d) (fofZ a) in let x := fmul (fofZ 100) p in
  B2R p = rnd (IZR d / IZR a) /\ is_finite p = true /\ B2R x = rnd (100 * rnd (IZR d / IZR a)) /\ is_finite x = true /\ Bsign x = false.
Proof.
  intros D A p x. destruct (fdiv_int d a ltac:(rewrite Z.abs_eq; lia) A) as [E F]. fold p in E, F.
  assert (A1 : 0 < IZR a) by (apply IZR_lt; lia). assert (D0 : 0 <= IZR d <= IZR a) by (split; apply IZR_le; lia).
  assert (Q : 0 <= IZR d / IZR a <= 1).
  { split; [apply Rmult_le_pos; [lra|apply Rlt_le, Rinv_0_lt_compat; auto]|]. apply Rmult_le_reg_r with (IZR a); auto. unfold Rdiv. rewrite Rmult_assoc, Rinv_l by lra. lra. }
  pose proof (rnd_unit _ Q) as U. destruct (fofZ_correct 100 ltac:(lia)) as [EH FH].
  destruct (fmul_rnd (fofZ 100) p 7 FH F ltac:(lia)) as [EX FX].
  { rewrite EH, E, Rabs_pos_eq by lra. change (bpow radix2 7) with 128. lra. }
  fold x in EX, FX. rewrite EH, E in EX. repeat split; auto.
  assert (SP : Bsign p = false).
  { destruct (fofZ_correct d ltac:(rewrite Z.abs_eq; lia)) as [Ed Fd]. destruct (fofZ_correct a ltac:(rewrite Z.abs_eq; lia)) as [Ea Fa].
    pose proof (Bdiv_correct 53 1024 _ _ mode_NE (fofZ d) (fofZ a)) as C. rewrite Ed, Ea in C. specialize (C ltac:(lra)). cbn [round_mode] in C.
    rewrite Rlt_bool_true in C.
    2:{ rewrite Rabs_pos_eq by lra. apply Rle_lt_trans with 1; [lra|]. apply (bpow_lt radix2 0 1024). lia. }
    destruct C as (_ & _ & C). change (Bdiv mode_NE (fofZ d) (fofZ a)) with p in C. rewrite C by (now apply is_nan_finite). rewrite !fofZ_sign by lia. reflexivity. }
  pose proof (Bmult_correct 53 1024 _ _ mode_NE (fofZ 100) p) as C. rewrite EH, E in C. cbn [round_mode] in C. rewrite <- EX in C.
  rewrite Rlt_bool_true in C.
  2:{ rewrite <- (ext_finite x FX). pose proof (ext_finite_lt x FX). apply Rabs_lt. lra. }
  destruct C as (_ & _ & C). change (Bmult mode_NE (fofZ 100) p) with x in C. rewrite C by (now apply is_nan_finite). rewrite SP, fofZ_sign by lia. reflexivity.
Qed.

Lemma showProgress_core debug d a : (0 <= d <= a)%Z -> (0 < a <= 2 ^ 53)%Z ->
  (d = a -> showProgress2 debug d a = Text complete_line) /\
  ((d < a)%Z -> let k := ZnearestE (rnd (100 * rnd (IZR d / IZR a)) * 100) in showProgress2 debug d a = Text (percent_line k) /\ (0 <= k <= 10000)%Z /\
     Rabs (IZR k - 10000 * (IZR d / IZR a)) <= 1 / 2 + / 100000000000).
Proof.
  intros D A. destruct (percentage d a D A) as (EP & FP & EX & FX & SX).
  unfold showProgress2. rewrite (proj2 (Z.leb_gt a 0)) by lia. unfold showProgress.
  set (p := fdiv (fofZ d) (fofZ a)) in *. set (x := fmul (fofZ 100) p) in *. cbv zeta in *.
  destruct one_c as [E1 F1].
  assert (A1 : 0 < IZR a) by (apply IZR_lt; lia). assert (D0 : 0 <= IZR d <= IZR a) by (split; apply IZR_le; lia).
  assert (Q : 0 <= IZR d / IZR a <= 1).
  { split; [apply Rmult_le_pos; [lra|apply Rlt_le, Rinv_0_lt_compat; auto]|]. apply Rmult_le_reg_r with (IZR a); auto. unfold Rdiv. rewrite Rmult_assoc, Rinv_l by lra. lra. }
  pose proof (rnd_unit _ Q) as U. set (q := IZR d / IZR a) in *.
  assert (T1 : fltb p fzero = false).
  { apply Bool.not_true_is_false. rewrite fltb_ext by (auto using is_nan_finite). rewrite !ext_finite by auto. rewrite EP. change (B2R fzero) with 0. lra. }
  assert (T2 : fltb (fofZ 1) p = false).
  { apply Bool.not_true_is_false. rewrite fltb_ext by (auto using is_nan_finite). rewrite !ext_finite by auto. rewrite EP, E1. lra. }
  rewrite T1, T2, !Bool.andb_false_r. split; intros H.
  - replace (fleb (fofZ 1) p) with true; [reflexivity|]. symmetry. apply fleb_ext; auto using is_nan_finite. rewrite !ext_finite by auto. rewrite E1, EP.
    replace q with 1 by (unfold q; rewrite H; field; lra). rewrite rnd_id by (apply (format_IZR 1); lia). lra.
  - destruct (ratio_lt d a ltac:(lia) ltac:(lia)) as [_ QL]. fold q in QL.
    assert (UL : rnd q <= 1 - bpow radix2 (-53)) by (rewrite <- (rnd_id _ below_1); now apply rnd_le). pose proof (bpow_gt_0 radix2 (-53)) as BP.
    replace (fleb (fofZ 1) p) with false.
    2:{ symmetry. apply Bool.not_true_is_false. rewrite fleb_ext by (auto using is_nan_finite). rewrite !ext_finite by auto. rewrite EP, E1. lra. }
    assert (X1 : 0 <= B2R x <= 100).
    { rewrite EX. split; [rewrite <- rnd_0; apply rnd_le; lra|]. apply Rle_trans with (rnd 100); [apply rnd_le; lra|]. rewrite (rnd_id 100) by (apply (format_IZR 100); lia). lra. }
    destruct (fixed2_pos x FX (proj1 X1) SX) as (k & EK & K0 & TX). rewrite TX. rewrite EX in EK. fold q. cbv zeta. rewrite <- EK. rewrite <- EX in EK.
    assert (KH : Rabs (IZR k - B2R x * 100) <= 1 / 2).
    { rewrite EK, Rabs_minus_sym. replace (1 / 2) with (/ 2) by lra. apply Znearest_half. }
    assert (R1 : Rabs (rnd q - q) <= / 9007199254740992) by (rewrite <- bp53; now apply unit_err).
    assert (R2 : Rabs (B2R x - 100 * rnd q) <= / 9007199254740992 * 100).
    { rewrite EX, <- bp53. apply rnd_err_int; [lia|]. rewrite Rabs_pos_eq; lra. }
    apply Rabs_le_inv in KH, R1, R2. split; [|split].
    + unfold percent_line. rewrite two_digits, <- !app_assoc. cbn [app]. rewrite <- !app_assoc. reflexivity.
    + split; auto. enough (k < 10001)%Z by lia. apply lt_IZR. lra.
    + apply Rabs_le. lra.
Qed.
(** ** showProgress(done, all) for 0 <= done <= all (all at most 2^53) says Complete exactly when done = all, and otherwise prints the percentage with
    two decimals: the hundredths k differ from 10000 done / all by at most a half (and 10^-11 for rounding), in builds with and without assertions. *)
Theorem showProgress_exact debug d a : (0 <= d <= a)%Z -> (0 < a <= 2 ^ 53)%Z ->
  (d = a -> showProgress2 debug d a = Text complete_line) /\
  ((d < a)%Z -> exists k, showProgress2 debug d a = Text (percent_line k) /\ (0 <= k <= 10000)%Z /\
     Rabs (IZR k - 10000 * (IZR d / IZR a)) <= 1 / 2 + / 100000000000).
Proof. intros D A. destruct (showProgress_core debug d a D A) as [H1 H2]. split; auto. intros L. eexists. apply H2, L. Qed.
(** more work done never shows less: the printed hundredths do not decrease *)
Theorem showProgress_monotone debug d d' a : (0 <= d <= d')%Z -> (d' < a <= 2 ^ 53)%Z ->
  exists k k', showProgress2 debug d a = Text (percent_line k) /\ showProgress2 debug d' a = Text (percent_line k') /\ (k <= k')%Z.
Proof.
  intros D A. destruct (showProgress_core debug d a ltac:(lia) ltac:(lia)) as [_ H1]. destruct (showProgress_core debug d' a ltac:(lia) ltac:(lia)) as [_ H2].
  destruct (H1 ltac:(lia)) as [T1 _]. destruct (H2 ltac:(lia)) as [T2 _]. do 2 eexists. split; [exact T1|]. split; [exact T2|].
  apply Zrnd_le; [typeclasses eauto|]. apply Rmult_le_compat_r; [lra|]. apply rnd_le. apply Rmult_le_compat_l; [lra|]. apply rnd_le.
  unfold Rdiv. apply Rmult_le_compat_r; [|apply IZR_le; lia]. apply Rlt_le, Rinv_0_lt_compat. apply IZR_lt. lia.
Qed.
(** a total that is not positive is refused *)
Theorem showProgress_total debug d a : (a <= 0)%Z -> showProgress2 debug d a = Throws.
Proof. intros H. unfold showProgress2. rewrite (proj2 (Z.leb_le a 0)) by lia. reflexivity. Qed.
(** out of range: refused when assertions are compiled in; otherwise more than everything is Complete, and less than nothing is printed *)
Theorem showProgress_range d a : (Z.abs d <= 2 ^ 52)%Z -> (0 < a <= 2 ^ 52)%Z -> ~ (0 <= d <= a)%Z ->
  showProgress2 true d a = Throws /\ ((a < d)%Z -> showProgress2 false d a = Text complete_line).
Proof.
  intros D A N. destruct (fdiv_int d a ltac:(lia) ltac:(lia)) as [E F]. unfold showProgress2. rewrite (proj2 (Z.leb_gt a 0)) by lia. unfold showProgress.
  set (p := fdiv (fofZ d) (fofZ a)) in *. destruct one_c as [E1 F1]. assert (A1 : 1 <= IZR a) by (apply IZR_le; lia). cbn [andb].
  destruct (Z_lt_le_dec d 0) as [L|L].
  - split; [|lia]. replace (fltb p fzero) with true; [reflexivity|]. symmetry. apply fltb_ext; auto using is_nan_finite. rewrite !ext_finite by auto.
    rewrite E. change (B2R fzero) with 0.
    assert (Q : IZR d / IZR a <= - bpow radix2 (-52)).
    { assert (IZR d <= -1) by (apply IZR_le; lia). assert (IZR a <= 4503599627370496) by (apply IZR_le; lia).
      change (bpow radix2 (-52)) with (/ 4503599627370496). apply Rmult_le_reg_r with (IZR a); [lra|]. unfold Rdiv. rewrite Rmult_assoc, Rinv_l by lra. lra. }
    apply rnd_le in Q. rewrite rnd_opp in Q. rewrite (rnd_id (bpow radix2 (-52))) in Q.
    + pose proof (bpow_gt_0 radix2 (-52)). lra.
    + apply generic_format_bpow. unfold SpecFloat.fexp, SpecFloat.emin. lia.
  - assert (Q : 1 + bpow radix2 (-52) <= IZR d / IZR a).
    { assert (IZR a + 1 <= IZR d) by (rewrite <- plus_IZR; apply IZR_le; lia). assert (IZR a <= 4503599627370496) by (apply IZR_le; lia).
      change (bpow radix2 (-52)) with (/ 4503599627370496). apply Rmult_le_reg_r with (IZR a); [lra|]. unfold Rdiv. rewrite Rmult_assoc, Rinv_l by lra. lra. }
    apply rnd_le in Q. rewrite (rnd_id (1 + bpow radix2 (-52))) in Q.
    2:{ replace (1 + bpow radix2 (-52)) with (IZR (2 ^ 52 + 1) * bpow radix2 (-52)); [apply format_scaled; lia|].
        change (bpow radix2 (-52)) with (/ 4503599627370496). change (2 ^ 52 + 1)%Z with 4503599627370497%Z. lra. }
    pose proof (bpow_gt_0 radix2 (-52)).
    assert (T : fltb (fofZ 1) p = true) by (apply fltb_ext; auto using is_nan_finite; rewrite !ext_finite by auto; rewrite E, E1; lra).
    assert (T' : fleb (fofZ 1) p = true) by (apply fleb_ext; auto using is_nan_finite; rewrite !ext_finite by auto; rewrite E, E1; lra).
    rewrite T, T'. split; [destruct (fltb p fzero); reflexivity|reflexivity].
Qed.
(** Refuted: 100% is also shown before the work is complete (99999 of 100000), and from 2^53 on Complete is shown before. *)
Theorem showProgress_early_refuted debug : showProgress2 debug 99999 100000 = Text (13%N :: str "100.00% complete ").
Proof.
  destruct (showProgress_exact debug 99999 100000 ltac:(lia) ltac:(lia)) as [_ H]. destruct (H ltac:(lia)) as (k & T & _ & E). apply Rabs_le_inv in E.
  replace k with 10000%Z in T; [exact T|]. assert (9999 < k < 10001)%Z; [|lia]. split; apply lt_IZR; lra.
Qed.
Theorem showProgress_big_refuted debug : showProgress2 debug (2 ^ 53) (2 ^ 53 + 1) = Text complete_line.
Proof.
  assert (E : fofZ (2 ^ 53 + 1) = fofZ (2 ^ 53)) by (apply BinarySingleNaN.B2SF_inj; vm_compute; reflexivity).
  destruct (showProgress_exact debug (2 ^ 53) (2 ^ 53) ltac:(lia) ltac:(lia)) as [H _]. specialize (H eq_refl). unfold showProgress2 in *. rewrite E. exact H.
Qed.
Example showProgress_case : exists k, showProgress2 true 1 3 = Text (percent_line k) /\ k = 3333%Z.
Proof.
  destruct (showProgress_exact true 1 3 ltac:(lia) ltac:(lia)) as [_ H]. destruct (H ltac:(lia)) as (k & T & _ & E). apply Rabs_le_inv in E.
  exists k. split; auto. assert (3332 < k < 3334)%Z; [|lia]. split; apply lt_IZR; lra.
Qed.
Print Assumptions showProgress_exact.
