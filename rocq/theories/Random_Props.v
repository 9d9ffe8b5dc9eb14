(** C87: random numbers are in range; C99: seeding makes the following numbers a function of the seed. *)
From Verif Require Import Random_Model Float64 Round_Model.
From Coq Require Import Psatz.
Open Scope R_scope.

(** ** specification: what uniform() may return *)
Definition unit_interval (u : f64) : Prop := is_finite u = true /\ 0 <= B2R u < 1.

(** ** C87 *)
Lemma format_lt1 x : format64 x -> 0 <= x < 1 -> x <= 1 - / IZR (2 ^ 53).
Proof.
  intros F [H0 H1]. assert (F1 : format64 1) by (apply (format_IZR 1); lia).
  assert (P : x <= pred radix2 fexp64 1) by (apply pred_ge_gt; auto; typeclasses eauto).
  replace (pred radix2 fexp64 1) with (1 - / IZR (2 ^ 53)) in P; auto.
  replace 1 with (bpow radix2 0) at 2 by reflexivity. rewrite pred_bpow. unfold SpecFloat.fexp, SpecFloat.emin. cbn [bpow]. 
  replace (Z.max (0 - 53) (3 - 1024 - 53)) with (-53)%Z by reflexivity. reflexivity.
Qed.
Lemma mul_below d u : format64 d -> bpow radix2 (-1021) <= d -> 0 <= u <= 1 - / IZR (2 ^ 53) -> rnd (u * d) <= pred radix2 fexp64 d.
Proof.
  intros F N [U0 U]. assert (D0 : 0 < d) by (pose proof (bpow_gt_0 radix2 (-1021)); lra).
  assert (B : u * d <= d - d * bpow radix2 (-53)). { replace (bpow radix2 (-53)) with (/ IZR (2 ^ 53)) by reflexivity. nra. }
  assert (V : Valid_exp fexp64) by typeclasses eauto. assert (M : Monotone_exp fexp64) by typeclasses eauto.
  assert (G : (-1021 < mag radix2 d)%Z). { apply mag_gt_bpow. rewrite Rabs_right by lra. auto. }
  assert (FP : format64 (pred radix2 fexp64 d)) by (apply generic_format_pred; auto).
  assert (E : pred radix2 fexp64 d = pred_pos radix2 fexp64 d) by (apply pred_eq_pos; lra). unfold pred_pos in E.
  assert (HE : forall e, (-1021 <= e)%Z -> fexp64 e = (e - 53)%Z) by (intros e He; unfold SpecFloat.fexp, SpecFloat.emin; lia).
  destruct (Req_bool_spec d (bpow radix2 (mag radix2 d - 1))) as [P|P].
  - rewrite HE in E by lia. assert (X : u * d <= pred radix2 fexp64 d). { rewrite E. replace (bpow radix2 (mag radix2 d - 1 - 53)) with (d * bpow radix2 (-53)). auto. rewrite P at 1. rewrite <- bpow_plus. f_equal. }
    apply rnd_le in X. rewrite (rnd_id (pred radix2 fexp64 d)) in X by auto. auto.
  - assert (D1 : bpow radix2 (mag radix2 d - 1) < d). { pose proof (bpow_mag_le radix2 d ltac:(lra)). rewrite Rabs_right in H by lra. lra. }
    apply round_N_le_midp; auto. rewrite succ_pred by auto. rewrite E. rewrite ulp_neq_0 by lra. unfold cexp. rewrite HE by lia.
    assert (Hh : bpow radix2 (mag radix2 d - 53) = 2 * (bpow radix2 (mag radix2 d - 1) * bpow radix2 (-53))). { rewrite <- bpow_plus. replace 2 with (bpow radix2 1) by reflexivity. rewrite <- bpow_plus. f_equal. lia. }
    rewrite Hh. pose proof (bpow_gt_0 radix2 (-53)). nra.
Qed.
From Verif Require Import Round_Proofs.
From Flocq Require Import Relative Plus_error.
Lemma fin_of (x : f64) r : is_nan x = false -> ext x = clamp r -> Rabs (rnd r) < OMEGA -> is_finite x = true /\ B2R x = rnd r.
Proof. intros N E L. rewrite clamp_small in E by auto. assert (F : is_finite x = true) by (apply finite_of_ext; [auto|rewrite E; auto]). split; auto. rewrite <- ext_finite, E by auto. auto. Qed.
Lemma finite_lt (x : f64) : is_finite x = true -> Rabs (B2R x) < OMEGA. Proof. intros _. apply abs_B2R_lt_emax. Qed.
Lemma fin_inv (x : f64) r : is_finite x = true -> ext x = clamp r -> B2R x = rnd r.
Proof.
  intros F E. pose proof (ext_finite_lt x F) as L. rewrite <- (ext_finite x F). unfold clamp in E. destruct (Rlt_bool (Rabs (rnd r)) OMEGA); auto. destruct (Rlt_bool r 0); lra.
Qed.
Lemma rnd_diff_small x y : format64 x -> format64 y -> 0 <= x - y -> rnd (x - y) <= x - y \/ bpow radix2 (-1021) <= rnd (x - y).
Proof.
  intros Fx Fy P. destruct (Rle_or_lt (x - y) (bpow radix2 (-1021))) as [S|S].
  - left. rewrite rnd_id. lra. replace (x - y) with (x + - y) in * by ring. apply (FLT_format_plus_small radix2 (-1074) 53 x (- y)); auto. apply generic_format_opp; auto. rewrite Rabs_right by lra. apply S.
  - right. assert (F : format64 (bpow radix2 (-1021))). { apply generic_format_bpow. unfold SpecFloat.fexp, SpecFloat.emin. lia. }
    rewrite <- (rnd_id _ F). apply rnd_le. lra.
Qed.
(** the steps of randLU *)
Lemma randLU_steps u l h : unit_interval u -> is_finite l = true -> is_finite h = true -> B2R l <= B2R h -> is_finite (fsub h l) = true ->
  let D := B2R h - B2R l in let d := rnd D in let w := rnd (B2R u * d) in
  0 <= d /\ 0 <= w <= D /\ is_finite (randLU u l h) = true /\ B2R (randLU u l h) = rnd (w + B2R l).
Proof.
  intros [Fu Hu] Fl Fh L Fd D d w. pose proof (fsub_ext h l Fh Fl) as [N1 E1]. pose proof (fin_inv _ _ Fd E1) as Ed. fold D in Ed. fold d in Ed.
  assert (D0 : 0 <= D) by (unfold D; lra). assert (d0 : 0 <= d) by (unfold d; rewrite <- rnd_0; apply rnd_le; auto).
  assert (Fmt : format64 d) by (apply generic_format_round; typeclasses eauto). assert (Fmtl : format64 (B2R l)) by apply generic_format_B2R. assert (Fmth : format64 (B2R h)) by apply generic_format_B2R.
  assert (w0 : 0 <= w) by (unfold w; rewrite <- rnd_0; apply rnd_le; nra).
  assert (wd : w <= d). { unfold w. rewrite <- (rnd_id d Fmt) at 2. apply rnd_le. nra. }
  assert (wD : w <= D).
  { destruct (rnd_diff_small (B2R h) (B2R l) Fmth Fmtl D0) as [A|A]; fold D in A; fold d in A. lra.
    destruct (Rle_or_lt d D); [lra|]. assert (wp : w <= pred radix2 fexp64 d) by (apply mul_below; auto; split; [lra|]; apply format_lt1; auto; apply generic_format_B2R).
    assert (pD : pred radix2 fexp64 d <= D). { apply Rnot_lt_le. intros C. assert (X : rnd D <= pred radix2 fexp64 d). { rewrite <- (rnd_id (pred radix2 fexp64 d)) by (apply generic_format_pred; [typeclasses eauto|auto]). apply rnd_le. lra. } fold d in X. pose proof (pred_lt_id radix2 fexp64 d). pose proof (bpow_gt_0 radix2 (-1021)). lra. }
    lra. }
  pose proof (fmul_ext u (fsub h l) Fu Fd) as [N2 E2]. rewrite Ed in E2.
  assert (Fin2 : is_finite (fmul u (fsub h l)) = true /\ B2R (fmul u (fsub h l)) = w). { apply fin_of; auto. fold w. pose proof (finite_lt _ Fd) as Q. rewrite Ed in Q. rewrite Rabs_right in * by lra. lra. }
  destruct Fin2 as [F2 R2]. pose proof (fadd_ext (fmul u (fsub h l)) l F2 Fl) as [N3 E3]. rewrite R2 in E3.
  split; auto. split; auto. apply fin_of; auto.
  assert (B1 : B2R l <= rnd (w + B2R l)). { rewrite <- (rnd_id (B2R l)) at 1 by auto. apply rnd_le. lra. }
  assert (B2 : rnd (w + B2R l) <= B2R h). { rewrite <- (rnd_id (B2R h)) by auto. apply rnd_le. unfold D in wD. lra. }
  pose proof (finite_lt _ Fl) as Q1. pose proof (finite_lt _ Fh) as Q2. apply Rabs_lt_inv in Q1. apply Rabs_lt_inv in Q2. apply Rabs_lt. lra.
Qed.
(** in doubles: the result lies in the closed interval whenever the difference of the bounds does not overflow *)
Theorem randLU_closed_partial u l h : unit_interval u -> is_finite l = true -> is_finite h = true -> B2R l <= B2R h -> is_finite (fsub h l) = true ->
  is_finite (randLU u l h) = true /\ B2R l <= B2R (randLU u l h) <= B2R h.
Proof.
  intros U Fl Fh L Fd. destruct (randLU_steps u l h U Fl Fh L Fd) as (_ & [w0 wD] & F & ->). split; auto. split.
  - rewrite <- (rnd_id (B2R l)) at 1 by apply generic_format_B2R. apply rnd_le. lra.
  - apply Rle_trans with (rnd (B2R h)); [apply rnd_le; lra|rewrite rnd_id; [lra|apply generic_format_B2R]].
Qed.
Lemma unit_interval_test u : is_finite u = true -> fleb fzero u = true -> fltb u (fofZ 1) = true -> unit_interval u.
Proof.
  intros F A B. destruct (fofZ_correct 1 ltac:(lia)) as [E1 F1]. apply (proj1 (fleb_ext fzero u eq_refl (is_nan_finite u F))) in A. apply (proj1 (fltb_ext u (fofZ 1) (is_nan_finite u F) (is_nan_finite _ F1))) in B. rewrite (ext_finite u F) in A, B. rewrite (ext_finite _ F1), E1 in B. cbn [ext fzero B2R] in A. split; auto.
Qed.
(** the upper bound can be returned although the documentation says [lower, upper) *)
Theorem randLU_half_open_refuted : exists u l h, unit_interval u /\ B2R l < B2R h /\ is_finite (fsub h l) = true /\ randLU u l h = h.
Proof.
  exists (flit (2 ^ 53 - 1) (-53)), (flit 1 0), (flit (2 ^ 52 + 1) (-52)). split; [|split; [|split]].
  - apply unit_interval_test; vm_compute; reflexivity.
  - rewrite <- !ext_finite by (vm_compute; reflexivity). apply fltb_ext; vm_compute; reflexivity.
  - vm_compute; reflexivity.
  - apply B2SF_inj. vm_compute; reflexivity.
Qed.

(** a difference that overflows *)
Theorem randLU_overflow_refuted : exists u l h, unit_interval u /\ is_finite l = true /\ is_finite h = true /\ B2R l < B2R h /\ is_finite (randLU u l h) = false.
Proof.
  exists fhalf, (flit (-1) 1023), (flit 1 1023). split; [|split; [|split; [|split]]]; try (vm_compute; reflexivity).
  - apply unit_interval_test; vm_compute; reflexivity.
  - rewrite <- !ext_finite by (vm_compute; reflexivity). apply fltb_ext; vm_compute; reflexivity.
Qed.
(** from zero: half open for every normal upper bound *)
Theorem randLU_from_zero_partial u h : unit_interval u -> is_finite h = true -> bpow radix2 (-1021) <= B2R h -> 0 <= B2R (randLU u fzero h) < B2R h.
Proof.
  intros U Fh N. pose proof (bpow_gt_0 radix2 (-1021)) as P. assert (Fmt : format64 (B2R h)) by apply generic_format_B2R.
  assert (Fd : is_finite (fsub h fzero) = true). { pose proof (fsub_ext h fzero Fh eq_refl) as [N1 E1]. cbn [B2R fzero] in E1. rewrite Rminus_0_r in E1. refine (proj1 (fin_of _ _ N1 E1 _)). rewrite rnd_id by auto. apply finite_lt; auto. }
  destruct (randLU_steps u fzero h U eq_refl Fh ltac:(cbn [B2R fzero]; lra) Fd) as (_ & [w0 wD] & F & R). cbn [B2R fzero] in *. rewrite Rminus_0_r, (rnd_id (B2R h)) in * by auto. rewrite Rplus_0_r in R. rewrite (rnd_id (rnd _)) in R by (apply generic_format_round; typeclasses eauto). rewrite R. split; auto.
  destruct U as [Fu Hu]. assert (rnd (B2R u * B2R h) <= pred radix2 fexp64 (B2R h)) by (apply mul_below; auto; split; [lra|]; apply format_lt1; auto; apply generic_format_B2R). pose proof (pred_lt_id radix2 fexp64 (B2R h)). lra.
Qed.
(** in exact arithmetic the interval is half open *)
Theorem randLU_exact u l h : 0 <= u < 1 -> l < h -> l <= u * (h - l) + l < h.
Proof. intros. nra. Qed.
(** u = 0 gives the lower bound, and a larger u never gives a smaller number *)
Theorem randLU_monotone u v l h : unit_interval u -> unit_interval v -> is_finite l = true -> is_finite h = true -> B2R l <= B2R h -> is_finite (fsub h l) = true ->
  (B2R u = 0 -> B2R (randLU u l h) = B2R l) /\ (B2R u <= B2R v -> B2R (randLU u l h) <= B2R (randLU v l h)).
Proof.
  intros U V Fl Fh L Fd. destruct (randLU_steps u l h U Fl Fh L Fd) as (d0 & _ & _ & ->). destruct (randLU_steps v l h V Fl Fh L Fd) as (_ & _ & _ & ->). split.
  - intros ->. rewrite Rmult_0_l, rnd_0, Rplus_0_l. apply rnd_id, generic_format_B2R.
  - intros M. apply rnd_le. apply Rplus_le_compat_r. apply rnd_le. apply Rmult_le_compat_r; auto.
Qed.
(** and it is the affine map l + u (h - l) up to rounding *)
Lemma rnd_error x : Rabs (rnd x - x) <= bpow radix2 (-53) * Rabs x + bpow radix2 (-1075).
Proof.
  destruct (error_N_FLT radix2 (-1074) 53 ltac:(lia) (fun z => negb (Z.even z)) x) as (eps & eta & E1 & E2 & _ & E3). change (round radix2 (FLT_exp (-1074) 53) ZnearestE x) with (rnd x) in E3. rewrite E3. replace (x * (1 + eps) + eta - x) with (eps * x + eta) by ring.
  eapply Rle_trans. apply Rabs_triang. rewrite Rabs_mult. replace (bpow radix2 (-53)) with (/ 2 * bpow radix2 (- 53 + 1)). 2: { change (/ 2) with (bpow radix2 (-1)). rewrite <- bpow_plus. reflexivity. }
  replace (bpow radix2 (-1075)) with (/ 2 * bpow radix2 (-1074)). 2: { change (/ 2) with (bpow radix2 (-1)). rewrite <- bpow_plus. reflexivity. }
  apply Rplus_le_compat; auto. apply Rmult_le_compat_r; auto. apply Rabs_pos.
Qed.
Theorem randLU_accuracy u l h : unit_interval u -> is_finite l = true -> is_finite h = true -> B2R l <= B2R h -> is_finite (fsub h l) = true ->
  Rabs (B2R (randLU u l h) - (B2R l + B2R u * (B2R h - B2R l))) <= bpow radix2 (-51) * (B2R h - B2R l) + bpow radix2 (-53) * Rmax (Rabs (B2R l)) (Rabs (B2R h)) + bpow radix2 (-1072).
Proof.
  intros U Fl Fh L Fd. destruct (randLU_steps u l h U Fl Fh L Fd) as (d0 & [w0 wD] & _ & ->). destruct U as [_ U]. set (D := B2R h - B2R l) in *. set (d := rnd D) in *. set (w := rnd (B2R u * d)) in *.
  assert (D0 : 0 <= D) by (unfold D; lra). pose proof (rnd_error D) as E1. fold d in E1. pose proof (rnd_error (B2R u * d)) as E2. fold w in E2. pose proof (rnd_error (w + B2R l)) as E3.
  set (e := bpow radix2 (-53)) in *. set (t := bpow radix2 (-1075)) in *. replace (bpow radix2 (-51)) with (4 * e) by (unfold e; change 4 with (bpow radix2 2); rewrite <- bpow_plus; reflexivity). replace (bpow radix2 (-1072)) with (8 * t) by (unfold t; change 8 with (bpow radix2 3); rewrite <- bpow_plus; reflexivity).
  assert (He : 0 < e <= / 8). { unfold e. split. apply bpow_gt_0. change (/ 8) with (bpow radix2 (-3)). apply bpow_le. lia. } assert (Ht : 0 < t) by apply bpow_gt_0.
  assert (M : Rabs (w + B2R l) <= Rmax (Rabs (B2R l)) (Rabs (B2R h))). { unfold Rabs at 1. destruct (Rcase_abs (w + B2R l)). apply Rle_trans with (Rabs (B2R l)); [|apply Rmax_l]. rewrite Rabs_left1 by lra. lra. apply Rle_trans with (Rabs (B2R h)); [|apply Rmax_r]. unfold D in wD. rewrite Rabs_right by lra. lra. }
  set (X := Rmax _ _) in *. clearbody e t. assert (ud : 0 <= B2R u * d) by nra. rewrite (Rabs_right D) in E1 by lra. rewrite (Rabs_right (B2R u * d)) in E2 by lra.
  apply Rabs_le_inv in E1. apply Rabs_le_inv in E2. assert (E3' : Rabs (rnd (w + B2R l) - (w + B2R l)) <= e * X + t) by (eapply Rle_trans; [apply E3|]; nra). apply Rabs_le_inv in E3'.
  assert (dD : d <= 2 * D + t) by nra. assert (u1 : B2R u * d <= d) by nra.
  assert (Q : - (e * D + t) <= B2R u * (d - D) <= e * D + t) by nra. assert (e * (B2R u * d) <= e * (2 * D + t)) by nra. assert (e * t <= t) by nra.
  apply Rabs_le. replace (rnd (w + B2R l) - (B2R l + B2R u * D)) with ((rnd (w + B2R l) - (w + B2R l)) + (w - B2R u * d) + B2R u * (d - D)) by ring. nra.
Qed.

(** ** integers *)
Lemma randLUi_product u s : unit_interval u -> (1 <= s < 2 ^ 31)%Z -> is_finite (fmul u (fofZ s)) = true /\ B2R (fmul u (fofZ s)) = rnd (B2R u * IZR s) /\ 0 <= rnd (B2R u * IZR s) < IZR s.
Proof.
  intros [Fu Hu] S. destruct (fofZ_correct s ltac:(lia)) as [Es Fs]. assert (S1 : 1 <= IZR s) by (apply IZR_le; lia). assert (Fmt : format64 (IZR s)) by (apply format_IZR; lia).
  assert (B : rnd (B2R u * IZR s) <= pred radix2 fexp64 (IZR s)). { apply mul_below; auto. change 1 with (bpow radix2 0) in S1. apply Rle_trans with (bpow radix2 0); auto. apply bpow_le; lia. split; [lra|]. apply format_lt1; auto. apply generic_format_B2R. }
  pose proof (pred_lt_id radix2 fexp64 (IZR s) ltac:(lra)) as Q. assert (P : 0 <= rnd (B2R u * IZR s)) by (rewrite <- rnd_0; apply rnd_le; nra).
  pose proof (fmul_ext u (fofZ s) Fu Fs) as [N E]. rewrite Es in E. destruct (fin_of _ _ N E) as [F R]. { rewrite Rabs_right by lra. pose proof (finite_lt _ Fs) as G. rewrite Es, Rabs_right in G by lra. lra. }
  rewrite R. split; [|split]; auto; lra.
Qed.
(** ints: the documented half-open range, for every pair of ints whose difference is an int *)
Theorem randLUi_range_partial u l h : unit_interval u -> (- 2 ^ 31 <= l < h)%Z -> (h < 2 ^ 31)%Z -> (h - l < 2 ^ 31)%Z -> exists k, randLUi u l h = Some k /\ (l <= k < h)%Z.
Proof.
  intros U L H S. destruct (randLUi_product u (h - l) U ltac:(lia)) as (F & R & P0 & P1). set (x := rnd (B2R u * IZR (h - l))) in *.
  destruct (ffloor_correct (fmul u (fofZ (h - l)))) as [C1 C2]. rewrite F in C2. rewrite R in C1.
  assert (K : (0 <= Zfloor x < h - l)%Z). { split. apply Zfloor_lub; auto. apply lt_IZR. eapply Rle_lt_trans. apply Zfloor_lb. auto. }
  exists (Zfloor x + l)%Z. split; [|lia]. unfold randLUi, int_ok. replace ((- 2 ^ 31 <=? h - l) && (h - l <? 2 ^ 31))%Z with true by (symmetry; apply andb_true_iff; split; [apply Z.leb_le|apply Z.ltb_lt]; lia).
  rewrite (cast_int_integral _ (Zfloor x) 32) by (auto; cbn; lia). replace ((- 2 ^ 31 <=? Zfloor x + l) && (Zfloor x + l <? 2 ^ 31))%Z with true by (symmetry; apply andb_true_iff; split; [apply Z.leb_le|apply Z.ltb_lt]; lia). auto.
Qed.
(** otherwise the int subtraction overflows *)
Theorem randLUi_overflow u l h : (h - l >= 2 ^ 31)%Z -> randLUi u l h = None.
Proof. intros S. unfold randLUi, int_ok. replace ((- 2 ^ 31 <=? h - l) && (h - l <? 2 ^ 31))%Z with false; auto. symmetry. apply andb_false_iff. right. apply Z.ltb_ge. lia. Qed.
Theorem randLUi_range_refuted : exists l h, (- 2 ^ 31 <= l < h)%Z /\ (h < 2 ^ 31)%Z /\ forall u, randLUi u l h = None.
Proof. exists (- 2 ^ 31)%Z, (2 ^ 31 - 1)%Z. split; [lia|]. split; [lia|]. intros u. apply randLUi_overflow. lia. Qed.
(** both ends of the range occur, and a larger u never gives a smaller number *)
Theorem randLUi_ends u l h : unit_interval u -> (- 2 ^ 31 <= l < h)%Z -> (h < 2 ^ 31)%Z -> (h - l < 2 ^ 31)%Z ->
  (B2R u = 0 -> randLUi u l h = Some l) /\ (B2R u = 1 - / IZR (2 ^ 53) -> randLUi u l h = Some (h - 1)%Z).
Proof.
  intros U L H S. destruct (randLUi_product u (h - l) U ltac:(lia)) as (F & R & P0 & P1). set (x := rnd (B2R u * IZR (h - l))) in *.
  destruct (ffloor_correct (fmul u (fofZ (h - l)))) as [C1 C2]. rewrite F in C2. rewrite R in C1.
  assert (Go : forall k, (0 <= k < h - l)%Z -> IZR k <= x < IZR k + 1 -> randLUi u l h = Some (k + l)%Z).
  { intros k K B. assert (Z : Zfloor x = k) by (apply Zfloor_imp; rewrite plus_IZR; auto). unfold randLUi, int_ok. replace ((- 2 ^ 31 <=? h - l) && (h - l <? 2 ^ 31))%Z with true by (symmetry; apply andb_true_iff; split; [apply Z.leb_le|apply Z.ltb_lt]; lia).
    rewrite (cast_int_integral _ k 32) by (auto; try rewrite C1, Z; auto; cbn; lia). replace ((- 2 ^ 31 <=? k + l) && (k + l <? 2 ^ 31))%Z with true by (symmetry; apply andb_true_iff; split; [apply Z.leb_le|apply Z.ltb_lt]; lia). auto. }
  split; intros E.
  - rewrite (Go 0%Z ltac:(lia)). auto. unfold x. rewrite E, Rmult_0_l, rnd_0. lra.
  - rewrite (Go (h - l - 1)%Z ltac:(lia)). f_equal; lia. rewrite minus_IZR. split; [|lra]. rewrite <- minus_IZR. unfold x. rewrite <- (rnd_id (IZR (h - l - 1))) by (apply format_IZR; lia). apply rnd_le. rewrite E, minus_IZR. assert (B : IZR (h - l) <= IZR (2 ^ 53)) by (apply IZR_le; lia). assert (0 < IZR (2 ^ 53)) by (apply IZR_lt; reflexivity). assert (/ IZR (2 ^ 53) * IZR (h - l) <= 1). { apply Rmult_le_reg_l with (IZR (2 ^ 53)); auto. rewrite <- Rmult_assoc, Rinv_r, Rmult_1_l, Rmult_1_r by lra. auto. } lra.
Qed.
Theorem randLUi_monotone u v l h i j : unit_interval u -> unit_interval v -> (- 2 ^ 31 <= l < h)%Z -> (h < 2 ^ 31)%Z -> B2R u <= B2R v -> randLUi u l h = Some i -> randLUi v l h = Some j -> (i <= j)%Z.
Proof.
  intros U V L H M. destruct (Z_lt_ge_dec (h - l) (2 ^ 31)) as [S|S]. 2: { rewrite randLUi_overflow by lia. discriminate. }
  destruct (randLUi_product u (h - l) U ltac:(lia)) as (F & R & P0 & P1). destruct (randLUi_product v (h - l) V ltac:(lia)) as (F' & R' & P0' & P1').
  destruct (ffloor_correct (fmul u (fofZ (h - l)))) as [C1 C2]. rewrite F in C2. rewrite R in C1. destruct (ffloor_correct (fmul v (fofZ (h - l)))) as [C1' C2']. rewrite F' in C2'. rewrite R' in C1'.
  set (x := rnd (B2R u * _)) in *. set (y := rnd (B2R v * _)) in *.
  assert (Kx : (0 <= Zfloor x < h - l)%Z). { split. apply Zfloor_lub; auto. apply lt_IZR. eapply Rle_lt_trans. apply Zfloor_lb. auto. } assert (Ky : (0 <= Zfloor y < h - l)%Z). { split. apply Zfloor_lub; auto. apply lt_IZR. eapply Rle_lt_trans. apply Zfloor_lb. auto. }
  unfold randLUi, int_ok. replace ((- 2 ^ 31 <=? h - l) && (h - l <? 2 ^ 31))%Z with true by (symmetry; apply andb_true_iff; split; [apply Z.leb_le|apply Z.ltb_lt]; lia).
  rewrite (cast_int_integral _ (Zfloor x) 32) by (auto; cbn; lia). rewrite (cast_int_integral _ (Zfloor y) 32) by (auto; cbn; lia).
  destruct ((- 2 ^ 31 <=? Zfloor x + l) && (Zfloor x + l <? 2 ^ 31))%Z; try discriminate. destruct ((- 2 ^ 31 <=? Zfloor y + l) && (Zfloor y + l <? 2 ^ 31))%Z; try discriminate. intros A B; inversion A; inversion B. assert (Zfloor x <= Zfloor y)%Z; [|lia]. apply Zfloor_le. apply rnd_le. apply Rmult_le_compat_r; auto. apply IZR_le. lia.
Qed.
Example ex_unit : unit_interval fhalf /\ randLUi fhalf (-3) 4 = Some 0%Z. Proof. split. apply unit_interval_test; vm_compute; reflexivity. vm_compute; reflexivity. Qed.

(** ** C99: after seed(s), what any sequence of calls returns depends on s alone, whatever was called before *)
Theorem seed_determines {Eng Cache : Type} no_cache (seed_engine : Z -> Eng) uniform_of (normal_of : Eng -> Cache -> f64 * (Eng * Cache)) s cs r r' before before' :
  let go := run Eng Cache no_cache seed_engine uniform_of normal_of in
  fst (go (CSeed s :: cs) (snd (go before r))) = fst (go (CSeed s :: cs) (snd (go before' r'))).
Proof. intros go. unfold go. cbn [run step]. destruct (run _ _ _ _ _ _ cs _). reflexivity. Qed.
(** equal states give equal numbers: one call consumes the state its predecessor left *)
Theorem run_app {Eng Cache : Type} no_cache (seed_engine : Z -> Eng) uniform_of (normal_of : Eng -> Cache -> f64 * (Eng * Cache)) cs ds r :
  let go := run Eng Cache no_cache seed_engine uniform_of normal_of in
  fst (go (cs ++ ds) r) = fst (go cs r) ++ fst (go ds (snd (go cs r))).
Proof.
  intros go. unfold go. revert r. induction cs as [|c cs IH]; intros r; cbn [app run fst snd]; auto. destruct (step _ _ _ _ _ _ c r) as [o r']. specialize (IH r'). destruct (run _ _ _ _ _ _ (cs ++ ds) r') as [os r1] eqn:E1. destruct (run _ _ _ _ _ _ cs r') as [os2 r2] eqn:E2. cbn [fst snd] in *. rewrite IH. reflexivity.
Qed.
(** normal and randn, uniform and rand are the same functions *)
Theorem aliases {Eng Cache : Type} no_cache (seed_engine : Z -> Eng) uniform_of (normal_of : Eng -> Cache -> f64 * (Eng * Cache)) r :
  let st := step Eng Cache no_cache seed_engine uniform_of normal_of in st CNormal r = st CRandn r /\ st CUniform r = st CRand r.
Proof. split; reflexivity. Qed.
