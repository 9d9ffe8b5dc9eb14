(** C134, the numbers: the statistics Timing::print shows, computed in binary64, against the exact statistics of the
    recorded durations. *)
From Verif Require Import Bytes Float64 Timer_Model TimerTable_Model Round_Model Round_Proofs Nsec_Model Nsec_Proofs.
From Coq Require Import Psatz.
Import ListNotations.
Open Scope R_scope.

(** ** Specification: the exact statistics of a list of durations in nanoseconds *)
Definition secs (ns : Z) : R := IZR ns / 1000000000.
Definition Rsum (l : list R) : R := fold_right Rplus 0 l.
Definition total (l : list Z) : R := Rsum (map secs l).
Definition mean_sq (l : list Z) : R := Rsum (map (fun d => secs d * secs d) l) / INR (length l).
Definition mean (l : list Z) : R := total l / INR (length l).
(** the variance: the mean of the squared deviations from the mean *)
Definition variance (l : list Z) : R :=
  Rsum (map (fun d => (secs d - mean l) * (secs d - mean l)) l) / INR (length l).
(** The durations of an ordinary program: none is negative, together at most 146 years, at most 2^45 of them. *)
Definition ordinary (l : list Z) : Prop :=
  Forall (fun d => (0 <= d)%Z) l /\ (fold_right Z.add 0%Z l <= 2 ^ 62)%Z /\ (Z.of_nat (length l) <= 2 ^ 45)%Z.
Definition accumulated (l : list Z) : facc := fold_left faccAdd (map nsecToSec l) newF.
Notation u53 := (bpow radix2 (-53)).

(** ** correctly rounded operations *)
Lemma fadd_rnd x y e : is_finite x = true -> is_finite y = true -> (-1021 <= e < 1024)%Z ->
  Rabs (B2R x + B2R y) <= bpow radix2 e ->
  B2R (fadd x y) = rnd (B2R x + B2R y) /\ is_finite (fadd x y) = true.
Proof.
  intros Fx Fy He H. destruct (fadd_ext x y Fx Fy) as [N E].
  assert (L : Rabs (rnd (B2R x + B2R y)) < OMEGA).
  { apply Rle_lt_trans with (bpow radix2 e); [apply rnd_abs_le; auto; lia|apply bpow_lt; lia]. }
  rewrite clamp_small in E by exact L.
  assert (F : is_finite (fadd x y) = true) by (apply finite_of_ext; auto; rewrite E; exact L).
  rewrite <- E, ext_finite; auto.
Qed.
Lemma fsub_rnd x y e : is_finite x = true -> is_finite y = true -> (-1021 <= e < 1024)%Z ->
  Rabs (B2R x - B2R y) <= bpow radix2 e ->
  B2R (fsub x y) = rnd (B2R x - B2R y) /\ is_finite (fsub x y) = true.
Proof.
  intros Fx Fy He H. destruct (fsub_ext x y Fx Fy) as [N E].
  assert (L : Rabs (rnd (B2R x - B2R y)) < OMEGA).
  { apply Rle_lt_trans with (bpow radix2 e); [apply rnd_abs_le; auto; lia|apply bpow_lt; lia]. }
  rewrite clamp_small in E by exact L.
  assert (F : is_finite (fsub x y) = true) by (apply finite_of_ext; auto; rewrite E; exact L).
  rewrite <- E, ext_finite; auto.
Qed.
Lemma fdiv_rnd x y e : is_finite x = true -> B2R y <> 0 -> (-1021 <= e < 1024)%Z ->
  Rabs (B2R x / B2R y) <= bpow radix2 e ->
  B2R (fdiv x y) = rnd (B2R x / B2R y) /\ is_finite (fdiv x y) = true.
Proof.
  intros Fx Hy He H. unfold fdiv. pose proof (Bdiv_correct 53 1024 _ _ mode_NE x y Hy) as C. cbn [round_mode] in C.
  rewrite Rlt_bool_true in C.
  - destruct C as (C1 & C2 & _). rewrite Fx in C2. auto.
  - apply Rle_lt_trans with (bpow radix2 e); [apply rnd_abs_le; auto; lia|apply bpow_lt; lia].
Qed.
Lemma u53_val : u53 = 1 / 9007199254740992. Proof. exact p53. Qed.
Lemma u53_pos : 0 < u53. Proof. apply bpow_gt_0. Qed.
Lemma tiny_le : bpow radix2 (-1022) <= bpow radix2 (-500). Proof. apply bpow_le. lia. Qed.
Lemma rnd_nonneg x : 0 <= x -> 0 <= rnd x.
Proof. intros H. rewrite <- rnd_0. now apply rnd_le. Qed.

(** relative error of a result that is zero or not tiny *)
Definition big (x : R) : Prop := x = 0 \/ bpow radix2 (-500) <= x.
Lemma rnd_big x : big x -> Rabs (rnd x - x) <= u53 * x.
Proof.
  intros [-> | H].
  - rewrite rnd_0, Rminus_0_r, Rabs_R0. lra.
  - pose proof (bpow_gt_0 radix2 (-500)). pose proof tiny_le.
    pose proof (rnd_rel x) as R. rewrite (Rabs_pos_eq x) in R by lra. apply R. lra.
Qed.
Lemma big_nonneg x : big x -> 0 <= x.
Proof. pose proof (bpow_gt_0 radix2 (-500)). intros [-> | H0]; lra. Qed.
Lemma big_add x y : big x -> big y -> big (x + y).
Proof. pose proof (bpow_gt_0 radix2 (-500)). intros [-> | Hx] [-> | Hy]; unfold big; lra. Qed.
Lemma big_rnd x : big x -> big (rnd x).
Proof.
  intros [-> | H]; [left; apply rnd_0|right]. rewrite <- (rnd_id (bpow radix2 (-500))); [now apply rnd_le|].
  apply generic_format_bpow. unfold SpecFloat.fexp, SpecFloat.emin. lia.
Qed.

Lemma Rsum_nonneg l : Forall (fun x => 0 <= x) l -> 0 <= Rsum l.
Proof. induction 1 as [|x l H _ IH]; [apply Rle_refl|]. change (0 <= x + Rsum l). lra. Qed.
Lemma Rsum_app a b : Rsum (a ++ b) = Rsum a + Rsum b.
Proof. induction a as [|x a IH]; cbn [app]. { cbn. lra. } change (x + Rsum (a ++ b) = x + Rsum a + Rsum b). lra. Qed.

(** ** summation in binary64: n additions, each with a relative error of at most 2^-53 *)
Lemma sum_error l : Forall (fun x : f64 => is_finite x = true /\ big (B2R x)) l ->
  Rsum (map B2R l) <= bpow radix2 500 -> 2 * u53 * INR (length l) <= 1 ->
  let s := fold_left fadd l fzero in
  is_finite s = true /\ big (B2R s) /\
  Rabs (B2R s - Rsum (map B2R l)) <= 2 * u53 * INR (length l) * Rsum (map B2R l) /\
  (forall x, In x l -> B2R x <= B2R s).
Proof.
  induction l as [|x l IH] using rev_ind; intros H B U; cbn zeta.
  - cbn. repeat split; [now left| |tauto]. rewrite Rminus_0_r, Rabs_R0. lra.
  - apply Forall_app in H. destruct H as [H Hx]. apply Forall_inv in Hx. destruct Hx as [Fx Bx].
    rewrite map_app, Rsum_app in B. cbn [map Rsum fold_right] in B. rewrite Rplus_0_r in B.
    rewrite app_length, plus_INR in U. cbn [length INR] in U.
    pose proof u53_pos as UP. pose proof (big_nonneg _ Bx) as X0. pose proof (pos_INR (length l)) as NP.
    destruct IH as (F & BS & E & M); auto; [lra|lra|].
    set (s := fold_left fadd l fzero) in *. set (T := Rsum (map B2R l)) in *.
    assert (T0 : 0 <= T).
    { apply Rsum_nonneg, Forall_map. eapply Forall_impl; [|exact H]. intros y [_ Hy]. now apply big_nonneg. }
    assert (S0 : 0 <= B2R s) by now apply big_nonneg.
    assert (SB : B2R s <= 2 * T).
    { apply Rabs_le_inv in E. assert (2 * u53 * INR (length l) * T <= 1 * T) by (apply Rmult_le_compat_r; lra). lra. }
    assert (P500 : bpow radix2 500 + bpow radix2 500 <= bpow radix2 501).
    { replace (bpow radix2 501) with (bpow radix2 (1 + 500)) by (f_equal; lia). rewrite bpow_plus. change (bpow radix2 1) with 2. lra. }
    destruct (fadd_rnd s x 501) as [R1 R2]; auto; [lia|rewrite Rabs_pos_eq by lra; lra|].
    rewrite fold_left_app. cbn [fold_left]. fold s. split; auto. rewrite R1.
    assert (BB : big (B2R s + B2R x)) by now apply big_add.
    split; [now apply big_rnd|]. split.
    + rewrite map_app, Rsum_app, app_length, plus_INR. cbn [map Rsum fold_right length INR]. fold T.
      pose proof (rnd_big _ BB) as RB. apply Rabs_le_inv in RB. apply Rabs_le_inv in E.
      assert (K1 : u53 * (B2R s + B2R x) <= u53 * (2 * T + 2 * B2R x)) by (apply Rmult_le_compat_l; lra).
      assert (K2 : 0 <= 2 * u53 * INR (length l) * B2R x).
      { repeat apply Rmult_le_pos; lra. }
      apply Rabs_le. lra.
    + intros y Hy. apply in_app_or in Hy. destruct Hy as [Hy|[<-|[]]].
      * apply Rle_trans with (1 := M y Hy). rewrite <- (rnd_id (B2R s)) at 1 by apply generic_format_B2R.
        apply rnd_le. lra.
      * rewrite <- (rnd_id (B2R x)) at 1 by apply generic_format_B2R. apply rnd_le. lra.
Qed.

(** ** the samples *)
Lemma big_ge x e : (-500 <= e)%Z -> bpow radix2 e <= x -> big x.
Proof. intros He H. right. apply Rle_trans with (2 := H). apply bpow_le. exact He. Qed.
Lemma sample_error d : (0 <= d <= 2 ^ 62)%Z ->
  is_finite (nsecToSec d) = true /\ (B2R (nsecToSec d) = 0 \/ bpow radix2 (-31) <= B2R (nsecToSec d)) /\
  Rabs (B2R (nsecToSec d) - secs d) <= 4 * u53 * secs d.
Proof.
  intros Hd. destruct (nsecToSec_correct d) as [E F]; [rewrite Z.abs_eq by lia; change (2^62)%Z with 4611686018427387904%Z in Hd; change (2^63)%Z with 9223372036854775808%Z; lia|].
  split; auto. rewrite E. unfold sec_of, secs. destruct (Z.eq_dec d 0) as [-> | N].
  { change (IZR 0) with 0. rewrite !rnd_0, Rmult_0_l, rnd_0. split; auto. unfold Rdiv. rewrite Rmult_0_l, Rminus_0_r, Rabs_R0. lra. }
  assert (D1 : 1 <= IZR d) by (apply IZR_le; lia).
  pose proof u53_val as UV. pose proof c_bounds as [C1 C2].
  assert (B31 : bpow radix2 (-31) = 1 / 2147483648) by (cbn; lra).
  assert (B500 : bpow radix2 (-500) <= bpow radix2 (-31)) by (apply bpow_le; lia).
  assert (BG : forall y, 1 / 2147483648 <= y -> big y).
  { intros y Hy. right. rewrite <- B31 in Hy. lra. }
  pose proof (rnd_big (IZR d)) as R1. specialize (R1 ltac:(apply BG; lra)). apply Rabs_le_inv in R1. rewrite UV in R1.
  set (a := rnd (IZR d)) in *.
  set (k := IZR d) in *.
  assert (P1 : a * c_em9 <= (k * (1 + 1/9007199254740992)) * (1 / 1000000000 * (1 + 7 / 100000000000000000))) by (apply Rmult_le_compat; lra).
  assert (P2 : (k * (1 - 1/9007199254740992)) * (1 / 1000000000) <= a * c_em9) by (apply Rmult_le_compat; lra).
  pose proof (rnd_big (a * c_em9)) as R2. specialize (R2 ltac:(apply BG; lra)). apply Rabs_le_inv in R2. rewrite UV in *.
  split; [right; rewrite B31; lra|]. apply Rabs_le. lra.
Qed.

Lemma Rsum_err (A : Type) (f g : A -> R) c (l : list A) : Forall (fun d => Rabs (f d - g d) <= c * g d) l ->
  Rabs (Rsum (map f l) - Rsum (map g l)) <= c * Rsum (map g l).
Proof.
  induction 1 as [|d l H _ IH]. { cbn. rewrite Rminus_0_r, Rabs_R0. lra. }
  cbn [map]. change (Rabs (f d + Rsum (map f l) - (g d + Rsum (map g l))) <= c * (g d + Rsum (map g l))).
  apply Rabs_le_inv in H. apply Rabs_le_inv in IH. apply Rabs_le. lra.
Qed.

Lemma acc_fields l a : let r := fold_left faccAdd l a in
  f_cnt r = (length l + f_cnt a)%nat /\ f_sum r = fold_left fadd l (f_sum a) /\
  f_sum2 r = fold_left fadd (map (fun x => fmul x x) l) (f_sum2 a).
Proof.
  revert a. induction l as [|x l IH]; intros a; cbn zeta; [cbn; auto|]. cbn [fold_left map length].
  destruct (IH (faccAdd a x)) as (I1 & I2 & I3). rewrite I1, I2, I3. cbn [faccAdd f_cnt f_sum f_sum2]. repeat split. lia.
Qed.

(** the exact statistics of an ordinary list *)
Lemma ordinary_each l : ordinary l -> Forall (fun d => (0 <= d <= 2 ^ 62)%Z) l.
Proof.
  intros (P & S & _).
  assert (G : forall l, Forall (fun d => (0 <= d)%Z) l -> (0 <= fold_right Z.add 0%Z l)%Z /\ Forall (fun d => (d <= fold_right Z.add 0%Z l)%Z) l).
  { clear. induction 1 as [|d l H _ [I0 I1]]; [cbn; split; [lia|constructor]|]. cbn [fold_right]. split; [lia|].
    constructor; [lia|]. eapply Forall_impl; [|exact I1]. cbn beta. intros; lia. }
  destruct (G l P) as [_ G1]. apply Forall_forall. intros d Hd. rewrite Forall_forall in P, G1.
  specialize (P d Hd). specialize (G1 d Hd). lia.
Qed.
Lemma secs_nonneg d : (0 <= d)%Z -> 0 <= secs d.
Proof. intros H. unfold secs. apply Rmult_le_pos; [now apply IZR_le|lra]. Qed.
Lemma total_Z l : total l = IZR (fold_right Z.add 0%Z l) / 1000000000.
Proof.
  induction l as [|d l IH]; [cbn; lra|]. change (total (d :: l)) with (secs d + total l). rewrite IH. cbn [fold_right].
  unfold secs. rewrite plus_IZR. lra.
Qed.
Lemma total_bound l : ordinary l -> 0 <= total l <= bpow radix2 33.
Proof.
  intros O. pose proof O as (P & S & _). split.
  - apply Rsum_nonneg, Forall_map. eapply Forall_impl; [|exact P]. intros; now apply secs_nonneg.
  - rewrite total_Z. apply IZR_le in S. change (IZR (2^62)) with 4611686018427387904 in S.
    change (bpow radix2 33) with 8589934592. lra.
Qed.
Lemma squares_le l : Forall (fun d => (0 <= d)%Z) l -> Rsum (map (fun d => secs d * secs d) l) <= total l * total l.
Proof.
  induction 1 as [|d l H Hl IH]; [cbn; lra|]. change (total (d :: l)) with (secs d + total l). cbn [map].
  change (secs d * secs d + Rsum (map (fun d => secs d * secs d) l) <= (secs d + total l) * (secs d + total l)).
  pose proof (secs_nonneg d H). assert (0 <= total l).
  { apply Rsum_nonneg, Forall_map. eapply Forall_impl; [|exact Hl]. intros; now apply secs_nonneg. }
  assert (0 <= secs d * total l) by now apply Rmult_le_pos. lra.
Qed.
Lemma count_INR l : ordinary l -> 0 <= INR (length l) <= 35184372088832.
Proof.
  intros (_ & _ & N). split; [apply pos_INR|]. rewrite INR_IZR_INZ. apply IZR_le in N.
  change (IZR (2^45)) with 35184372088832 in N. exact N.
Qed.

(** ** sums of a quantity computed with a small relative error per sample *)
Lemma sum_gen (f : Z -> f64) (g : Z -> R) c l : 0 <= c <= 16 ->
  Forall (fun d => is_finite (f d) = true /\ (B2R (f d) = 0 \/ bpow radix2 (-70) <= B2R (f d)) /\
                   Rabs (B2R (f d) - g d) <= c * u53 * g d) l ->
  0 <= Rsum (map g l) <= bpow radix2 100 -> INR (length l) <= 35184372088832 ->
  let s := fold_left fadd (map f l) fzero in
  is_finite s = true /\ (B2R s = 0 \/ bpow radix2 (-70) <= B2R s) /\
  Rabs (B2R s - Rsum (map g l)) <= (2 * INR (length l) + c + 1) * u53 * Rsum (map g l).
Proof.
  intros Hc P TB NB. cbn zeta. pose proof (pos_INR (length l)) as N0. set (T := Rsum (map g l)) in *.
  pose proof u53_val as UV. pose proof u53_pos as UP.
  assert (SE : Rabs (Rsum (map B2R (map f l)) - T) <= (c * u53) * T).
  { rewrite map_map. apply Rsum_err. eapply Forall_impl; [|exact P]. cbn beta. tauto. }
  apply Rabs_le_inv in SE. set (D := Rsum (map B2R (map f l))) in *.
  assert (T4 : c * u53 * T <= 16 * u53 * T).
  { repeat apply Rmult_le_compat_r; lra. }
  assert (T5 : 16 * u53 * T <= T).
  { rewrite <- (Rmult_1_l T) at 2. apply Rmult_le_compat_r; lra. }
  assert (FB : Forall (fun x : f64 => is_finite x = true /\ big (B2R x)) (map f l)).
  { apply Forall_map. eapply Forall_impl; [|exact P]. intros d (F & B & _).
    split; auto. destruct B as [B|B]; [now left|]. apply (big_ge _ (-70)); auto. lia. }
  destruct (sum_error (map f l)) as (F & B & E & M); auto.
  { fold D. apply Rle_trans with (2 * bpow radix2 100); [lra|]. change 2 with (bpow radix2 1). rewrite <- bpow_plus. apply bpow_le. lia. }
  { rewrite map_length, UV. lra. }
  rewrite map_length in E. fold D in E. split; auto. split.
  - assert (Z : (exists x, In x (map f l) /\ bpow radix2 (-70) <= B2R x) \/ D = 0).
    { clear - P. unfold D. clear D. induction P as [|d l (_ & B & _) _ IH]; [now right|]. destruct B as [B|B].
      - destruct IH as [(x & Hx & Bx)|IH]; [left; exists x; split; auto; now right|]. right. cbn [map].
        change (B2R (f d) + Rsum (map B2R (map f l)) = 0). lra.
      - left. exists (f d). split; auto. now left. }
    destruct Z as [(x & Hx & Bx)|Z].
    + right. pose proof (M x Hx). lra.
    + left. rewrite Z in E. apply Rabs_le_inv in E. lra.
  - apply Rabs_le_inv in E. set (N := INR (length l)) in *. set (s := B2R (fold_left fadd (map f l) fzero)) in *.
    assert (D2 : D <= T + 16 * u53 * T) by lra.
    assert (K : 2 * u53 * N * D <= 2 * u53 * N * (T + 16 * u53 * T)).
    { apply Rmult_le_compat_l; auto. repeat apply Rmult_le_pos; lra. }
    assert (K2 : (32 * u53 * N) * (u53 * T) <= 1 * (u53 * T)).
    { apply Rmult_le_compat_r; [apply Rmult_le_pos; lra|]. rewrite UV. lra. }
    apply Rabs_le. lra.
Qed.

(** ** total *)
Lemma sum_spec l : ordinary l ->
  let a := accumulated l in
  f_cnt a = length l /\ is_finite (f_sum a) = true /\ (B2R (f_sum a) = 0 \/ bpow radix2 (-70) <= B2R (f_sum a)) /\
  Rabs (B2R (f_sum a) - total l) <= (2 * INR (length l) + 5) * u53 * total l.
Proof.
  intros O a. pose proof (ordinary_each l O) as P. pose proof (count_INR l O) as NB. pose proof (total_bound l O) as TB.
  unfold a, accumulated. destruct (acc_fields (map nsecToSec l) newF) as (C & S & _). rewrite C, S. cbn [newF f_cnt f_sum].
  rewrite map_length. split; [lia|].
  destruct (sum_gen nsecToSec secs 4 l) as (F & B & E); [lra| | |lra|].
  { eapply Forall_impl; [|exact P]. intros d Hd. destruct (sample_error d Hd) as (F & B & E). repeat split; auto.
    destruct B as [B|B]; auto. right. apply Rle_trans with (2 := B). apply bpow_le. lia. }
  { split; [apply TB|]. apply Rle_trans with (1 := proj2 TB). apply bpow_le. lia. }
  split; auto. split; auto. replace (2 * INR (length l) + 5) with (2 * INR (length l) + 4 + 1) by ring. exact E.
Qed.

(** ** the sum of the squares *)
Lemma square_error d : (0 <= d <= 2 ^ 62)%Z -> let x := nsecToSec d in
  is_finite (fmul x x) = true /\ (B2R (fmul x x) = 0 \/ bpow radix2 (-70) <= B2R (fmul x x)) /\
  Rabs (B2R (fmul x x) - secs d * secs d) <= 10 * u53 * (secs d * secs d).
Proof.
  intros Hd x. destruct (sample_error d Hd) as (F & B & E). fold x in F, B, E.
  pose proof (secs_nonneg d (proj1 Hd)) as S0. pose proof u53_val as UV. pose proof u53_pos as UP.
  assert (SB : secs d <= 8589934592).
  { unfold secs. destruct Hd as [_ Hd]. apply IZR_le in Hd. change (IZR (2^62)) with 4611686018427387904 in Hd. lra. }
  assert (X0 : 0 <= B2R x) by (pose proof (bpow_gt_0 radix2 (-31)); destruct B; lra).
  apply Rabs_le_inv in E. set (v := B2R x) in *. set (q := secs d) in *.
  assert (E4 : 4 * u53 * q <= q) by (rewrite <- (Rmult_1_l q) at 2; apply Rmult_le_compat_r; lra).
  assert (VB : v <= 2 * q) by lra.
  assert (VV : 0 <= v * v <= 4 * (8589934592 * 8589934592)).
  { split; [now apply Rmult_le_pos|]. apply Rle_trans with ((2 * q) * (2 * q)); [now apply Rmult_le_compat|].
    apply Rle_trans with ((2 * 8589934592) * (2 * 8589934592)); [apply Rmult_le_compat; lra|lra]. }
  destruct (fmul_rnd x x 100) as [R1 R2]; auto; [lia| |].
  { fold v. rewrite Rabs_pos_eq by apply VV. rewrite bpow_100. lra. }
  split; auto. rewrite R1. fold v.
  assert (B70 : v * v = 0 \/ bpow radix2 (-62) <= v * v).
  { destruct B as [-> | B]; [left; ring|right]. replace (-62)%Z with (-31 + -31)%Z by lia. rewrite bpow_plus.
    apply Rmult_le_compat; auto; apply bpow_ge_0. }
  assert (BG : big (v * v)) by (destruct B70 as [B70|B70]; [now left|apply (big_ge _ (-62)); auto; lia]).
  split.
  - destruct B70 as [B70|B70]; [left; rewrite B70; apply rnd_0|right].
    rewrite <- (rnd_id (bpow radix2 (-70))) by (apply generic_format_bpow; unfold SpecFloat.fexp, SpecFloat.emin; lia).
    apply rnd_le. apply Rle_trans with (2 := B70). apply bpow_le. lia.
  - pose proof (rnd_big _ BG) as RB. apply Rabs_le_inv in RB.
    assert (U1 : v * v <= (q + 4 * u53 * q) * (q + 4 * u53 * q)) by (apply Rmult_le_compat; lra).
    assert (U2 : (q - 4 * u53 * q) * (q - 4 * u53 * q) <= v * v) by (apply Rmult_le_compat; lra).
    assert (Q0 : 0 <= q * q) by now apply Rmult_le_pos.
    replace ((q + 4 * u53 * q) * (q + 4 * u53 * q)) with ((1 + 4 * u53) * (1 + 4 * u53) * (q * q)) in U1 by ring.
    replace ((q - 4 * u53 * q) * (q - 4 * u53 * q)) with ((1 - 4 * u53) * (1 - 4 * u53) * (q * q)) in U2 by ring.
    set (w := v * v) in *. set (p := q * q) in *. rewrite UV in *. apply Rabs_le. lra.
Qed.
Lemma sum2_spec l : ordinary l ->
  let a := accumulated l in let Q := Rsum (map (fun d => secs d * secs d) l) in
  is_finite (f_sum2 a) = true /\ (B2R (f_sum2 a) = 0 \/ bpow radix2 (-70) <= B2R (f_sum2 a)) /\
  0 <= Q <= bpow radix2 66 /\
  Rabs (B2R (f_sum2 a) - Q) <= (2 * INR (length l) + 11) * u53 * Q.
Proof.
  intros O a Q. pose proof (ordinary_each l O) as P. pose proof (count_INR l O) as NB. pose proof (total_bound l O) as TB.
  unfold a, accumulated. destruct (acc_fields (map nsecToSec l) newF) as (_ & _ & S). rewrite S. cbn [newF f_sum2].
  assert (QB : 0 <= Q <= bpow radix2 66).
  { split.
    - apply Rsum_nonneg, Forall_map. apply Forall_forall. intros d _. apply Rle_0_sqr.
    - apply Rle_trans with (total l * total l); [apply squares_le; apply O|]. replace 66%Z with (33 + 33)%Z by lia.
      rewrite bpow_plus. apply Rmult_le_compat; lra. }
  rewrite map_map.
  destruct (sum_gen (fun d => fmul (nsecToSec d) (nsecToSec d)) (fun d => secs d * secs d) 10 l) as (F & B & E); [lra| | |lra|].
  { eapply Forall_impl; [|exact P]. intros d Hd. apply square_error. exact Hd. }
  { fold Q. split; [apply QB|]. apply Rle_trans with (1 := proj2 QB). apply bpow_le. lia. }
  fold Q in E. split; auto. split; auto. split; auto.
  replace (2 * INR (length l) + 11) with (2 * INR (length l) + 10 + 1) by ring. exact E.
Qed.

(** ** quotients by the number of samples *)
Lemma div_count (s : f64) (n : nat) (T k : R) : (0 < n)%nat -> INR n <= 35184372088832 -> is_finite s = true ->
  (B2R s = 0 \/ bpow radix2 (-70) <= B2R s) -> 0 <= T <= bpow radix2 100 -> 0 <= k -> k * u53 <= 1 / 2 ->
  Rabs (B2R s - T) <= k * u53 * T ->
  let r := fdiv s (fofZ (Z.of_nat n)) in
  is_finite r = true /\ (B2R r = 0 \/ bpow radix2 (-120) <= B2R r) /\
  Rabs (B2R r - T / INR n) <= (k + 2) * u53 * (T / INR n).
Proof.
  intros Hn NB F B TB Hk KU E r. pose proof u53_val as UV. pose proof u53_pos as UP.
  assert (N1 : 1 <= INR n) by (change 1 with (INR 1); apply le_INR; lia).
  assert (NZ : (Z.of_nat n <= 2 ^ 45)%Z).
  { apply le_IZR. rewrite <- INR_IZR_INZ. change (IZR (2^45)) with 35184372088832. exact NB. }
  destruct (fofZ_correct (Z.of_nat n)) as [EN FN]; [change (2^45)%Z with 35184372088832%Z in NZ; change (2^53)%Z with 9007199254740992%Z; lia|].
  rewrite <- INR_IZR_INZ in EN.
  assert (S0 : 0 <= B2R s) by (pose proof (bpow_gt_0 radix2 (-70)); destruct B; lra).
  apply Rabs_le_inv in E.
  assert (I : 0 < / INR n <= 1) by (split; [apply Rinv_0_lt_compat; lra|rewrite <- Rinv_1; apply Rinv_le; lra]).
  assert (KT : k * u53 * T <= 1 / 2 * T) by (apply Rmult_le_compat_r; lra).
  set (q := B2R s / INR n). set (t := T / INR n).
  assert (Q0 : 0 <= q) by (unfold q, Rdiv; apply Rmult_le_pos; lra).
  assert (T0 : 0 <= t) by (unfold t, Rdiv; apply Rmult_le_pos; lra).
  assert (QT : - (k * u53 * t) <= q - t <= k * u53 * t).
  { unfold q, t, Rdiv. replace (k * u53 * (T * / INR n)) with (k * u53 * T * / INR n) by ring.
    replace (B2R s * / INR n - T * / INR n) with ((B2R s - T) * / INR n) by ring. split.
    - rewrite <- Ropp_mult_distr_l_reverse. apply Rmult_le_compat_r; lra.
    - apply Rmult_le_compat_r; lra. }
  assert (Q2 : q <= 2 * t).
  { assert (k * u53 * t <= 1 / 2 * t) by (apply Rmult_le_compat_r; lra). lra. }
  assert (TL : t <= T).
  { unfold t, Rdiv. rewrite <- (Rmult_1_r T) at 2. apply Rmult_le_compat_l; lra. }
  destruct (fdiv_rnd s (fofZ (Z.of_nat n)) 101) as [R1 R2]; auto.
  { rewrite EN. lra. } { lia. }
  { rewrite EN. fold q. rewrite Rabs_pos_eq by auto. replace (bpow radix2 101) with (2 * bpow radix2 100); [lra|].
    replace 101%Z with (1 + 100)%Z by lia. rewrite bpow_plus. reflexivity. }
  rewrite EN in R1. fold q in R1. fold r in R1, R2. split; auto. rewrite R1.
  assert (QB : q = 0 \/ bpow radix2 (-120) <= q).
  { destruct B as [B|B]; [left; unfold q; rewrite B; unfold Rdiv; ring|right]. unfold q, Rdiv.
    apply Rle_trans with (bpow radix2 (-70) * bpow radix2 (-45)); [rewrite <- bpow_plus; apply bpow_le; lia|].
    apply Rmult_le_compat; auto; try apply bpow_ge_0.
    rewrite <- (bpow_opp radix2 45) at 1 || idtac. change (-45)%Z with (- (45))%Z. rewrite bpow_opp. apply Rinv_le; [lra|].
    change (bpow radix2 45) with 35184372088832. exact NB. }
  split.
  - destruct QB as [-> | QB]; [left; apply rnd_0|right].
    rewrite <- (rnd_id (bpow radix2 (-120))) by (apply generic_format_bpow; unfold SpecFloat.fexp, SpecFloat.emin; lia).
    now apply rnd_le.
  - assert (BG : big q) by (destruct QB as [QB|QB]; [now left|apply (big_ge _ (-120)); auto; lia]).
    pose proof (rnd_big _ BG) as RB. apply Rabs_le_inv in RB.
    assert (u53 * q <= u53 * (2 * t)) by (apply Rmult_le_compat_l; lra).
    apply Rabs_le. lra.
Qed.

Lemma nonempty_count (l : list Z) : l <> [] -> (0 < length l)%nat.
Proof. destruct l; [congruence|cbn; lia]. Qed.
Lemma mean_spec l : ordinary l -> l <> [] ->
  let a := accumulated l in
  is_finite (fMean a) = true /\ (B2R (fMean a) = 0 \/ bpow radix2 (-120) <= B2R (fMean a)) /\
  0 <= mean l <= bpow radix2 33 /\
  Rabs (B2R (fMean a) - mean l) <= (2 * INR (length l) + 7) * u53 * mean l.
Proof.
  intros O NE a. pose proof (count_INR l O) as NB. pose proof (total_bound l O) as TB. pose proof (nonempty_count l NE) as NC.
  destruct (sum_spec l O) as (C & F & B & E). fold a in C, F, B, E.
  assert (N1 : 1 <= INR (length l)) by (change 1 with (INR 1); apply le_INR; lia).
  unfold fMean, fcnt. rewrite C.
  destruct (div_count (f_sum a) (length l) (total l) (2 * INR (length l) + 5)) as (F' & B' & E'); auto; try lra.
  { split; [apply TB|]. apply Rle_trans with (1 := proj2 TB). apply bpow_le. lia. }
  { rewrite u53_val. lra. }
  assert (I : 0 < / INR (length l) <= 1) by (split; [apply Rinv_0_lt_compat; lra|rewrite <- Rinv_1; apply Rinv_le; lra]).
  split; auto. split; auto. split.
  - unfold mean, Rdiv. split; [apply Rmult_le_pos; lra|]. rewrite <- (Rmult_1_r (bpow radix2 33)). apply Rmult_le_compat; lra.
  - fold (mean l) in E'. replace (2 * INR (length l) + 7) with (2 * INR (length l) + 5 + 2) by ring. exact E'.
Qed.
Lemma moment_spec l : ordinary l -> l <> [] ->
  let a := accumulated l in let r := fdiv (f_sum2 a) (fcnt a) in
  is_finite r = true /\ (B2R r = 0 \/ bpow radix2 (-120) <= B2R r) /\ 0 <= mean_sq l <= bpow radix2 66 /\
  Rabs (B2R r - mean_sq l) <= (2 * INR (length l) + 13) * u53 * mean_sq l.
Proof.
  intros O NE a r. pose proof (count_INR l O) as NB. pose proof (nonempty_count l NE) as NC.
  destruct (sum_spec l O) as (C & _). fold a in C.
  destruct (sum2_spec l O) as (F & B & QB & E). fold a in F, B, E.
  assert (N1 : 1 <= INR (length l)) by (change 1 with (INR 1); apply le_INR; lia).
  unfold r, fcnt. rewrite C.
  destruct (div_count (f_sum2 a) (length l) (Rsum (map (fun d => secs d * secs d) l)) (2 * INR (length l) + 11)) as (F' & B' & E'); auto; try lra.
  { split; [apply QB|]. apply Rle_trans with (1 := proj2 QB). apply bpow_le. lia. }
  { rewrite u53_val. lra. }
  assert (I : 0 < / INR (length l) <= 1) by (split; [apply Rinv_0_lt_compat; lra|rewrite <- Rinv_1; apply Rinv_le; lra]).
  split; auto. split; auto. split.
  - unfold mean_sq, Rdiv. split; [apply Rmult_le_pos; lra|]. rewrite <- (Rmult_1_r (bpow radix2 66)). apply Rmult_le_compat; lra.
  - fold (mean_sq l) in E'. replace (2 * INR (length l) + 13) with (2 * INR (length l) + 11 + 2) by ring. exact E'.
Qed.

(** the usual identity: the variance is the mean square minus the square of the mean *)
Lemma variance_identity l : l <> [] -> variance l = mean_sq l - mean l * mean l.
Proof.
  intros NE. pose proof (nonempty_count l NE) as NC.
  assert (N1 : INR (length l) <> 0) by (apply not_0_INR; lia).
  assert (G : forall m, Rsum (map (fun d => (secs d - m) * (secs d - m)) l) =
              Rsum (map (fun d => secs d * secs d) l) - 2 * m * total l + INR (length l) * (m * m)).
  { intros m. clear. induction l as [|d l IH]; [cbn; lra|]. cbn [map length]. rewrite S_INR.
    change (total (d :: l)) with (secs d + total l).
    change ((secs d - m) * (secs d - m) + Rsum (map (fun d => (secs d - m) * (secs d - m)) l) =
            secs d * secs d + Rsum (map (fun d => secs d * secs d) l) - 2 * m * (secs d + total l) + (INR (length l) + 1) * (m * m)).
    rewrite IH. ring. }
  unfold variance. rewrite G. unfold mean_sq, mean. field. exact N1.
Qed.
Lemma variance_nonneg l : 0 <= variance l.
Proof.
  unfold variance. apply Rmult_le_pos.
  - apply Rsum_nonneg, Forall_map, Forall_forall. intros d _. apply Rle_0_sqr.
  - destruct l as [|d l]; [cbn; rewrite Rinv_0; lra|]. apply Rlt_le, Rinv_0_lt_compat. apply lt_0_INR. cbn. lia.
Qed.
Lemma mean_sq_pos l : ordinary l -> mean_sq l = 0 \/ bpow radix2 (-110) <= mean_sq l.
Proof.
  intros O. pose proof (count_INR l O) as NB. pose proof O as (P & _ & _).
  assert (Z : Rsum (map (fun d => secs d * secs d) l) = 0 \/ 1 / 1000000000000000000 <= Rsum (map (fun d => secs d * secs d) l)).
  { clear - P. induction P as [|d l H Hl IH]; [now left|]. cbn [map].
    change (secs d * secs d + Rsum (map (fun d => secs d * secs d) l) = 0 \/ 1 / 1000000000000000000 <= secs d * secs d + Rsum (map (fun d => secs d * secs d) l)).
    assert (0 <= Rsum (map (fun d => secs d * secs d) l)) by (apply Rsum_nonneg, Forall_map, Forall_forall; intros e _; apply Rle_0_sqr).
    destruct (Z.eq_dec d 0) as [-> | N].
    - assert (S0 : secs 0 = 0) by (unfold secs; lra). rewrite !S0, !Rmult_0_l, !Rplus_0_l. exact IH.
    - right. assert (1 <= IZR d) by (apply IZR_le; lia). unfold secs at 1 2.
      assert (1 / 1000000000 * (1 / 1000000000) <= IZR d / 1000000000 * (IZR d / 1000000000)) by (apply Rmult_le_compat; lra). lra. }
  unfold mean_sq. destruct l as [|d l0] eqn:EL; [left; cbn; unfold Rdiv; ring|]. rewrite <- EL in *.
  assert (N1 : 1 <= INR (length l)) by (change 1 with (INR 1); apply le_INR; subst l; cbn; lia).
  destruct Z as [-> | Z]; [left; unfold Rdiv; ring|right].
  apply Rle_trans with (1 / 1000000000000000000 * bpow radix2 (-45)).
  - replace (-110)%Z with (-65 + -45)%Z by lia. rewrite bpow_plus. apply Rmult_le_compat_r; [apply bpow_ge_0|].
    change (bpow radix2 (-65)) with (/ 36893488147419103232). lra.
  - unfold Rdiv. apply Rmult_le_compat; [lra|apply bpow_ge_0|exact Z|]. change (-45)%Z with (- (45))%Z. rewrite bpow_opp.
    apply Rinv_le; [lra|]. change (bpow radix2 45) with 35184372088832. apply NB.
Qed.

(** ** variance: the rounding errors are relative to the mean square, not to the variance *)
Lemma variance_spec l : ordinary l -> l <> [] ->
  let a := accumulated l in
  is_finite (fVariance a) = true /\ Rabs (B2R (fVariance a)) <= bpow radix2 68 /\
  (mean_sq l = 0 -> B2R (fVariance a) = 0) /\
  Rabs (B2R (fVariance a) - variance l) <= (7 * INR (length l) + 34) * u53 * mean_sq l.
Proof.
  intros O NE a. pose proof (count_INR l O) as NB. pose proof u53_val as UV. pose proof u53_pos as UP.
  destruct (mean_spec l O NE) as (F1 & B1 & M1 & E1). destruct (moment_spec l O NE) as (F2 & B2 & M2 & E2).
  fold a in F1, B1, E1, F2, B2, E2. pose proof (variance_identity l NE) as ID. pose proof (variance_nonneg l) as V0.
  pose proof (mean_sq_pos l O) as MP.
  set (n := INR (length l)) in *. set (m := mean l) in *. set (M := mean_sq l) in *. set (V := variance l) in *.
  unfold fVariance. set (mom := fdiv (f_sum2 a) (fcnt a)) in *. set (g := fMean a) in *.
  assert (mM : m * m <= M) by lra. assert (m0 : 0 <= m * m) by (apply Rle_0_sqr).
  apply Rabs_le_inv in E1. apply Rabs_le_inv in E2.
  assert (TH : 0 <= (2 * n + 7) * u53 <= 1 / 100) by (rewrite UV; lra).
  set (th := (2 * n + 7) * u53) in *.
  assert (TM : th * m <= 1 / 100 * m) by (apply Rmult_le_compat_r; lra).
  assert (G0 : 0 <= B2R g <= m + th * m) by lra.
  assert (U1 : B2R g * B2R g <= (m + th * m) * (m + th * m)) by (apply Rmult_le_compat; lra).
  assert (U2 : (m - th * m) * (m - th * m) <= B2R g * B2R g) by (apply Rmult_le_compat; lra).
  replace ((m + th * m) * (m + th * m)) with (m * m + (2 * th + th * th) * (m * m)) in U1 by ring.
  replace ((m - th * m) * (m - th * m)) with (m * m - (2 * th - th * th) * (m * m)) in U2 by ring.
  assert (TT : th * th <= 1 / 100 * th) by (apply Rmult_le_compat_r; lra).
  assert (T2 : (th * th) * (m * m) <= 1 / 100 * th * (m * m)) by (apply Rmult_le_compat_r; lra).
  assert (T3 : 0 <= th * (m * m)) by (apply Rmult_le_pos; lra).
  assert (T4 : th * (m * m) <= 1 / 100 * (m * m)) by (apply Rmult_le_compat_r; lra).
  assert (T5 : 0 <= th * th * (m * m)) by (apply Rmult_le_pos; [apply Rmult_le_pos|]; lra).
  assert (GG : B2R g * B2R g <= 2 * (m * m)) by lra.
  assert (GD : Rabs (B2R g * B2R g - m * m) <= 201 / 100 * th * (m * m)) by (apply Rabs_le; lra).
  apply Rabs_le_inv in GD.
  assert (P66 : bpow radix2 66 = 73786976294838206464) by reflexivity. assert (P68 : bpow radix2 68 = 4 * 73786976294838206464) by (cbn; lra).
  destruct (fmul_rnd g g 100) as [R1 R2]; auto; [lia| |].
  { rewrite Rabs_pos_eq by (apply Rle_0_sqr). rewrite bpow_100. lra. }
  assert (BG : big (B2R g * B2R g)).
  { destruct B1 as [-> | B1]; [left; ring|right]. apply Rle_trans with (bpow radix2 (-120) * bpow radix2 (-120)).
    - rewrite <- bpow_plus. apply bpow_le. lia.
    - apply Rmult_le_compat; auto; apply bpow_ge_0. }
  pose proof (rnd_big _ BG) as RB. rewrite <- R1 in RB. apply Rabs_le_inv in RB.
  set (msq := fmul g g) in *.
  assert (U3 : u53 * (B2R g * B2R g) <= u53 * (2 * (m * m))) by (apply Rmult_le_compat_l; lra).
  assert (MS : Rabs (B2R msq - m * m) <= (201 / 100 * (2 * n + 7) + 2) * u53 * (m * m)) by (apply Rabs_le; unfold th in *; lra).
  assert (MS2 : (201 / 100 * (2 * n + 7) + 2) * u53 * (m * m) <= (5 * n + 18) * u53 * M).
  { apply Rmult_le_compat; [| |apply Rmult_le_compat_r; lra|exact mM]; [apply Rmult_le_pos; lra|lra]. }
  apply Rabs_le_inv in MS.
  assert (DV : Rabs ((B2R mom - B2R msq) - V) <= (7 * n + 31) * u53 * M) by (apply Rabs_le; lra).
  assert (KM : (7 * n + 31) * u53 * M <= 1 / 10 * M) by (apply Rmult_le_compat_r; [lra|rewrite UV; lra]).
  apply Rabs_le_inv in DV.
  assert (DB : Rabs (B2R mom - B2R msq) <= 3 / 2 * M) by (apply Rabs_le; lra).
  destruct (fsub_rnd mom msq 100) as [R3 R4]; auto; [lia|apply Rle_trans with (1 := DB); rewrite bpow_100; lra|].
  split; auto. rewrite R3. set (dl := B2R mom - B2R msq) in *.
  assert (RD : Rabs (rnd dl - dl) <= 2 * u53 * M).
  { destruct (Rle_or_lt (bpow radix2 (-1022)) (Rabs dl)) as [L|L].
    - apply Rle_trans with (1 := rnd_rel dl L). assert (u53 * Rabs dl <= u53 * (3 / 2 * M)) by (apply Rmult_le_compat_l; lra).
      assert (0 <= u53 * M) by (apply Rmult_le_pos; lra). lra.
    - destruct MP as [MZ|MP].
      + assert (Z : dl = 0) by (apply Rabs_le_inv in DB; lra). rewrite Z, rnd_0, Rminus_0_r, Rabs_R0, MZ. lra.
      + assert (RA : Rabs (rnd dl) <= bpow radix2 (-1021)).
        { apply rnd_abs_le; [lia|]. apply Rlt_le, Rlt_le_trans with (1 := L). apply bpow_le. lia. }
        assert (L2 : Rabs dl <= bpow radix2 (-1021)).
        { apply Rlt_le, Rlt_le_trans with (1 := L). apply bpow_le. lia. }
        assert (S : bpow radix2 (-1021) <= u53 * M).
        { apply Rle_trans with (u53 * bpow radix2 (-110)); [rewrite <- bpow_plus; apply bpow_le; lia|].
          apply Rmult_le_compat_l; lra. }
        apply Rabs_le_inv in RA. apply Rabs_le_inv in L2. apply Rabs_le. lra. }
  apply Rabs_le_inv in RD. apply Rabs_le_inv in DB.
  assert (UM : 2 * u53 * M <= 1 / 10 * M) by (apply Rmult_le_compat_r; [lra|rewrite UV; lra]).
  assert (UM0 : 0 <= u53 * M) by (apply Rmult_le_pos; lra).
  split; [apply Rabs_le; lra|]. split; [intros Z; rewrite Z in *; lra|]. apply Rabs_le. lra.
Qed.

(** ** signs: no statistic is a negative zero *)
Lemma fadd_plus x y : is_finite (fadd x y) = true -> is_finite x = true -> is_finite y = true ->
  Bsign x = false -> Bsign y = false -> 0 <= B2R x -> 0 <= B2R y -> Bsign (fadd x y) = false.
Proof.
  intros F Fx Fy Sx Sy X0 Y0. unfold fadd in *. pose proof (Bplus_correct 53 1024 _ _ mode_NE x y Fx Fy) as H.
  destruct (Rlt_bool_spec (Rabs (round radix2 (SpecFloat.fexp 53 1024) (round_mode mode_NE) (B2R x + B2R y))) OMEGA) as [_|_].
  - destruct H as (_ & _ & ->). destruct (Rcompare_spec (B2R x + B2R y) 0); auto; [lra|]. now rewrite Sx.
  - destruct H as [H _]. destruct (Bplus mode_NE x y); try discriminate.
Qed.
Lemma sum_sign l : forall a, Forall (fun x : f64 => is_finite x = true /\ Bsign x = false /\ 0 <= B2R x) l ->
  Bsign a = false -> 0 <= B2R a -> is_finite (fold_left fadd l a) = true -> Bsign (fold_left fadd l a) = false.
Proof.
  induction l as [|x l IH] using rev_ind; intros a H Sa A0 F; [exact Sa|].
  rewrite fold_left_app in *. cbn [fold_left] in *. apply Forall_app in H. destruct H as [H Hx]. apply Forall_inv in Hx.
  destruct Hx as (Fx & Sx & X0). set (s := fold_left fadd l a) in *.
  assert (Fs : is_finite s = true).
  { destruct s as [b|b| |b m e p], x as [b'|b'| |b' m' e' p']; auto; cbn in F; try discriminate; destruct b; discriminate. }
  assert (Ss := IH a H Sa A0 Fs). fold s in Ss.
  apply fadd_plus; auto. destruct s as [b|b| |b m e p]; cbn in *; try lra. subst b. apply F2R_ge_0. cbn. lia.
Qed.
Lemma sign_nonneg (x : f64) : Bsign x = false -> 0 <= B2R x.
Proof. destruct x as [b|b| |b m e p]; cbn; intros S; try lra. subst b. apply F2R_ge_0. cbn. lia. Qed.
Lemma fmul_sign x y : is_finite (fmul x y) = true -> Bsign (fmul x y) = xorb (Bsign x) (Bsign y).
Proof.
  intros F. unfold fmul in *. pose proof (Bmult_correct 53 1024 _ _ mode_NE x y) as H.
  destruct (Rlt_bool _ _).
  - destruct H as (_ & _ & S). apply S. destruct (Bmult mode_NE x y); auto; discriminate.
  - destruct (Bmult mode_NE x y); try discriminate.
Qed.
Lemma fdiv_sign x y : B2R y <> 0 -> is_finite (fdiv x y) = true -> Bsign (fdiv x y) = xorb (Bsign x) (Bsign y).
Proof.
  intros Y F. unfold fdiv in *. pose proof (Bdiv_correct 53 1024 _ _ mode_NE x y Y) as H.
  destruct (Rlt_bool _ _).
  - destruct H as (_ & _ & S). apply S. destruct (Bdiv mode_NE x y); auto; discriminate.
  - destruct (Bdiv mode_NE x y); try discriminate.
Qed.
Lemma fofZ_sign d : (0 <= d <= 2 ^ 100)%Z -> Bsign (fofZ d) = false.
Proof.
  intros Hd. destruct (fofZ_rnd d) as [E F]; [rewrite Z.abs_eq by lia; lia|].
  pose proof (binary_normalize_correct 53 1024 _ _ mode_NE d 0 false) as H. fold (fofZ d) in H.
  assert (EF : F2R (Float radix2 d 0) = IZR d) by (unfold F2R; cbn; ring). rewrite EF in H. cbv zeta in H.
  destruct (Rlt_bool _ _).
  - destruct H as (_ & _ & ->). pose proof (IZR_le 0 d ltac:(lia)). destruct (Rcompare_spec (IZR d) 0); auto. lra.
  - destruct (fofZ d); try discriminate.
Qed.
Lemma sample_sign d : (0 <= d <= 2 ^ 62)%Z -> Bsign (nsecToSec d) = false.
Proof.
  intros Hd. destruct (sample_error d Hd) as [F _]. unfold nsecToSec in *. rewrite fmul_sign by exact F.
  rewrite fofZ_sign; [reflexivity|]. change (2^62)%Z with 4611686018427387904%Z in Hd. split; [lia|].
  apply Z.le_trans with (1 := proj2 Hd). vm_compute. discriminate.
Qed.
Lemma fofZ_pos n : (0 < n)%nat -> (Z.of_nat n <= 2 ^ 45)%Z -> B2R (fofZ (Z.of_nat n)) <> 0 /\ Bsign (fofZ (Z.of_nat n)) = false.
Proof.
  intros H1 H2. change (2^45)%Z with 35184372088832%Z in H2.
  destruct (fofZ_correct (Z.of_nat n)) as [E _]; [change (2^53)%Z with 9007199254740992%Z; lia|]. split.
  - rewrite E. apply IZR_neq. lia.
  - apply fofZ_sign. split; [lia|]. apply Z.le_trans with 35184372088832%Z; [lia|]. vm_compute. discriminate.
Qed.
Lemma sum_signs l : ordinary l -> l <> [] -> let a := accumulated l in
  Bsign (f_sum a) = false /\ Bsign (fMean a) = false /\ Bsign (fdiv (f_sum2 a) (fcnt a)) = false /\ Bsign (fmul (fMean a) (fMean a)) = false.
Proof.
  intros O NE a. pose proof (ordinary_each l O) as P. pose proof (nonempty_count l NE) as NC.
  destruct (sum_spec l O) as (C & F & _). destruct (sum2_spec l O) as (F2 & _). destruct (mean_spec l O NE) as (F3 & _ & M & E3).
  destruct (moment_spec l O NE) as (F4 & _). fold a in C, F, F2, F3, F4, E3.
  destruct (fofZ_pos (length l) NC ltac:(apply O)) as [NZ NS].
  destruct (acc_fields (map nsecToSec l) newF) as (_ & S1 & S2). fold (accumulated l) in S1, S2. fold a in S1, S2.
  assert (SS : Bsign (f_sum a) = false).
  { rewrite S1 in F |- *. apply sum_sign; auto; [|cbn; lra]. apply Forall_map. eapply Forall_impl; [|exact P]. intros d Hd.
    split; [apply sample_error; auto|]. split; [now apply sample_sign|]. apply sign_nonneg. now apply sample_sign. }
  assert (SS2 : Bsign (f_sum2 a) = false).
  { rewrite S2 in F2 |- *. apply sum_sign; auto; [|cbn; lra]. rewrite map_map. apply Forall_map. eapply Forall_impl; [|exact P].
    intros d Hd. destruct (square_error d Hd) as [Fd _].
    assert (Sd : Bsign (fmul (nsecToSec d) (nsecToSec d)) = false) by (rewrite fmul_sign by exact Fd; now rewrite sample_sign).
    repeat split; auto. now apply sign_nonneg. }
  assert (SM : Bsign (fMean a) = false).
  { unfold fMean in *. unfold fcnt in *. rewrite C in *. rewrite fdiv_sign by auto. now rewrite SS, NS. }
  repeat split; auto.
  - unfold fcnt in *. rewrite C in *. rewrite fdiv_sign by auto. now rewrite SS2, NS.
  - rewrite fmul_sign. { now rewrite SM. }
    assert (G : 0 <= B2R (fMean a)) by now apply sign_nonneg.
    apply (fmul_rnd (fMean a) (fMean a) 100); auto; [lia|]. rewrite Rabs_pos_eq by apply Rle_0_sqr.
    apply Rabs_le_inv in E3. pose proof (count_INR l O) as NB. pose proof u53_val as UV.
    assert ((2 * INR (length l) + 7) * u53 * mean l <= 1 * mean l) by (apply Rmult_le_compat_r; [lra|rewrite UV; lra]).
    apply Rle_trans with (bpow radix2 34 * bpow radix2 34); [|rewrite <- bpow_plus; apply bpow_le; lia].
    change (bpow radix2 33) with 8589934592 in M. change (bpow radix2 34) with 17179869184. apply Rmult_le_compat; lra.
Qed.
Lemma fsub_plus x y : is_finite (fsub x y) = true -> is_finite x = true -> is_finite y = true ->
  Bsign x = false -> B2R y <= B2R x -> Bsign (fsub x y) = false.
Proof.
  intros F Fx Fy Sx XY. unfold fsub in *. pose proof (Bminus_correct 53 1024 _ _ mode_NE x y Fx Fy) as H.
  destruct (Rlt_bool_spec (Rabs (round radix2 (SpecFloat.fexp 53 1024) (round_mode mode_NE) (B2R x - B2R y))) OMEGA) as [_|_].
  - destruct H as (_ & _ & ->). destruct (Rcompare_spec (B2R x - B2R y) 0); auto; [lra|]. now rewrite Sx.
  - destruct H as [H _]. destruct (Bminus mode_NE x y); try discriminate.
Qed.

(** ** the standard deviation *)
From Flocq Require Import Plus_error.
Lemma sub_rnd_zero x y : format64 x -> format64 y -> rnd (x - y) = 0 -> x = y.
Proof.
  intros Fx Fy R. destruct (Req_dec (x - y) 0); [lra|]. exfalso. revert R.
  apply (round_plus_neq_0 radix2 fexp64 ZnearestE x (- y)); auto; [now apply generic_format_opp].
Qed.
Lemma std_spec l : ordinary l -> l <> [] ->
  let a := accumulated l in
  (B2R (fVariance a) < 0 -> is_nan (fStd a) = true) /\
  (0 <= B2R (fVariance a) ->
     is_finite (fStd a) = true /\ Bsign (fStd a) = false /\ B2R (fStd a) <= bpow radix2 35 /\
     Rabs (B2R (fStd a) - sqrt (variance l)) <=
       sqrt ((7 * INR (length l) + 34) * u53 * mean_sq l) + 2 * u53 * sqrt (mean_sq l)).
Proof.
  intros O NE a. destruct (variance_spec l O NE) as (F & VB & VZ & VE). destruct (sum_signs l O NE) as (S1 & S2 & S3 & S4).
  destruct (moment_spec l O NE) as (F2 & _ & MB & _). fold a in F, VB, VZ, VE, S1, S2, S3, S4, F2.
  pose proof (mean_sq_pos l O) as MP. pose proof u53_val as UV. pose proof u53_pos as UP. pose proof (count_INR l O) as NB.
  assert (F5 : is_finite (fmul (fMean a) (fMean a)) = true).
  { unfold fVariance, fsub in F. destruct (fdiv (f_sum2 a) (fcnt a)) as [b|b| |b m e p], (fmul (fMean a) (fMean a)) as [b'|b'| |b' m' e' p']; auto; cbn in F, F2; try discriminate; destruct b; discriminate. }
  pose proof (Bsqrt_correct 53 1024 _ _ mode_NE (fVariance a)) as (Q1 & Q2 & Q3). fold (fStd a) in Q1, Q2, Q3. cbn [round_mode] in Q1.
  unfold fStd, fsqrt in *. set (v := fVariance a) in *. set (s := Bsqrt mode_NE v) in *.
  split.
  { intros N. destruct (Bsign v) eqn:SG; [|pose proof (sign_nonneg v SG); lra]. unfold s.
    destruct v as [b|b| |b m e p]; try (exfalso; change (0 < 0) in N; lra). cbn in SG. now subst b. }
  intros V0.
  assert (SV : Bsign v = false).
  { unfold v, fVariance in *. apply fsub_plus; auto.
    destruct (Rle_or_lt (B2R (fmul (fMean a) (fMean a))) (B2R (fdiv (f_sum2 a) (fcnt a)))) as [L|L]; auto.
    destruct (fsub_ext (fdiv (f_sum2 a) (fcnt a)) (fmul (fMean a) (fMean a)) F2 F5) as [_ EX].
    rewrite ext_finite in EX by exact F. set (x := B2R (fdiv (f_sum2 a) (fcnt a))) in *. set (y := B2R (fmul (fMean a) (fMean a))) in *.
    rewrite EX in V0. unfold clamp in V0. destruct (Rlt_bool_spec (Rabs (rnd (x - y))) OMEGA) as [LL|LL].
    - assert (rnd (x - y) <= 0) by (rewrite <- rnd_0; apply rnd_le; lra).
      assert (x = y) by (apply sub_rnd_zero; [apply generic_format_B2R|apply generic_format_B2R|lra]). lra.
    - rewrite Rlt_bool_true in V0 by lra. pose proof (bpow_gt_0 radix2 1024). lra. }
  assert (Fs : is_finite s = true).
  { rewrite Q2. destruct v as [b|b| |b m e p]; auto; try discriminate. cbn in SV. now subst b. }
  split; auto. split.
  { rewrite Q3; auto. destruct s; auto; discriminate. }
  set (V := variance l) in *. set (M := mean_sq l) in *. set (n := INR (length l)) in *.
  pose proof (variance_nonneg l) as VN. fold V in VN.
  rewrite Rabs_pos_eq in VB by exact V0. apply Rabs_le_inv in VE.
  assert (SB : sqrt (B2R v) <= bpow radix2 34).
  { rewrite <- (sqrt_square (bpow radix2 34)) by apply bpow_ge_0. apply sqrt_le_1_alt. rewrite <- bpow_plus. exact VB. }
  pose proof (sqrt_pos (B2R v)) as SP.
  split.
  { rewrite Q1. apply Rle_trans with (Rabs (rnd (sqrt (B2R v)))); [apply Rle_abs|]. apply rnd_abs_le; [lia|].
    rewrite Rabs_pos_eq by auto. apply Rle_trans with (1 := SB). apply bpow_le. lia. }
  assert (VM : V <= M) by (unfold V; rewrite variance_identity by auto; fold M; pose proof (Rle_0_sqr (mean l)) as K; unfold Rsqr in K; lra).
  assert (KM : (7 * n + 34) * u53 * M <= 1 / 10 * M) by (apply Rmult_le_compat_r; [lra|rewrite UV; lra]).
  assert (v2 : B2R v <= 2 * 2 * M) by lra.
  assert (SM : sqrt (B2R v) <= 2 * sqrt M).
  { rewrite <- (sqrt_square 2) at 1 by lra. rewrite <- sqrt_mult by lra. apply sqrt_le_1_alt. lra. }
  assert (V11 : B2R v <= 121 / 100 * M) by lra.
  assert (SM1 : sqrt (B2R v) <= 11 / 10 * sqrt M).
  { rewrite <- (sqrt_square (11 / 10)) by lra. rewrite <- sqrt_mult by lra. apply sqrt_le_1_alt. lra. }
  assert (RE : Rabs (rnd (sqrt (B2R v)) - sqrt (B2R v)) <= 2 * u53 * sqrt M).
  { pose proof (sqrt_pos M) as M0.
    destruct (Rle_or_lt (bpow radix2 (-1022)) (sqrt (B2R v))) as [L|L].
    - pose proof (rnd_rel (sqrt (B2R v))) as RR. rewrite (Rabs_pos_eq (sqrt (B2R v))) in RR by auto. specialize (RR L).
      apply Rle_trans with (1 := RR). rewrite (Rmult_comm 2), Rmult_assoc. apply Rmult_le_compat_l; lra.
    - destruct MP as [MZ|MP].
      + fold M in MZ. rewrite (VZ MZ), sqrt_0, rnd_0, Rminus_0_r, Rabs_R0, MZ, sqrt_0. lra.
      + assert (RA : Rabs (rnd (sqrt (B2R v))) <= bpow radix2 (-1021)).
        { apply rnd_abs_le; [lia|]. rewrite Rabs_pos_eq by auto. apply Rlt_le, Rlt_le_trans with (1 := L). apply bpow_le. lia. }
        assert (L2 : sqrt (B2R v) <= bpow radix2 (-1021)).
        { apply Rlt_le, Rlt_le_trans with (1 := L). apply bpow_le. lia. }
        assert (LS : bpow radix2 (-55) <= sqrt M).
        { rewrite <- (sqrt_square (bpow radix2 (-55))) by apply bpow_ge_0. apply sqrt_le_1_alt. rewrite <- bpow_plus. exact MP. }
        assert (S : bpow radix2 (-1021) <= u53 * sqrt M).
        { apply Rle_trans with (u53 * bpow radix2 (-55)); [rewrite <- bpow_plus; apply bpow_le; lia|].
          apply Rmult_le_compat_l; lra. }
        apply Rabs_le_inv in RA. apply Rabs_le. lra. }
  assert (DQ : Rabs (sqrt (B2R v) - sqrt V) <= sqrt ((7 * n + 34) * u53 * M)).
  { set (e := (7 * n + 34) * u53 * M) in *. assert (e0 : 0 <= e) by lra.
    pose proof (sqrt_pos V) as q0. pose proof (sqrt_pos e) as r0.
    assert (A1 : sqrt (B2R v) <= sqrt V + sqrt e).
    { rewrite <- (sqrt_square (sqrt V + sqrt e)) by lra. apply sqrt_le_1_alt.
      replace ((sqrt V + sqrt e) * (sqrt V + sqrt e)) with (sqrt V * sqrt V + sqrt e * sqrt e + 2 * (sqrt V * sqrt e)) by ring.
      rewrite !sqrt_sqrt by lra. assert (0 <= sqrt V * sqrt e) by now apply Rmult_le_pos. lra. }
    assert (A2 : sqrt V <= sqrt (B2R v) + sqrt e).
    { rewrite <- (sqrt_square (sqrt (B2R v) + sqrt e)) by lra. apply sqrt_le_1_alt.
      replace ((sqrt (B2R v) + sqrt e) * (sqrt (B2R v) + sqrt e)) with (sqrt (B2R v) * sqrt (B2R v) + sqrt e * sqrt e + 2 * (sqrt (B2R v) * sqrt e)) by ring.
      rewrite !sqrt_sqrt by lra. assert (0 <= sqrt (B2R v) * sqrt e) by now apply Rmult_le_pos. lra. }
    apply Rabs_le. lra. }
  rewrite Q1. apply Rabs_le_inv in RE. apply Rabs_le_inv in DQ. apply Rabs_le. lra.
Qed.

(** ** minimum and maximum *)
Lemma minmax_fold l : forall a, Forall (fun x : f64 => is_finite x = true) l -> is_finite (f_min a) = true -> is_finite (f_max a) = true ->
  let r := fold_left faccAdd l a in
  (f_min r = f_min a \/ In (f_min r) l) /\ (f_max r = f_max a \/ In (f_max r) l) /\
  is_finite (f_min r) = true /\ is_finite (f_max r) = true /\
  B2R (f_min r) <= B2R (f_min a) /\ B2R (f_max a) <= B2R (f_max r) /\
  Forall (fun x => B2R (f_min r) <= B2R x <= B2R (f_max r)) l.
Proof.
  induction l as [|x l IH]; intros a H F1 F2; cbn zeta. { cbn. repeat split; auto; lra. }
  cbn [fold_left]. apply Forall_cons_iff in H. destruct H as [Fx H].
  assert (C1 : fltb x (f_min a) = true <-> B2R x < B2R (f_min a)).
  { rewrite <- !ext_finite by auto. apply fltb_ext; now apply is_nan_finite. }
  assert (C2 : fltb (f_max a) x = true <-> B2R (f_max a) < B2R x).
  { rewrite <- !ext_finite by auto. apply fltb_ext; now apply is_nan_finite. }
  destruct (IH (faccAdd a x)) as (I1 & I2 & I3 & I4 & I5 & I6 & I7); auto.
  { cbn [faccAdd f_min]. now destruct (fltb x (f_min a)). } { cbn [faccAdd f_max]. now destruct (fltb (f_max a) x). }
  set (r := fold_left faccAdd l (faccAdd a x)) in *. cbn [faccAdd f_min f_max] in I1, I2, I5, I6.
  assert (D1 : B2R (f_min r) <= B2R x /\ B2R (f_min r) <= B2R (f_min a)).
  { destruct (fltb x (f_min a)); [assert (B2R x < B2R (f_min a)) by now apply C1|assert (~ B2R x < B2R (f_min a)) by (intros K; apply C1 in K; discriminate)]; lra. }
  assert (D2 : B2R x <= B2R (f_max r) /\ B2R (f_max a) <= B2R (f_max r)).
  { destruct (fltb (f_max a) x); [assert (B2R (f_max a) < B2R x) by now apply C2|assert (~ B2R (f_max a) < B2R x) by (intros K; apply C2 in K; discriminate)]; lra. }
  split. { destruct I1 as [-> | I1]; [destruct (fltb x (f_min a)); cbn; auto|cbn; auto]. }
  split. { destruct I2 as [-> | I2]; [destruct (fltb (f_max a) x); cbn; auto|cbn; auto]. }
  repeat split; auto; try lra. constructor; auto. lra.
Qed.
Lemma sample_mono d d' : (0 <= d <= 2 ^ 62)%Z -> (0 <= d' <= 2 ^ 62)%Z -> (d <= d')%Z -> B2R (nsecToSec d) <= B2R (nsecToSec d').
Proof.
  intros H H' L. change (2^62)%Z with 4611686018427387904%Z in *.
  destruct (nsecToSec_correct d) as [-> _]; [change (2^63)%Z with 9223372036854775808%Z; lia|].
  destruct (nsecToSec_correct d') as [-> _]; [change (2^63)%Z with 9223372036854775808%Z; lia|].
  unfold sec_of. apply rnd_le. apply Rmult_le_compat_r; [pose proof c_bounds; lra|]. apply rnd_le. now apply IZR_le.
Qed.
Lemma dbl_max_bound : is_finite dbl_max = true /\ bpow radix2 100 <= B2R dbl_max.
Proof.
  split; [vm_compute; reflexivity|].
  assert (F : is_finite (flit 1 100) = true) by (vm_compute; reflexivity).
  assert (G : is_finite dbl_max = true) by (vm_compute; reflexivity).
  assert (E : B2R (flit 1 100) = bpow radix2 100).
  { assert (S : B2SF (flit 1 100) = SpecFloat.S754_finite false 4503599627370496 48) by (vm_compute; reflexivity).
    destruct (flit 1 100) as [s|s| |s m e p]; try discriminate. cbn in S. inversion S; subst. unfold B2R, F2R. cbn. lra. }
  rewrite <- E, <- (ext_finite _ F), <- (ext_finite _ G). apply fleb_ext; vm_compute; reflexivity.
Qed.
Lemma minmax_spec l : ordinary l -> l <> [] -> let a := accumulated l in
  (exists d, In d l /\ f_min a = nsecToSec d /\ (forall d', In d' l -> B2R (f_min a) <= B2R (nsecToSec d'))) /\
  (exists d, In d l /\ f_max a = nsecToSec d /\ (forall d', In d' l -> B2R (nsecToSec d') <= B2R (f_max a))).
Proof.
  intros O NE a. pose proof (ordinary_each l O) as P. destruct dbl_max_bound as [DF DB].
  destruct (minmax_fold (map nsecToSec l) newF) as (I1 & I2 & I3 & I4 & I5 & I6 & I7); auto.
  { apply Forall_map. eapply Forall_impl; [|exact P]. intros d Hd. now apply sample_error. }
  fold (accumulated l) in I1, I2, I3, I4, I5, I6, I7. fold a in I1, I2, I3, I4, I5, I6, I7. cbn [newF f_min f_max] in I1, I2.
  rewrite Forall_map, Forall_forall in I7.
  destruct l as [|d0 l0] eqn:EL; [congruence|]. rewrite <- EL in *.
  assert (D0 : In d0 l) by (subst l; now left). pose proof (I7 d0 D0) as J0. cbn beta in J0.
  assert (S0 : 0 <= B2R (nsecToSec d0) <= bpow radix2 100 / 2).
  { rewrite Forall_forall in P. specialize (P d0 D0). destruct (sample_error d0 P) as (_ & B & E). split.
    - pose proof (bpow_gt_0 radix2 (-31)). destruct B; lra.
    - apply Rabs_le_inv in E. rewrite bpow_100. pose proof u53_val as UV.
      assert (secs d0 <= 8589934592).
      { unfold secs. destruct P as [_ P]. apply IZR_le in P. change (IZR (2^62)) with 4611686018427387904 in P. lra. }
      assert (0 <= secs d0) by (apply secs_nonneg; lia). rewrite UV in E. lra. }
  assert (DN : B2R (fneg dbl_max) = - B2R dbl_max) by apply B2R_Bopp.
  rewrite bpow_100 in *.
  split.
  - destruct I1 as [I1|I1].
    + exfalso. rewrite I1 in J0. lra.
    + apply in_map_iff in I1. destruct I1 as (d & E & Hd). exists d. repeat split; auto. intros d' Hd'. apply (I7 d' Hd').
  - destruct I2 as [I2|I2].
    + exfalso. rewrite I2, DN in J0. lra.
    + apply in_map_iff in I2. destruct I2 as (d & E & Hd). exists d. repeat split; auto. intros d' Hd'. apply (I7 d' Hd').
Qed.
