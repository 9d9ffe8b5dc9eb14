(** C129: the time written into a log line. *)
From Coq Require Import Reals Lra Psatz DecimalString DecimalPos DecimalFacts.
From Flocq Require Import Core.
From Verif Require Import Float64 Round_Model Round_Proofs Nsec_Model Nsec_Proofs PTree_Model GTest_Props ShowProgress_Props Timer_Model TimeString_Props LogTime_Model.
Import ListNotations.
Open Scope R_scope.

(** ** Specification.  A text s.uuuuuu, with an optional minus sign, denotes this many microseconds. *)
Definition micros_text (t : bytes) (us : Z) : Prop :=
  exists neg S U, t = (if neg : bool then str "-" else []) ++ S ++ str "." ++ U /\ Forall digit S /\ Forall digit U /\ (1 <= length S)%nat /\ length U = 6%nat /\
    us = ((if neg then -1 else 1) * (value S * 1000000 + value U))%Z.
(** the order of texts, byte by byte, as sort(1) in the C locale has it *)
Fixpoint text_lt (a b : bytes) : Prop :=
  match a, b with
  | _, [] => False
  | [], _ :: _ => True
  | x :: a, y :: b => (x < y)%N \/ (x = y /\ text_lt a b)
  end.

(** ** the quotient *)
Definition LIMIT : Z := (2 ^ 33 * 1000000)%Z.
Lemma rnd_err_33 x : Rabs x < bpow radix2 33 -> Rabs (rnd x - x) <= bpow radix2 (-21).
Proof.
  intros H. destruct (Req_dec x 0) as [-> | N].
  { rewrite rnd_0, Rminus_0_r, Rabs_R0. apply bpow_ge_0. }
  apply Rle_trans with (/ 2 * ulp radix2 fexp64 x); [apply error_le_half_ulp; apply (fexp_correct 53 1024 _)|].
  replace (bpow radix2 (-21)) with (/ 2 * bpow radix2 (-20)).
  2:{ replace (-20)%Z with (1 + -21)%Z by lia. rewrite bpow_plus. change (bpow radix2 1) with 2. lra. }
  apply Rmult_le_compat_l; [lra|]. rewrite ulp_neq_0 by auto. apply bpow_le. unfold cexp, SpecFloat.fexp, SpecFloat.emin. pose proof (mag_le_bpow radix2 x 33 N H). lia.
Qed.
Lemma bp21 : bpow radix2 (-21) = / 2097152. Proof. reflexivity. Qed.
Lemma bp33 : bpow radix2 33 = 8589934592. Proof. reflexivity. Qed.
Lemma secs_value us : (Z.abs us < LIMIT)%Z -> let x := fdiv (fofZ us) (fofZ 1000000) in
  is_finite x = true /\ B2R x = rnd (IZR us / 1000000) /\ Rabs (B2R x - IZR us / 1000000) <= / 2097152 /\ ZnearestE (B2R x * 1000000) = us /\ Bsign x = (us <? 0)%Z.
Proof.
  intros L x. assert (L53 : (Z.abs us <= 2 ^ 53)%Z) by (unfold LIMIT in L; lia).
  destruct (fdiv_int us 1000000 L53 ltac:(lia)) as [E F]. fold x in E, F.
  assert (B : Rabs (IZR us / 1000000) < bpow radix2 33).
  { unfold Rdiv. rewrite Rabs_mult, (Rabs_pos_eq (/ 1000000)) by lra. rewrite <- abs_IZR, bp33. apply IZR_lt in L. change LIMIT with 8589934592000000%Z in L. lra. }
  pose proof (rnd_err_33 _ B) as R. rewrite <- E, bp21 in R. split; auto. split; auto. split; auto. split.
  - apply Znearest_imp. replace (B2R x * 1000000 - IZR us) with ((B2R x - IZR us / 1000000) * 1000000) by lra.
    rewrite Rabs_mult, (Rabs_pos_eq 1000000) by lra. lra.
  - pose proof (Bdiv_correct 53 1024 _ _ mode_NE (fofZ us) (fofZ 1000000)) as C.
    destruct (fofZ_correct us L53) as [Eu Fu]. destruct (fofZ_correct 1000000 ltac:(lia)) as [Em Fm]. rewrite Eu, Em in C. specialize (C ltac:(lra)).
    rewrite Rlt_bool_true in C.
    2:{ change (round_mode mode_NE) with ZnearestE. fold (rnd (IZR us / 1000000)). rewrite <- E. apply Rle_lt_trans with (bpow radix2 34); [|apply bpow_lt; lia].
        rewrite E. apply rnd_abs_le; [lia|]. apply Rlt_le, Rlt_trans with (1 := B). apply bpow_lt. lia. }
    destruct C as (_ & _ & C). unfold x, fdiv. rewrite C by (fold (fdiv (fofZ us) (fofZ 1000000)); fold x; destruct x; auto; discriminate F).
    rewrite (fofZ_sign 1000000) by lia. rewrite xorb_false_r.
    destruct (Z.ltb_spec us 0) as [Hn|Hn]; [|apply fofZ_sign; lia].
    rewrite sign_neg; auto; rewrite Eu; [|apply not_0_IZR; lia]. apply Rlt_bool_true. apply IZR_lt in Hn. exact Hn.
Qed.
(** ** the digits *)
Lemma six_digs z : (0 <= z < 1000000)%Z -> six z = digs 6 z.
Proof.
  intros H. unfold six. cbn [digs app]. rewrite !Z.div_div by lia. change (10 * 10)%Z with 100%Z. rewrite ?Z.div_div by lia.
  change (100 * 10)%Z with 1000%Z. change (1000 * 10)%Z with 10000%Z. change (10000 * 10)%Z with 100000%Z.
  rewrite (Z.mod_small (z / 100000)) by (split; [apply Z.div_pos; lia|apply Z.div_lt_upper_bound; lia]).
  assert (A : forall x, (0 <= x)%Z -> Z.to_N (48 + x) = (48 + Z.to_N x)%N) by (intros; lia).
  rewrite !A; try (apply Z.mod_pos_bound; lia); [reflexivity|apply Z.div_pos; lia].
Qed.
Lemma print_dec z : (0 <= z)%Z -> print_int z = Timer_Model.dec z.
Proof. intros H. unfold print_int. destruct (Z.ltb_spec z 0); [lia|reflexivity]. Qed.
(** the text for a number of microseconds *)
Definition micros (us : Z) : bytes :=
  (if (us <? 0)%Z then str "-" else []) ++ Timer_Model.dec (Z.abs us / 1000000) ++ str "." ++ digs 6 (Z.abs us mod 1000000).
Lemma micros_spec us : micros_text (micros us) us.
Proof.
  exists (us <? 0)%Z, (Timer_Model.dec (Z.abs us / 1000000)), (digs 6 (Z.abs us mod 1000000)).
  pose proof (Z.mod_pos_bound (Z.abs us) 1000000 ltac:(lia)) as M.
  destruct (digs_spec 6 (Z.abs us mod 1000000) M) as (DL & DD & DV).
  destruct (dec_spec (Z.abs us / 1000000)) as (SD & SV & SL); [apply Z.div_pos; lia|].
  repeat split; auto. rewrite SV, DV. pose proof (Z.div_mod (Z.abs us) 1000000). destruct (Z.ltb_spec us 0); lia.
Qed.
Lemma string_micros ns : (Z.abs (to_micros ns) < LIMIT)%Z -> currentTimeString ns = micros (to_micros ns).
Proof.
  intros L. destruct (secs_value _ L) as (F & _ & _ & K & B). unfold currentTimeString, currentTimeSecondsUtc.
  set (x := fdiv (fofZ (to_micros ns)) (fofZ 1000000)) in *.
  assert (G : fixed6 x = (if Bsign x then [45%N] else []) ++ print_int (Z.abs (ZnearestE (B2R x * 1000000)) / 1000000) ++ 46%N :: six (Z.abs (ZnearestE (B2R x * 1000000)) mod 1000000)).
  { destruct x; try discriminate F; reflexivity. }
  rewrite G, K, B. unfold micros. rewrite print_dec by (apply Z.div_pos; lia). rewrite six_digs by (apply Z.mod_pos_bound; lia). reflexivity.
Qed.
(** C129: until the year 2242 (2^33 seconds) the text is the clock's reading, truncated to whole microseconds, with exactly six decimals *)
Theorem log_time_exact ns : (Z.abs ns < 2 ^ 33 * 1000000000)%Z -> micros_text (currentTimeString ns) (Z.quot ns 1000).
Proof.
  intros L. rewrite string_micros; [apply micros_spec|]. unfold to_micros, LIMIT. rewrite <- (Z.quot_abs ns 1000) by lia. change (Z.abs 1000) with 1000%Z.
  rewrite Z.quot_div_nonneg by lia. apply Z.div_lt_upper_bound; lia.
Qed.
(** different microseconds give different texts *)
Lemma value_bound s : Forall digit s -> (0 <= value s < 10 ^ Z.of_nat (length s))%Z.
Proof.
  induction s as [|c s IH] using rev_ind; intros D; [cbn; lia|]. apply Forall_app in D. destruct D as [D C]. inversion C as [|? ? Hc _]; subst. specialize (IH D).
  rewrite value_app, app_length, Nat2Z.inj_add, Z.pow_add_r by lia. cbn [length]. change (10 ^ Z.of_nat 1)%Z with 10%Z. unfold value at 2 4. cbn [fold_left].
  unfold digit in Hc. lia.
Qed.
Lemma text_lt_app a b c d : length a = length c -> text_lt a c -> text_lt (a ++ b) (c ++ d).
Proof.
  revert c. induction a as [|x a IH]; intros [|y c] L; try discriminate L; cbn [text_lt app]; [tauto|]. injection L as L. intros [H|[-> H]]; [auto|]. right. split; auto.
Qed.
Lemma text_lt_same a b c : text_lt b c -> text_lt (a ++ b) (a ++ c).
Proof. induction a; cbn [app text_lt]; auto. Qed.
Lemma value_cons c s : value (c :: s) = ((Z.of_N c - 48) * 10 ^ Z.of_nat (length s) + value s)%Z.
Proof. change (c :: s) with ([c] ++ s). rewrite value_app. unfold value at 1. cbn [fold_left]. lia. Qed.
Lemma digits_order a : forall b, length a = length b -> Forall digit a -> Forall digit b -> (value a < value b)%Z -> text_lt a b.
Proof.
  induction a as [|x a IH]; intros [|y b] L A B V; try discriminate L; [cbn in V; lia|]. injection L as L. inversion A; inversion B; subst.
  rewrite !value_cons, L in V. pose proof (value_bound a ltac:(auto)) as Ba. pose proof (value_bound b ltac:(auto)) as Bb. rewrite L in Ba.
  unfold digit in *. cbn [text_lt]. destruct (N.lt_trichotomy x y) as [H|[-> | H]]; [auto| |].
  - right. split; auto. apply IH; auto. lia.
  - exfalso. set (w := (10 ^ Z.of_nat (length b))%Z) in *. assert (Z.of_N y + 1 <= Z.of_N x)%Z by lia. nia.
Qed.
Lemma text_lt_irrefl a : ~ text_lt a a.
Proof. induction a; cbn [text_lt]; [tauto|]. intros [H|[_ H]]; [lia|auto]. Qed.
(** a decimal has no leading zero *)
Lemma to_uint_lead p d : Pos.to_uint p <> Decimal.D0 d.
Proof.
  intros E. pose proof (Unsigned.of_to p) as OT. pose proof (Unsigned.to_of (Pos.to_uint p)) as TO. rewrite OT in TO. change (N.to_uint (N.pos p)) with (Pos.to_uint p) in TO.
  rewrite E in TO, OT. unfold Decimal.unorm in TO. destruct (Decimal.nzhead (Decimal.D0 d)) eqn:Hz; try discriminate TO.
  - injection TO as ->. discriminate OT.
  - exact (DecimalFacts.nzhead_nonzero _ _ Hz).
Qed.
Lemma value_lead c s : (49 <= c)%N -> Forall digit s -> (10 ^ Z.of_nat (length s) <= value (c :: s))%Z.
Proof.
  intros C D. rewrite value_cons. pose proof (value_bound s D). assert (1 <= Z.of_N c - 48)%Z by lia. set (w := (10 ^ Z.of_nat (length s))%Z) in *. nia.
Qed.
Lemma dec_width z k : (10 ^ Z.of_nat k <= z < 10 ^ Z.of_nat (S k))%Z -> length (dec z) = S k.
Proof.
  intros H. assert (P : (0 < 10 ^ Z.of_nat k)%Z) by (apply Z.pow_pos_nonneg; lia).
  destruct (dec_spec z ltac:(lia)) as (D & V & L). pose proof (value_bound _ D) as U.
  assert (Lo : exists c s, dec z = c :: s /\ (49 <= c)%N).
  { destruct z as [|p|p]; [lia| |lia]. unfold dec. cbn [Z.to_int NilZero.string_of_int]. unfold NilZero.string_of_uint.
    pose proof (Unsigned.to_uint_nonnil p) as N0. pose proof (to_uint_lead p) as N1.
    destruct (Pos.to_uint p) as [|u|u|u|u|u|u|u|u|u|u]; [congruence|exfalso; exact (N1 _ eq_refl)| | | | | | | | |];
      cbn [NilEmpty.string_of_uint]; rewrite str_cons; eexists _, _; split; try reflexivity; vm_compute; discriminate. }
  destruct Lo as (c & s & E & C). rewrite E in *. apply Forall_inv_tail in D. pose proof (value_lead c s C D) as W. rewrite V in W, U. cbn [length] in *.
  assert (A1 : (Z.of_nat (length s) < Z.of_nat (S k))%Z) by (apply (Z.pow_lt_mono_r_iff 10); lia).
  assert (A2 : (Z.of_nat k < Z.of_nat (S (length s)))%Z) by (apply (Z.pow_lt_mono_r_iff 10); lia). lia.
Qed.
(** C129: from 2001 to 2242, the log lines sorted as texts are sorted by time; equal texts mean the same microsecond *)
Lemma micros_order a b : (10 ^ 15 <= a < 10 ^ 16)%Z -> (10 ^ 15 <= b < 10 ^ 16)%Z -> (a < b)%Z -> text_lt (micros a) (micros b).
Proof.
  intros A B L. unfold micros. rewrite !Z.abs_eq by lia. destruct (Z.ltb_spec a 0); [lia|]. destruct (Z.ltb_spec b 0); [lia|]. cbn [app].
  assert (W : forall u, (10 ^ 15 <= u < 10 ^ 16)%Z -> (10 ^ Z.of_nat 9 <= u / 1000000 < 10 ^ Z.of_nat 10)%Z).
  { intros u Hu. split; [apply Z.div_le_lower_bound; lia|apply Z.div_lt_upper_bound; lia]. }
  pose proof (dec_width _ 9 (W a A)) as Wa. pose proof (dec_width _ 9 (W b B)) as Wb.
  pose proof (W a A) as Ra. pose proof (W b B) as Rb. change (10 ^ Z.of_nat 9)%Z with 1000000000%Z in *.
  destruct (dec_spec (a / 1000000) ltac:(lia)) as (Da & Va & _). destruct (dec_spec (b / 1000000) ltac:(lia)) as (Db & Vb & _).
  pose proof (Z.mod_pos_bound a 1000000 ltac:(lia)) as Ma. pose proof (Z.mod_pos_bound b 1000000 ltac:(lia)) as Mb.
  destruct (digs_spec 6 _ Ma) as (La & Ua & Xa). destruct (digs_spec 6 _ Mb) as (Lb & Ub & Xb).
  pose proof (Z.div_mod a 1000000 ltac:(lia)). pose proof (Z.div_mod b 1000000 ltac:(lia)).
  destruct (Z.lt_trichotomy (a / 1000000) (b / 1000000)) as [C|[C|C]]; [| |lia].
  - apply text_lt_app; [congruence|]. apply digits_order; auto; try congruence; rewrite Va, Vb; auto.
  - rewrite C. apply text_lt_same, text_lt_same. apply digits_order; auto; try congruence; rewrite Xa, Xb; lia.
Qed.
Theorem log_time_sorted n m : (10 ^ 18 <= n < 2 ^ 33 * 1000000000)%Z -> (10 ^ 18 <= m < 2 ^ 33 * 1000000000)%Z ->
  (text_lt (currentTimeString n) (currentTimeString m) <-> (n / 1000 < m / 1000)%Z) /\ (currentTimeString n = currentTimeString m <-> (n / 1000 = m / 1000)%Z).
Proof.
  intros Hn Hm. assert (E : forall k, (10 ^ 18 <= k < 2 ^ 33 * 1000000000)%Z -> currentTimeString k = micros (k / 1000) /\ (10 ^ 15 <= k / 1000 < 10 ^ 16)%Z).
  { intros k Hk. assert (Q : to_micros k = (k / 1000)%Z) by (apply Z.quot_div_nonneg; lia).
    assert (B : (10 ^ 15 <= k / 1000 < LIMIT)%Z) by (unfold LIMIT; split; [apply Z.div_le_lower_bound; lia|apply Z.div_lt_upper_bound; lia]).
    split; [|change LIMIT with 8589934592000000%Z in B; lia]. rewrite <- Q. apply string_micros. rewrite Q. lia. }
  destruct (E n Hn) as [-> Bn]. destruct (E m Hm) as [-> Bm]. set (a := (n / 1000)%Z) in *. set (b := (m / 1000)%Z) in *.
  assert (T : forall x y, text_lt x y -> text_lt y x -> False).
  { induction x as [|p x IH]; intros [|q y]; cbn [text_lt]; try tauto. intros [H1|[-> H1]] [H2|[E2 H2]]; try lia. apply (IH y); auto. }
  destruct (Z.lt_trichotomy a b) as [C|[C|C]].
  - pose proof (micros_order a b Bn Bm C) as O. repeat split; intros; auto; try lia. exfalso. rewrite H in O. exact (text_lt_irrefl _ O).
  - rewrite C. repeat split; intros H; try lia. exfalso. exact (text_lt_irrefl _ H).
  - pose proof (micros_order b a Bm Bn C) as O. repeat split; intros H; try lia; exfalso; [exact (T _ _ H O)|rewrite H in O; exact (text_lt_irrefl _ O)].
Qed.
(** the number itself is within half a microsecond *)
Theorem log_seconds_error ns : (Z.abs ns < 2 ^ 33 * 1000000000)%Z ->
  is_finite (currentTimeSecondsUtc ns) = true /\ Rabs (B2R (currentTimeSecondsUtc ns) - IZR (Z.quot ns 1000) / 1000000) <= / 2097152.
Proof.
  intros L. assert (M : (Z.abs (to_micros ns) < LIMIT)%Z).
  { unfold to_micros, LIMIT. rewrite <- (Z.quot_abs ns 1000) by lia. change (Z.abs 1000) with 1000%Z. rewrite Z.quot_div_nonneg by lia. apply Z.div_lt_upper_bound; lia. }
  destruct (secs_value _ M) as (F & _ & B & _). auto.
Qed.
(** Refuted after 2^33 seconds (16 March 2242): two clock readings a microsecond apart give the same text *)
Theorem log_time_late_refuted :
  exists n m, (n / 1000 < m / 1000)%Z /\ (2 ^ 33 * 1000000000 < n < 2 ^ 33 * 1000000000 + 2000)%Z /\ currentTimeString n = currentTimeString m.
Proof.
  exists 8589934592000001000%Z, 8589934592000002000%Z. split; [vm_compute; reflexivity|]. split; [lia|]. unfold currentTimeString. f_equal. unfold currentTimeSecondsUtc.
  apply BinarySingleNaN.B2SF_inj. vm_compute. reflexivity.
Qed.
(** readings between the microseconds, and before the epoch *)
Example log_time_case : currentTimeString 1700000000000000999 = str "1700000000.000000" /\ currentTimeString (-1500000) = str "-0.001500" /\
  currentTimeString 1700000000123456789 = str "1700000000.123456".
Proof. repeat split; rewrite string_micros by (vm_compute; reflexivity); vm_compute; reflexivity. Qed.
Print Assumptions log_time_exact.
Print Assumptions log_time_sorted.
