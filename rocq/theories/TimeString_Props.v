(** C29: secondsToTimeString. *)
From Verif Require Import Timer_Model Float64 Round_Model Strings_Model Nsec_Proofs Corrector_I64.
From Coq Require Import Lia Lra Qreals DecimalString DecimalPos.
Import ListNotations.
Open Scope R_scope.

(** ** Specification: reading a text of decimal digits. *)
Definition digit (b : N) : Prop := (48 <= b <= 57)%N.
Definition value (s : bytes) : Z := fold_left (fun v b => (10 * v + (Z.of_N b - 48))%Z) s 0%Z.
(** The printed text has the form H:MM:SS.UUUUUU ... *)
Definition time_text (t H M S U : bytes) : Prop :=
  t = H ++ str ":" ++ M ++ str ":" ++ S ++ str "." ++ U /\
  Forall digit (H ++ M ++ S ++ U) /\ (2 <= length H)%nat /\ length M = 2%nat /\ length S = 2%nat /\ length U = 6%nat.
(** ... denoting this many seconds. *)
Definition text_seconds (H M S U : bytes) : R :=
  IZR (value H) * 3600 + IZR (value M) * 60 + IZR (value S) + IZR (value U) / 1000000.

(** ** rounding never reaches the next integer *)
Lemma rnd_below m y : (1 <= m <= 2 ^ 53)%Z -> y <= IZR m - bpow radix2 (-53) * IZR m -> rnd y < IZR m.
Proof.
  intros Hm Hy. assert (F : format64 (IZR m)) by (apply format_IZR; lia).
  assert (P : 1 <= IZR m) by (apply IZR_le; lia).
  assert (Fp : format64 (pred radix2 fexp64 (IZR m))) by (apply generic_format_pred; [apply (fexp_correct 53 1024 _)|auto]).
  assert (PL : pred radix2 fexp64 (IZR m) < IZR m) by (apply pred_lt_id; lra).
  apply Rle_lt_trans with (2 := PL).
  apply round_N_le_midp; auto; [apply (fexp_correct 53 1024 _)|].
  rewrite succ_pred; [|apply (fexp_correct 53 1024 _)|auto].
  rewrite pred_eq_pos in * by lra. unfold pred_pos in *.
  assert (Hk : bpow radix2 (mag radix2 (IZR m) - 1) <= IZR m < bpow radix2 (mag radix2 (IZR m))).
  { pose proof (bpow_mag_le radix2 (IZR m) ltac:(lra)) as K1. pose proof (bpow_mag_gt radix2 (IZR m)) as K2.
    rewrite Rabs_pos_eq in K1, K2 by lra. auto. }
  assert (Mk : (1 <= mag radix2 (IZR m))%Z).
  { apply mag_ge_bpow. rewrite Rabs_pos_eq by lra. cbn. lra. }
  destruct (Req_bool_spec (IZR m) (bpow radix2 (mag radix2 (IZR m) - 1))) as [E|E].
  - assert (X : bpow radix2 (fexp64 (mag radix2 (IZR m) - 1)) = bpow radix2 (-53) * IZR m).
    { rewrite E at 3. rewrite <- bpow_plus. f_equal. unfold SpecFloat.fexp, SpecFloat.emin. lia. }
    rewrite X. assert (0 < bpow radix2 (-53) * IZR m) by (apply Rmult_lt_0_compat; [apply bpow_gt_0|lra]). lra.
  - rewrite ulp_neq_0 in * by lra. unfold cexp in *.
    assert (X : bpow radix2 (fexp64 (mag radix2 (IZR m))) = 2 * bpow radix2 (-53) * bpow radix2 (mag radix2 (IZR m) - 1)).
    { change 2 with (bpow radix2 1). rewrite <- !bpow_plus. f_equal. unfold SpecFloat.fexp, SpecFloat.emin. lia. }
    rewrite X. assert (bpow radix2 (-53) * bpow radix2 (mag radix2 (IZR m) - 1) < bpow radix2 (-53) * IZR m).
    { apply Rmult_lt_compat_l; [apply bpow_gt_0|lra]. } lra.
Qed.

Lemma div_floor (s : f64) k : is_finite s = true -> 0 <= B2R s -> (1 <= k <= 3600)%Z -> B2R s < IZR (60 * 2 ^ 31) ->
  Ztrunc (rnd (B2R s / IZR k)) = Zfloor (B2R s / IZR k).
Proof.
  intros F Hs Hk HB. set (x := B2R s) in *. set (n := Zfloor (x / IZR k)).
  assert (Kp : 1 <= IZR k) by (apply IZR_le; lia).
  assert (N1 : IZR n <= x / IZR k) by apply Zfloor_lb.
  assert (N2 : x / IZR k < IZR n + 1) by apply Zfloor_ub.
  assert (Q0 : 0 <= x / IZR k) by (apply Rmult_le_pos; [lra|]; apply Rlt_le, Rinv_0_lt_compat; lra).
  assert (n0 : (0 <= n)%Z).
  { apply Zfloor_lub. exact Q0. }
  assert (XK : x = x / IZR k * IZR k) by (field; lra).
  assert (nB : (n < 60 * 2 ^ 31)%Z).
  { apply lt_IZR. apply Rle_lt_trans with (x / IZR k); auto.
    apply Rle_lt_trans with (2 := HB). rewrite XK at 2. rewrite <- (Rmult_1_r (x / IZR k)) at 1.
    apply Rmult_le_compat_l; lra. }
  change (2 ^ 31)%Z with 2147483648%Z in *.
  assert (R1 : IZR n <= rnd (x / IZR k)).
  { rewrite <- (rnd_id (IZR n)) by (apply format_IZR; change (2^53)%Z with 9007199254740992%Z; lia). now apply rnd_le. }
  assert (R2 : rnd (x / IZR k) < IZR n + 1).
  { rewrite <- plus_IZR. apply rnd_below. { change (2^53)%Z with 9007199254740992%Z; lia. }
    set (U := IZR (k * (n + 1))).
    assert (FU : format64 U) by (apply format_IZR; change (2^53)%Z with 9007199254740992%Z; nia).
    assert (XU : x < U).
    { unfold U. rewrite mult_IZR, plus_IZR. rewrite XK, Rmult_comm. apply Rmult_lt_compat_l; lra. }
    assert (U1 : 1 <= U). { unfold U. apply IZR_le. nia. }
    assert (G : x <= U - bpow radix2 (-53) * U).
    { apply Rle_trans with (pred radix2 fexp64 U).
      - apply pred_ge_gt; auto; [apply (fexp_correct 53 1024 _)|apply generic_format_B2R].
      - apply pred_gap; auto. apply Rle_trans with (2 := U1). change 1 with (bpow radix2 0). apply bpow_le. lia. }
    unfold U in G. rewrite mult_IZR in G.
    apply Rmult_le_reg_r with (IZR k); [lra|]. rewrite <- XK. lra. }
  rewrite Ztrunc_floor by (apply Rle_trans with (2 := R1); apply IZR_le; lia).
  apply Zfloor_imp. now rewrite plus_IZR.
Qed.

(** ** rationals *)
Lemma f2q_correct (x : f64) : is_finite x = true -> Q2R (f2q x) = B2R x.
Proof.
  destruct x as [s|s| |s m e p]; intros F; try discriminate; cbn [f2q B2R]; try (unfold Q2R; simpl; lra).
  unfold F2R, cond_Zopp. cbn [Fnum Fexp].
  assert (Z : (if s then Z.neg m else Z.pos m) = (if s then (- Z.pos m)%Z else Z.pos m)) by now destruct s.
  rewrite Z. set (z := if s then (- Z.pos m)%Z else Z.pos m).
  destruct (Z.leb_spec 0 e).
  - unfold Q2R, inject_Z. cbn [Qnum Qden]. rewrite mult_IZR. rewrite <- (IZR_Zpower radix2) by auto. rewrite Rinv_1. change (radix_val radix2) with 2%Z. lra.
  - unfold Q2R. cbn [Qnum Qden]. rewrite Z2Pos.id by (apply Z.pow_pos_nonneg; lia).
    change 2%Z with (radix_val radix2) at 1. rewrite (IZR_Zpower radix2) by lia. rewrite <- bpow_opp. now rewrite Z.opp_involutive.
Qed.

Lemma Q2R_inject z : Q2R (inject_Z z) = IZR z. Proof. unfold Q2R. cbn. lra. Qed.

Lemma Qtrunc_floor q : (0 <= q)%Q -> Qtrunc q = Qfloor q.
Proof.
  intros H. unfold Qtrunc. destruct q as [a b]. cbn [Qnum Qden Qfloor]. apply Z.quot_div_nonneg; [|lia].
  unfold Qle in H. cbn in H. lia.
Qed.
Lemma floor_bridge q r : Q2R q = r -> Zfloor r = Qfloor q.
Proof.
  intros <-. apply Zfloor_imp. rewrite <- !Q2R_inject. split.
  - apply Qle_Rle. apply Qfloor_le.
  - apply Qlt_Rlt. apply Qlt_floor.
Qed.

Lemma Qround_even_err q : Rabs (IZR (Qround_even q) - Q2R q) <= 1 / 2.
Proof.
  unfold Qround_even. pose proof (Qfloor_le q) as L. pose proof (Qlt_floor q) as U.
  apply Qle_Rle in L. apply Qlt_Rlt in U. rewrite Q2R_inject in *. rewrite plus_IZR in U.
  destruct (Qcompare_spec (q - inject_Z (Qfloor q)) (1 # 2)) as [E|E|E].
  - apply Qeq_eqR in E. rewrite Q2R_minus, Q2R_inject in E. unfold Q2R in E at 2. cbn in E.
    destruct (Z.even (Qfloor q)); rewrite ?plus_IZR; apply Rabs_le; lra.
  - apply Qlt_Rlt in E. rewrite Q2R_minus, Q2R_inject in E. unfold Q2R in E at 2. cbn in E. apply Rabs_le; lra.
  - apply Qlt_Rlt in E. rewrite Q2R_minus, Q2R_inject in E. unfold Q2R in E at 1. cbn in E.
    rewrite plus_IZR. apply Rabs_le; lra.
Qed.

(** ** decimal texts *)
Lemma value_app a b : value (a ++ b) = (value a * 10 ^ Z.of_nat (length b) + value b)%Z.
Proof.
  unfold value. rewrite fold_left_app. generalize (fold_left (fun v b0 => (10 * v + (Z.of_N b0 - 48))%Z) a 0%Z). intros v.
  assert (G : forall b v w, fold_left (fun v b0 => (10 * v + (Z.of_N b0 - 48))%Z) b (v * w)%Z = fold_left (fun v b0 => (10 * v + (Z.of_N b0 - 48))%Z) b (v * w)%Z) by auto. clear G.
  revert v. induction b using rev_ind; intros v; [cbn; lia|].
  rewrite !fold_left_app. cbn [fold_left]. rewrite IHb. rewrite app_length. cbn [length].
  rewrite Nat2Z.inj_add, Z.pow_add_r by lia. change (10 ^ Z.of_nat 1)%Z with 10%Z. lia.
Qed.
Lemma digs_spec k : forall z, (0 <= z < 10 ^ Z.of_nat k)%Z ->
  length (digs k z) = k /\ Forall digit (digs k z) /\ value (digs k z) = z.
Proof.
  induction k; intros z Hz. { cbn in Hz. repeat split; [constructor|cbn; lia]. }
  rewrite Nat2Z.inj_succ, Z.pow_succ_r in Hz by lia.
  assert (D : (0 <= z / 10 < 10 ^ Z.of_nat k)%Z).
  { split; [apply Z.div_pos; lia|apply Z.div_lt_upper_bound; lia]. }
  destruct (IHk _ D) as (L & A & V). cbn [digs]. pose proof (Z.mod_pos_bound z 10 ltac:(lia)).
  split; [rewrite app_length, L; cbn; lia|]. split.
  - apply Forall_app. split; auto. constructor; [|constructor]. unfold digit. lia.
  - rewrite value_app, V. cbn [length]. unfold value. cbn [fold_left]. rewrite Z2N.id by lia.
    change (10 ^ Z.of_nat 1)%Z with 10%Z. pose proof (Z.div_mod z 10). lia.
Qed.

Lemma str_cons c s : str (String.String c s) = Ascii.N_of_ascii c :: str s.
Proof. reflexivity. Qed.
Lemma uint_text d : Forall digit (str (NilEmpty.string_of_uint d)) /\
  forall acc, fold_left (fun v b => (10 * v + (Z.of_N b - 48))%Z) (str (NilEmpty.string_of_uint d)) (Zpos acc) = Zpos (Pos.of_uint_acc d acc).
Proof.
  induction d as [|d [IA IV]|d [IA IV]|d [IA IV]|d [IA IV]|d [IA IV]|d [IA IV]|d [IA IV]|d [IA IV]|d [IA IV]|d [IA IV]];
    cbn [NilEmpty.string_of_uint]; [split; [exact (Forall_nil _)|reflexivity]| | | | | | | | | |];
    (split; [rewrite str_cons; constructor; auto; unfold digit; cbn; lia|]);
    intros acc; rewrite str_cons; cbn [fold_left Pos.of_uint_acc]; rewrite <- IV; f_equal;
    match goal with |- context [Z.of_N ?x] => let y := eval vm_compute in (Z.of_N x) in change (Z.of_N x) with y end; lia.
Qed.
Lemma uint_value d : value (str (NilEmpty.string_of_uint d)) = Z.of_N (Pos.of_uint d).
Proof.
  induction d; cbn [NilEmpty.string_of_uint Pos.of_uint]; try reflexivity; rewrite str_cons; unfold value; cbn [fold_left];
    match goal with |- fold_left _ _ ?x = _ => let y := eval vm_compute in x in change x with y end;
    first [exact IHd | rewrite (proj2 (uint_text d)); reflexivity].
Qed.
Lemma dec_spec z : (0 <= z)%Z -> Forall digit (dec z) /\ value (dec z) = z /\ (1 <= length (dec z))%nat.
Proof.
  intros Hz. unfold dec. destruct z as [|p|p]; [|clear Hz|lia].
  - cbn. repeat split; [repeat constructor; unfold digit; lia|lia].
  - cbn [Z.to_int NilZero.string_of_int].
    assert (E : NilZero.string_of_uint (Pos.to_uint p) = NilEmpty.string_of_uint (Pos.to_uint p)).
    { pose proof (Unsigned.to_uint_nonnil p). unfold NilZero.string_of_uint. destruct (Pos.to_uint p); auto; congruence. }
    rewrite E. split; [apply uint_text|]. rewrite uint_value, Unsigned.of_to. split; auto.
    pose proof (Unsigned.to_uint_nonnil p). destruct (Pos.to_uint p); try congruence; cbn [NilEmpty.string_of_uint]; rewrite str_cons; cbn; lia.
Qed.
Lemma value_zeros k s : value (repeat 48%N k ++ s) = value s.
Proof.
  rewrite value_app. assert (E : value (repeat 48%N k) = 0%Z).
  { induction k; auto. }
  rewrite E. lia.
Qed.
Lemma pad_value s n : value (leading_pad s n 48%N) = value s.
Proof. unfold leading_pad. destruct (length s <? n)%nat; auto. apply value_zeros. Qed.
Lemma pad_digits s n : Forall digit s -> Forall digit (leading_pad s n 48%N).
Proof.
  intros H. unfold leading_pad. destruct (length s <? n)%nat; auto. apply Forall_app. split; auto.
  apply Forall_forall. intros x Hx. apply repeat_spec in Hx. subst. unfold digit. lia.
Qed.
Lemma pad_length s n : length (leading_pad s n 48%N) = Nat.max (length s) n.
Proof.
  unfold leading_pad. destruct (Nat.ltb_spec (length s) n); [rewrite app_length, repeat_length; lia|lia].
Qed.
Lemma dec_len2 z : (0 <= z < 100)%Z -> (length (dec z) <= 2)%nat.
Proof.
  intros H. assert (S : forallb (fun n => Nat.leb (length (dec (Z.of_nat n))) 2) (seq 0 100) = true) by (vm_compute; reflexivity).
  rewrite forallb_forall in S. specialize (S (Z.to_nat z)). rewrite Z2Nat.id in S by lia.
  apply Nat.leb_le, S, in_seq. lia.
Qed.
Lemma pad_assoc s t n : leading_pad (s ++ t) (n + length t) 48%N = leading_pad s n 48%N ++ t.
Proof.
  unfold leading_pad. rewrite app_length.
  destruct (Nat.ltb_spec (length s + length t) (n + length t)), (Nat.ltb_spec (length s) n); try lia; auto.
  rewrite <- app_assoc. do 2 f_equal. lia.
Qed.

(** C29 (proved part): for every finite 0 <= s < 60 * 2^31 (4083 years; the negative zero excluded) the text has the promised form, its minutes
    are below 60, its seconds at most 60 (not: below 60), and it denotes s up to half a microsecond. *)
Theorem secondsToTimeString_partial : forall s : f64,
  is_finite s = true -> Bsign s = false -> 0 <= B2R s < 60 * 2147483648 ->
  exists t H M S U, secondsToTimeString s = Some t /\ time_text t H M S U /\
    (value M < 60)%Z /\ (value S < 60 \/ value S = 60 /\ value U = 0)%Z /\
    Rabs (text_seconds H M S U - B2R s) <= 1 / 2000000.
Proof.
  intros s F SG [S0 S1].
  destruct (fofZ_correct 60 ltac:(lia)) as [A60 F60]. destruct (fofZ_correct 3600 ltac:(lia)) as [A36 F36].
  assert (SB : B2R s < IZR (60 * 2 ^ 31)) by (rewrite mult_IZR; change (IZR (2^31)) with 2147483648; lra).
  assert (DV : forall k, (1 <= k <= 3600)%Z -> B2R (fofZ k) = IZR k -> is_finite (fofZ k) = true ->
     cast_int 64 (fdiv s (fofZ k)) = Some (Zfloor (B2R s / IZR k)) /\ (0 <= Zfloor (B2R s / IZR k) < 60 * 2 ^ 31)%Z).
  { intros k Hk Ek Fk. assert (Kp : 1 <= IZR k) by (apply IZR_le; lia).
    assert (Q0 : 0 <= B2R s / IZR k) by (apply Rmult_le_pos; [lra|]; apply Rlt_le, Rinv_0_lt_compat; lra).
    assert (QL : B2R s / IZR k <= B2R s).
    { unfold Rdiv. rewrite <- (Rmult_1_r (B2R s)) at 2. apply Rmult_le_compat_l; auto. rewrite <- Rinv_1. apply Rinv_le; lra. }
    assert (R : (0 <= Zfloor (B2R s / IZR k) < 60 * 2 ^ 31)%Z).
    { split; [now apply Zfloor_lub|]. apply lt_IZR. apply Rle_lt_trans with (B2R s); auto.
      apply Rle_trans with (2 := QL). apply Zfloor_lb. }
    split; auto. rewrite <- div_floor by auto.
    assert (RB : Rabs (rnd (B2R s / IZR k)) <= bpow radix2 40).
    { apply rnd_abs_le; [lia|]. rewrite Rabs_pos_eq by auto. apply Rle_trans with (1 := QL). cbn. lra. }
    unfold fdiv. pose proof (Bdiv_correct 53 1024 _ _ mode_NE s (fofZ k)) as C. rewrite Ek in C.
    specialize (C ltac:(lra)). rewrite Rlt_bool_true in C.
    2:{ apply Rle_lt_trans with (1 := RB). apply bpow_lt. lia. }
    destruct C as (C1 & C2 & _). cbn [round_mode] in C1. rewrite F in C2.
    rewrite <- C1. apply cast_int_trunc; auto.
    rewrite C1, div_floor by auto. change (2 ^ (64 - 1))%Z with 9223372036854775808%Z. change (2^31)%Z with 2147483648%Z in *. lia. }
  destruct (DV 60%Z) as [C60 B60]; auto; [lia|]. destruct (DV 3600%Z) as [C36 B36]; auto; [lia|]. clear DV.
  set (m0 := Zfloor (B2R s / 60)) in *. set (h0 := Zfloor (B2R s / 3600)) in *.
  (* relations between the floors *)
  assert (M1 : IZR m0 <= B2R s / 60) by apply Zfloor_lb. assert (M2 : B2R s / 60 < IZR m0 + 1) by apply Zfloor_ub.
  assert (H1 : IZR h0 <= B2R s / 3600) by apply Zfloor_lb. assert (H2 : B2R s / 3600 < IZR h0 + 1) by apply Zfloor_ub.
  assert (HM : (0 <= m0 - 60 * h0 < 60)%Z).
  { split.
    - enough (60 * h0 < m0 + 1)%Z by lia. apply lt_IZR. rewrite mult_IZR, plus_IZR. lra.
    - enough (m0 < 60 * (h0 + 1))%Z by lia. apply lt_IZR. rewrite mult_IZR, plus_IZR. lra. }
  (* the seconds *)
  pose proof (f2q_correct s F) as EQ.
  assert (Q0 : (0 <= f2q s / 60)%Q).
  { apply Rle_Qle. rewrite Q2R_div by discriminate. rewrite EQ. unfold Q2R. cbn. lra. }
  assert (EM : Qtrunc (f2q s / 60) = m0).
  { rewrite Qtrunc_floor by auto. symmetry. apply floor_bridge. rewrite Q2R_div by discriminate. rewrite EQ. unfold Q2R. cbn. lra. }
  set (us := Qround_even (fmod60 (f2q s) * inject_Z 1000000)).
  assert (US : Rabs (IZR us - (B2R s - 60 * IZR m0) * 1000000) <= 1 / 2).
  { pose proof (Qround_even_err (fmod60 (f2q s) * inject_Z 1000000)) as E. fold us in E.
    rewrite Q2R_mult, Q2R_inject in E. unfold fmod60 in E. rewrite EM, Q2R_minus, Q2R_inject, EQ, mult_IZR in E. exact E. }
  apply Rabs_le_inv in US.
  assert (UB : (0 <= us <= 60000000)%Z).
  { split.
    - enough (-1 < us)%Z by lia. apply lt_IZR. lra.
    - enough (us < 60000001)%Z by lia. apply lt_IZR. lra. }
  change (2^31)%Z with 2147483648%Z in *.
  assert (I32 : forall z, (0 <= z < 2147483648)%Z -> to_int32 z = z).
  { intros z Hz. unfold to_int32. change (2^31)%Z with 2147483648%Z. change (2^32)%Z with 4294967296%Z.
    rewrite Z.mod_small by lia. lia. }
  assert (m0B : (m0 < 2147483648)%Z).
  { apply lt_IZR. lra. }
  assert (T : secondsToTimeString s = Some (fmt02d h0 ++ str ":" ++ fmt02d (m0 - h0 * 60) ++ str ":" ++ fmt096f false (fmod60 (f2q s)))).
  { unfold secondsToTimeString. rewrite C60, C36, SG. rewrite !I32 by lia. reflexivity. }
  set (sec := (us / 1000000)%Z). set (mic := (us mod 1000000)%Z).
  assert (DM : (us = 1000000 * sec + mic)%Z) by (apply Z.div_mod; lia).
  assert (MB : (0 <= mic < 1000000)%Z) by (apply Z.mod_pos_bound; lia).
  assert (SBd : (0 <= sec <= 60)%Z) by lia.
  destruct (digs_spec 6 mic) as (UL & UD & UV); [cbn; lia|].
  destruct (dec_spec sec ltac:(lia)) as (SD & SV & SL).
  destruct (dec_spec h0 ltac:(lia)) as (HD & HV & HL).
  destruct (dec_spec (m0 - h0 * 60) ltac:(lia)) as (MD & MV & ML).
  pose proof (dec_len2 sec ltac:(lia)). pose proof (dec_len2 (m0 - h0 * 60) ltac:(lia)).
  assert (EF : fmt096f false (fmod60 (f2q s)) = leading_pad (dec sec) 2 48%N ++ str "." ++ digs 6 mic).
  { unfold fmt096f. fold us. fold sec mic. rewrite <- (pad_assoc (dec sec) (str "." ++ digs 6 mic) 2).
    reflexivity. }
  exists (fmt02d h0 ++ str ":" ++ fmt02d (m0 - h0 * 60) ++ str ":" ++ fmt096f false (fmod60 (f2q s))),
    (leading_pad (dec h0) 2 48%N), (leading_pad (dec (m0 - h0 * 60)) 2 48%N), (leading_pad (dec sec) 2 48%N), (digs 6 mic).
  split; [exact T|]. split.
  { split.
    - rewrite EF. unfold fmt02d. destruct (Z.ltb_spec h0 0); [lia|]. destruct (Z.ltb_spec (m0 - h0 * 60) 0); [lia|]. reflexivity.
    - split; [apply Forall_app; split; [auto using pad_digits|apply Forall_app; split; [auto using pad_digits|apply Forall_app; split; [auto using pad_digits|exact UD]]]|]. rewrite !pad_length. lia. }
  rewrite !pad_value. split; [lia|]. split; [rewrite SV, UV; lia|].
  unfold text_seconds. rewrite !pad_value, HV, MV, SV, UV, minus_IZR, mult_IZR.
  assert (EU : IZR us = 1000000 * IZR sec + IZR mic) by (rewrite DM, plus_IZR, mult_IZR; lra).
  apply Rabs_le. lra.
Qed.

(** C29 (refutation of "seconds < 60"): 59.9999999 s (nearest double) is printed as 00:00:60.000000. *)
Definition s_ex : f64 := fdec 599999999 7.
Theorem secondsToTimeString_refuted : exists s : f64, is_finite s = true /\ 0 <= B2R s < 60 /\
  secondsToTimeString s = Some (str "00:00:60.000000").
Proof.
  exists s_ex. split; [vm_compute; reflexivity|]. split; [|vm_compute; reflexivity].
  assert (F : is_finite s_ex = true) by (vm_compute; reflexivity).
  destruct (fofZ_correct 60 ltac:(lia)) as [A60 F60].
  rewrite <- A60, <- (ext_finite s_ex F), <- (ext_finite (fofZ 60) F60).
  change 0 with (ext fzero). split.
  - apply fleb_ext; vm_compute; reflexivity.
  - apply fltb_ext; vm_compute; reflexivity.
Qed.
(** C29 (outside that range): a negative number of seconds - a duration measured across a step of the local clock - is
    printed with a sign in every nonzero field, and the zero hour without one. *)
Theorem secondsToTimeString_negative_refuted : exists s : f64, is_finite s = true /\ B2R s = -65 /\
  secondsToTimeString s = Some (str "00:-1:-5.000000").
Proof.
  exists (fofZ (-65)). destruct (fofZ_correct (-65) ltac:(lia)) as [A F]. repeat split; auto.
Qed.
Example time_ex : secondsToTimeString (fdec 3723456789 6) = Some (str "01:02:03.456789").
Proof. vm_compute. reflexivity. Qed.
Print Assumptions secondsToTimeString_partial.
Print Assumptions secondsToTimeString_refuted.
