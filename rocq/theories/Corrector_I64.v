(** The int64 instantiation: agreement with exact arithmetic on short recordings. *)
From Coq Require Import List ZArith QArith Lqa Sorted Lia Bool.
From Verif Require Import Float64 Round_Model Round_Proofs Nsec_Proofs.
From Verif Require Import Corrector_Model Corrector_Spec Corrector_Proofs Corrector_Hist.
Import ListNotations.
Open Scope Z_scope.

Notation ZP := (Point I64Time).
Notation zx := (@px I64Time).
Notation zy := (@py I64Time).
Definition zp (r l : Z) : ZP := @mkP I64Time r l.
Definition inj (p : ZP) : QP := qp (inject_Z (zx p)) (inject_Z (zy p)).

(** Two samples less than 2^31 ns (2.1 s) apart in both clocks. *)
Definition close (a b : ZP) : Prop := Z.abs (zx a - zx b) < 2 ^ 31 /\ Z.abs (zy a - zy b) < 2 ^ 31.
Definition bounded (a : ZP) : Prop := Z.abs (zx a) < 2 ^ 51 /\ Z.abs (zy a) < 2 ^ 51.
Definition Small (S : list ZP) : Prop := (forall a, In a S -> bounded a) /\ (forall a b, In a S -> In b S -> close a b).

Lemma chk64_ok z : - 2 ^ 63 <= z < 2 ^ 63 -> chk64 z = Some z.
Proof.
  intros H. unfold chk64. replace ((- 2 ^ 63 <=? z) && (z <? 2 ^ 63)) with true; auto.
  symmetry. apply andb_true_iff. split; [apply Z.leb_le|apply Z.ltb_lt]; lia.
Qed.

Lemma isAboveLine_I64 (a b s : ZP) : close a b -> close a s -> isAboveLine a b s = isAboveLine (inj a) (inj b) (inj s).
Proof.
  intros [H1 H2] [H3 H4]. rewrite isAboveLine_Q. unfold isAboveLine.
  cbn [t_sub t_mul t_le t_zero I64Time time_t obind] in *.
  change (2 ^ 31) with 2147483648 in *.
  rewrite (chk64_ok (zx b - zx a)), (chk64_ok (zy b - zy a)), (chk64_ok (zx s - zx a)), (chk64_ok (zy s - zy a))
    by (change (2 ^ 63) with 9223372036854775808; lia).
  cbn [obind].
  set (u := zx b - zx a) in *. set (v := zy s - zy a) in *. set (w := zy b - zy a) in *. set (z := zx s - zx a) in *.
  assert (U : - 2147483648 < u < 2147483648) by lia. assert (V : - 2147483648 < v < 2147483648) by lia.
  assert (W : - 2147483648 < w < 2147483648) by lia. assert (ZZ : - 2147483648 < z < 2147483648) by lia.
  assert (P1 : - 4611686018427387904 < u * v < 4611686018427387904) by nia.
  assert (P2 : - 4611686018427387904 < w * z < 4611686018427387904) by nia.
  rewrite (chk64_ok (u * v)), (chk64_ok (w * z)) by (change (2 ^ 63) with 9223372036854775808; lia). cbn [obind].
  rewrite chk64_ok by (change (2 ^ 63) with 9223372036854775808; lia). cbn [obind].
  f_equal.
  assert (E : (D (inj a) (inj b) (inj s) == inject_Z (u * v - w * z))%Q).
  { unfold D, inj, qp. cbn [px py]. unfold u, v, w, z.
    unfold Z.sub. rewrite !inject_Z_plus, !inject_Z_opp, !inject_Z_mult, !inject_Z_plus, !inject_Z_opp. ring. }
  destruct (0 <=? u * v - w * z) eqn:Eb.
  - symmetry. apply Qle_bool_iff. rewrite E. change 0%Q with (inject_Z 0). rewrite <- Zle_Qle. apply Z.leb_le; auto.
  - symmetry. apply Qle_bool_false. rewrite E. change 0%Q with (inject_Z 0). rewrite <- Zlt_Qlt. apply Z.leb_gt; auto.
Qed.

Lemma Small_incl S S' : incl S' S -> Small S -> Small S'.
Proof. intros H [H1 H2]. split; auto. Qed.

Lemma popWhile_I64 p h : Small (p :: h) -> option_map (map inj) (popWhile p h) = popWhile (inj p) (map inj h).
Proof.
  induction h as [|t r IH]; intros HS; [reflexivity|].
  destruct r as [|s r]; [reflexivity|].
  cbn [popWhile map]. rewrite isAboveLine_I64.
  2,3: apply HS; simpl; auto.
  rewrite isAboveLine_Q. cbn [obind]. destruct (Qle_bool _ _); [|reflexivity].
  apply IH. eapply Small_incl; [|exact HS]. intros x [->|Hx]; [left; auto|]. right. right. auto.
Qed.
Lemma pushPoint_I64 h p : Small (p :: h) -> option_map (map inj) (pushPoint h p) = pushPoint (map inj h) (inj p).
Proof.
  intros HS. unfold pushPoint.
  assert (E : isAboveTopLine h p = isAboveTopLine (map inj h) (inj p)).
  { destruct h as [|t [|s r]]; auto. cbn [isAboveTopLine map]. apply isAboveLine_I64; apply HS; simpl; auto. }
  rewrite E. destruct (isAboveTopLine (map inj h) (inj p)) as [[|]|]; cbn [obind]; auto.
  rewrite <- popWhile_I64 by auto. destruct (popWhile p h); reflexivity.
Qed.

(** The floating point parts are defined. *)
Open Scope R_scope.
Lemma rnd_abs_le' x M : format64 M -> Rabs x <= M -> Rabs (rnd x) <= M.
Proof.
  intros HM H. apply Rabs_le_inv in H. apply Rabs_le. split.
  - rewrite <- (rnd_id M HM), <- rnd_opp. apply rnd_le. lra.
  - rewrite <- (rnd_id M HM). apply rnd_le. lra.
Qed.
Lemma fdiv_rnd (x y : f64) M : is_finite x = true -> is_finite y = true -> B2R y <> 0 ->
  format64 M -> M < OMEGA -> Rabs (B2R x / B2R y) <= M ->
  B2R (fdiv x y) = rnd (B2R x / B2R y) /\ is_finite (fdiv x y) = true.
Proof.
  intros Fx Fy Hy HM HO H. pose proof (Bdiv_correct 53 1024 _ _ mode_NE x y Hy) as K. cbn [round_mode] in K.
  rewrite Rlt_bool_true in K; [unfold fdiv; rewrite Fx in K; tauto|].
  eapply Rle_lt_trans; [apply rnd_abs_le'; eauto|auto].
Qed.
Lemma fmul_rnd' (x y : f64) M : is_finite x = true -> is_finite y = true -> 
  format64 M -> M < OMEGA -> Rabs (B2R x * B2R y) <= M ->
  B2R (fmul x y) = rnd (B2R x * B2R y) /\ is_finite (fmul x y) = true.
Proof.
  intros Fx Fy HM HO H. pose proof (Bmult_correct 53 1024 _ _ mode_NE x y) as K. cbn [round_mode] in K.
  rewrite Rlt_bool_true in K; [unfold fmul; rewrite Fx, Fy in K; tauto|].
  eapply Rle_lt_trans; [apply rnd_abs_le'; eauto|auto].
Qed.
Lemma fadd_rnd' (x y : f64) M : is_finite x = true -> is_finite y = true -> 
  format64 M -> M < OMEGA -> Rabs (B2R x + B2R y) <= M ->
  B2R (fadd x y) = rnd (B2R x + B2R y) /\ is_finite (fadd x y) = true.
Proof.
  intros Fx Fy HM HO H. pose proof (Bplus_correct 53 1024 _ _ mode_NE x y Fx Fy) as K. cbn [round_mode] in K.
  rewrite Rlt_bool_true in K; [unfold fadd; tauto|].
  eapply Rle_lt_trans; [apply rnd_abs_le'; eauto|auto].
Qed.
Lemma big_lt_OMEGA x : x <= bpow radix2 100 -> x < OMEGA.
Proof. intros H. eapply Rle_lt_trans; [exact H|]. apply bpow_lt. reflexivity. Qed.
Lemma format_pow (k : Z) : (0 <= k < 100)%Z -> format64 (IZR (2 ^ k)).
Proof.
  intros H. replace (IZR (2 ^ k)) with (IZR 1 * bpow radix2 k).
  - apply format_scaled; lia.
  - rewrite Rmult_1_l. rewrite (IZR_Zpower radix2); [reflexivity|lia].
Qed.

Lemma t_mid_I64 (a b : Z) : (Z.abs a < 2 ^ 51)%Z -> (Z.abs b < 2 ^ 51)%Z ->
  t_mid I64Time a b = Some (Z.quot (a + b) 2).
Proof.
  intros Ha Hb. cbn [t_mid I64Time].
  change (2 ^ 51)%Z with 2251799813685248%Z in *.
  rewrite chk64_ok by (change (2 ^ 63)%Z with 9223372036854775808%Z; lia). cbn [obind].
  set (s := (a + b)%Z). assert (Hs : (Z.abs s < 4503599627370496)%Z) by lia.
  destruct (fofZ_correct s) as [E1 F1]; [change (2 ^ 53)%Z with 9007199254740992%Z; lia|].
  destruct (fofZ_correct 2) as [E2 F2]; [cbn; lia|].
  assert (Fm : format64 (IZR s / 2)).
  { replace (IZR s / 2) with (IZR s * bpow radix2 (-1)) by (rewrite bpow_m1; lra). apply format_scaled; [|lia].
    change (2 ^ 53)%Z with 9007199254740992%Z; lia. }
  assert (Rb : Rabs (IZR s / 2) <= IZR (2 ^ 52)).
  { assert (Rabs (IZR s) <= 4503599627370496) by (rewrite <- abs_IZR; apply IZR_le; lia).
    change (IZR (2 ^ 52)) with 4503599627370496. apply Rabs_le_inv in H. apply Rabs_le. lra. }
  destruct (fdiv_rnd (fofZ s) (fofZ 2) (IZR (2 ^ 52))) as [E3 F3]; auto.
  - rewrite E2. lra.
  - apply format_pow; lia.
  - apply big_lt_OMEGA. rewrite bpow_100. change (IZR (2 ^ 52)) with 4503599627370496. lra.
  - rewrite E1, E2. exact Rb.
  - rewrite E1, E2, rnd_id in E3 by auto.
    assert (T : Ztrunc (IZR s / 2) = Z.quot s 2).
    { destruct (Z_le_gt_dec 0 s).
      - rewrite Ztrunc_floor by (apply IZR_le in l; lra). apply Zfloor_imp.
        pose proof (Z.quot_rem' s 2). pose proof (Z.rem_bound_pos s 2 ltac:(lia) ltac:(lia)).
        rewrite plus_IZR. set (q := Z.quot s 2) in *. set (r := Z.rem s 2) in *. rewrite H, plus_IZR, mult_IZR.
        assert (0 <= IZR r < 2) by (split; [apply IZR_le|apply IZR_lt]; lia). lra.
      - assert (IZR s < 0) by (apply IZR_lt; lia). rewrite Ztrunc_ceil by lra.
        apply Zceil_imp. assert (EQ : (Z.quot s 2 = - Z.quot (- s) 2)%Z) by (rewrite Z.quot_opp_l; lia).
        pose proof (Z.quot_rem' (- s) 2). pose proof (Z.rem_bound_pos (- s) 2 ltac:(lia) ltac:(lia)).
        rewrite EQ. set (q := Z.quot (- s) 2) in *. set (r := Z.rem (- s) 2) in *.
        assert (IZR s = - (2 * IZR q + IZR r)).
        { rewrite <- mult_IZR, <- plus_IZR, <- opp_IZR. f_equal. lia. }
        assert (0 <= IZR r < 2) by (split; [apply IZR_le|apply IZR_lt]; lia). rewrite minus_IZR, opp_IZR. lra. }
    rewrite cast_int_trunc; rewrite ?E3, ?T; auto.
    assert (Z.abs (Z.quot s 2) <= Z.abs s)%Z.
    { Z.to_euclidean_division_equations. lia. }
    change (2 ^ (64 - 1))%Z with 9223372036854775808%Z. lia.
Qed.

Lemma t_line_I64 (x1 y1 x2 y2 r : Z) : (0 < x2 - x1 < 2 ^ 31)%Z -> (Z.abs (y2 - y1) < 2 ^ 31)%Z ->
  (Z.abs (r - x1) < 2 ^ 31)%Z -> (Z.abs y1 < 2 ^ 51)%Z -> exists t, t_line I64Time x1 y1 x2 y2 r = Some t.
Proof.
  intros Hx Hy Hr Hy1. cbn [t_line I64Time].
  change (2 ^ 31)%Z with 2147483648%Z in *. change (2 ^ 51)%Z with 2251799813685248%Z in *.
  rewrite !chk64_ok by (change (2 ^ 63)%Z with 9223372036854775808%Z; lia). cbn [obind].
  set (dy := (y2 - y1)%Z) in *. set (dx := (x2 - x1)%Z) in *. set (dr := (r - x1)%Z) in *.
  assert (B53 : (2 ^ 53 = 9007199254740992)%Z) by reflexivity.
  destruct (fofZ_correct dy) as [E1 F1]; [lia|]. destruct (fofZ_correct dx) as [E2 F2]; [lia|].
  destruct (fofZ_correct dr) as [E3 F3]; [lia|]. destruct (fofZ_correct y1) as [E4 F4]; [lia|].
  assert (Ddx : 1 <= IZR dx) by (apply IZR_le; lia).
  assert (Ady : Rabs (IZR dy) <= 2147483648) by (rewrite <- abs_IZR; apply IZR_le; lia).
  assert (Adr : Rabs (IZR dr) <= 2147483648) by (rewrite <- abs_IZR; apply IZR_le; lia).
  assert (Ay1 : Rabs (IZR y1) <= 2251799813685248) by (rewrite <- abs_IZR; apply IZR_le; lia).
  assert (Q1 : Rabs (IZR dy / IZR dx) <= IZR (2 ^ 31)).
  { change (IZR (2 ^ 31)) with 2147483648. unfold Rdiv. rewrite Rabs_mult.
    assert (0 < / IZR dx <= 1).
    { split; [apply Rinv_0_lt_compat; lra|]. rewrite <- Rinv_1. apply Rinv_le; lra. }
    rewrite (Rabs_right (/ IZR dx)) by lra. pose proof (Rabs_pos (IZR dy)). nra. }
  destruct (fdiv_rnd (fofZ dy) (fofZ dx) (IZR (2 ^ 31))) as [E5 F5]; auto.
  { rewrite E2. lra. } { apply format_pow; lia. }
  { apply big_lt_OMEGA. rewrite bpow_100. change (IZR (2 ^ 31)) with 2147483648. lra. } { rewrite E1, E2; auto. }
  rewrite E1, E2 in E5.
  assert (Q1' : Rabs (rnd (IZR dy / IZR dx)) <= 2147483648) by (apply (rnd_abs_le' _ (IZR (2 ^ 31))); [apply format_pow; lia|auto]).
  assert (Q2 : Rabs (rnd (IZR dy / IZR dx) * IZR dr) <= IZR (2 ^ 62)).
  { rewrite Rabs_mult. change (IZR (2 ^ 62)) with 4611686018427387904.
    pose proof (Rabs_pos (rnd (IZR dy / IZR dx))). pose proof (Rabs_pos (IZR dr)). nra. }
  destruct (fmul_rnd' (fdiv (fofZ dy) (fofZ dx)) (fofZ dr) (IZR (2 ^ 62))) as [E6 F6]; auto.
  { apply format_pow; lia. }
  { apply big_lt_OMEGA. rewrite bpow_100. change (IZR (2 ^ 62)) with 4611686018427387904. lra. } { rewrite E5, E3; auto. }
  rewrite E5, E3 in E6.
  assert (Q2' : Rabs (rnd (rnd (IZR dy / IZR dx) * IZR dr)) <= 4611686018427387904)
    by (apply (rnd_abs_le' _ (IZR (2 ^ 62))); [apply format_pow; lia|auto]).
  set (M := 2049 * bpow radix2 51).
  assert (EM : M = 4613937818241073152) by (unfold M; cbn; lra).
  assert (FM : format64 M) by (apply (format_scaled 2049 51); lia).
  assert (Q3 : Rabs (IZR y1 + rnd (rnd (IZR dy / IZR dx) * IZR dr)) <= M).
  { rewrite EM. eapply Rle_trans; [apply Rabs_triang|]. lra. }
  destruct (fadd_rnd' (fofZ y1) (fmul (fdiv (fofZ dy) (fofZ dx)) (fofZ dr)) M) as [E7 F7]; auto.
  { apply big_lt_OMEGA. rewrite bpow_100, EM. lra. } { rewrite E4, E6; auto. }
  rewrite E4, E6 in E7.
  pose proof (rnd_abs_le' _ M FM Q3) as Q3'. rewrite <- E7 in Q3'.
  exists (Ztrunc (B2R (fadd (fofZ y1) (fmul (fdiv (fofZ dy) (fofZ dx)) (fofZ dr))))).
  apply cast_int_trunc; auto. revert Q3'. generalize (B2R (fadd (fofZ y1) (fmul (fdiv (fofZ dy) (fofZ dx)) (fofZ dr)))). intros z Q3'.
  pose proof (Ztrunc_err z) as T. apply Rabs_lt_inv in T. apply Rabs_le_inv in Q3'.
  change (2 ^ (64 - 1))%Z with 9223372036854775808%Z.
  split; [apply le_IZR; rewrite opp_IZR|apply lt_IZR]; lra.
Qed.

Open Scope Z_scope.
Lemma later_inj a b : later (inj a) (inj b) <-> zx b < zx a.
Proof. unfold later, inj, qp. cbn [px]. rewrite <- Zlt_Qlt. reflexivity. Qed.

Lemma lbZ_first (v : list ZP) p m : zx p < m -> (1 <= lowerBound (p :: v) m)%nat.
Proof. intros H. cbn [lowerBound]. change (t_lt I64Time) with Z.ltb. destruct (Z.ltb_spec (zx p) m); lia. Qed.
Lemma lbZ_last (v : list ZP) p m : m <= zx p -> (lowerBound (v ++ [p]) m <= length v)%nat.
Proof.
  intros H. induction v as [|a v IH]; cbn [lowerBound app length]; change (t_lt I64Time) with Z.ltb.
  - destruct (Z.ltb_spec (zx p) m); lia.
  - destruct (Z.ltb_spec (zx a) m); lia.
Qed.

Lemma segment_total' (T : TimeType) (c : core T) : (Datatypes.S (mid c) < length (hull c))%nat ->
  exists a b l r, segment c = Some (a, b) /\ hull c = l ++ b :: a :: r.
Proof.
  intros H. unfold segment, points.
  destruct (nth_error (rev (hull c)) (mid c)) as [a|] eqn:E1.
  2:{ apply nth_error_None in E1. rewrite rev_length in E1. lia. }
  destruct (nth_error (rev (hull c)) (Datatypes.S (mid c))) as [b|] eqn:E2.
  2:{ apply nth_error_None in E2. rewrite rev_length in E2. lia. }
  exists a, b. apply nth_error_split in E1. destruct E1 as (l1 & l2 & E & Hlen).
  rewrite E in E2. rewrite nth_error_app2 in E2 by lia.
  replace (Datatypes.S (mid c) - length l1)%nat with 1%nat in E2 by lia.
  destruct l2 as [|q l2]; [discriminate|]. cbn in E2. injection E2 as ->.
  apply (f_equal (@rev _)) in E. rewrite rev_involutive, rev_app_distr in E. simpl in E.
  rewrite <- !app_assoc in E. exists (rev l2), (rev l1). split; [reflexivity|exact E].
Qed.

Lemma In_last (X : Type) (l : list X) q d : In (last (q :: l) d) (q :: l).
Proof. revert q. induction l as [|u l IH]; intros q; [left; auto|]. right. exact (IH u). Qed.
Lemma inj_inj (a b : ZP) : inj a = inj b -> a = b.
Proof.
  destruct a as [x1 x2], b as [y1 y2]. intros E.
  pose proof (f_equal (fun p => Qnum (qx p)) E) as E1. pose proof (f_equal (fun p => Qnum (qy p)) E) as E2.
  cbn in E1, E2. congruence.
Qed.
Lemma incl_map_inj h S : incl (map inj h) (map inj S) -> incl h S.
Proof.
  intros H x Hx. specialize (H (inj x) (in_map inj _ _ Hx)). apply in_map_iff in H.
  destruct H as (y & E & Hy). apply inj_inj in E. subst. auto.
Qed.

Lemma core_I64 (c : core I64Time) (S : list ZP) (r l : Z) :
  Inv (map inj (hull c)) (map inj S) -> Small (zp r l :: S) ->
  (correctCore c r l = Throw TimeWentBackwards c /\ exists t S', S = t :: S' /\ r <= zx t) \/
  (exists v c', correctCore c r l = Ret v c' /\ Inv (map inj (hull c')) (map inj (zp r l :: S)) /\
     match S with t :: _ => zx t < r | [] => True end).
Proof.
  intros Hi HS. unfold correctCore. pose proof (i_hd _ _ Hi) as Hd.
  assert (Hinj : forall a b, inj a = inj b -> a = b).
  { apply inj_inj. }
  assert (Hhd : hd_error (hull c) = hd_error S).
  { destruct (hull c) as [|t h], S as [|t' S']; simpl in Hd; try discriminate; auto.
    cbn [hd_error map] in *. f_equal. apply inj_inj. congruence. }
  change (t_le I64Time) with Z.leb.
  destruct (match hull c with top :: _ => r <=? zx top | [] => false end) eqn:E0.
  { left. split; auto. destruct (hull c) as [|t h]; [discriminate|]. destruct S as [|t' S']; [discriminate|].
    injection Hhd as ->. exists t', S'. split; auto. apply Z.leb_le; auto. }
  right. change (@mkP I64Time r l) with (zp r l). set (p := zp r l) in *.
  assert (Hacc : match S with t :: _ => zx t < r | [] => True end).
  { destruct S as [|t' S']; auto. destruct (hull c) as [|t h]; [discriminate|]. injection Hhd as ->. apply Z.leb_gt; auto. }
  assert (HI : incl (hull c) S) by (apply incl_map_inj, (i_incl _ _ Hi)).
  assert (HSh : Small (p :: hull c)).
  { eapply Small_incl; [|exact HS]. intros x [->|Hx]; [left; auto|right; auto]. }
  pose proof (pushPoint_I64 (hull c) p HSh) as EP.
  destruct (push_inv (map inj (hull c)) (map inj S) (inj p)) as (h'' & E1 & Hi'); auto.
  { destruct (hull c) as [|t h]; [exact I|]. destruct S as [|t' S']; [discriminate|]. injection Hhd as ->. cbn [map].
    apply (later_inj p t'). exact Hacc. }
  rewrite E1 in EP. destruct (pushPoint (hull c) p) as [h|]; [|discriminate]. cbn [option_map] in EP.
  assert (EP' : map inj h = inj p :: h'') by congruence.
  destruct h as [|p' h']; [discriminate|]. cbn [map] in EP'.
  assert (p' = p) by (apply Hinj; congruence). subst p'.
  rewrite <- EP' in Hi'. change (inj p :: map inj S) with (map inj (p :: S)) in Hi'. change (inj p :: map inj h') with (map inj (p :: h')) in Hi'.
  assert (HI' : incl (p :: h') (p :: S)) by (apply incl_map_inj, (i_incl _ _ Hi')).
  assert (HS' : Small (p :: h')) by (eapply Small_incl; eauto).
  destruct (Nat.ltb_spec (length (p :: h')) 3) as [Hlt|Hge].
  { exists l, (mkCore (p :: h') (mid c)). auto. }
  set (x0 := last (p :: h') p).
  assert (Hx0in : In x0 (p :: h')).
  { apply In_last. }
  (* at least two steps between the first and the new sample *)
  assert (Hx0 : zx x0 + 2 <= r).
  { destruct h' as [|q [|u h']]; try (simpl in Hge; lia).
    pose proof (i_hs _ _ Hi') as Hs. cbn [map] in Hs. apply StronglySorted_inv in Hs. destruct Hs as [Hs1 Hs2].
    apply StronglySorted_inv in Hs1. destruct Hs1 as [Hs3 Hs4].
    assert (K1 : zx q < r) by (inversion Hs2; subst; apply (later_inj p q); auto).
    assert (K2 : zx x0 < zx q); [|lia].
    apply later_inj. rewrite Forall_forall in Hs4. apply Hs4. apply (in_map inj (u :: h')).
    unfold x0. change (last (p :: q :: u :: h') p) with (last (u :: h') p).
    apply In_last. }
  destruct (proj1 HS' x0 Hx0in) as [Bx0 _]. destruct (proj1 HS p (or_introl eq_refl)) as [Br Bl].
  change (zx p) with r in Br. change (zy p) with l in Bl.
  rewrite t_mid_I64 by auto.
  set (m := Z.quot (zx x0 + r) 2).
  assert (Hm : zx x0 < m <= r).
  { unfold m. Z.to_euclidean_division_equations. lia. }
  assert (Hlb1 : (1 <= lowerBound (rev (p :: h')) m)%nat).
  { pose proof (hd_error_rev _ (p :: h')) as E. cbn [hd_error] in E. fold x0 in E.
    destruct (rev (p :: h')) as [|q v]; [discriminate|]. injection E as ->. apply lbZ_first; lia. }
  assert (Hlb2 : (lowerBound (rev (p :: h')) m <= length h')%nat).
  { cbn [rev]. rewrite <- (rev_length h'). apply lbZ_last. change (zx p) with r. lia. }
  destruct (lowerBound (rev (p :: h')) m) as [|i]; [lia|].
  set (c' := mkCore (p :: h') i).
  assert (Hc' : (Datatypes.S (mid c') < length (hull c'))%nat) by (cbn [mid hull c' length]; lia).
  destruct (segment_total' _ c' Hc') as (a & b & ll & rr & Es & Eh).
  unfold getLocalTime. destruct (Nat.ltb_spec (length (hull c')) 2); [lia|].
  rewrite Es. cbn [obind fst snd]. cbn [hull c'] in Eh.
  assert (Ia : In a (p :: h')) by (rewrite Eh; apply in_app_iff; right; right; left; auto).
  assert (Ib : In b (p :: h')) by (rewrite Eh; apply in_app_iff; right; left; auto).
  assert (Hab : zx a < zx b).
  { apply later_inj. pose proof (i_hs _ _ Hi') as Hs. rewrite Eh, map_app in Hs. cbn [map] in Hs.
    apply SS_app_r in Hs. inversion Hs; subst. inversion H3; auto. }
  destruct (proj2 HS' a b Ia Ib) as [C1 C2].
  destruct (proj2 HS' p a (or_introl eq_refl) Ia) as [C3 C4].
  destruct (proj1 HS' a Ia) as [B1 B2]. change (zx p) with r in *.
  destruct (t_line_I64 (zx a) (zy a) (zx b) (zy b) r) as [t Et]; auto; try lia.
  change (@px I64Time) with zx in *. change (@py I64Time) with zy in *. rewrite Et. exists t, c'. auto.
Qed.

(** Histories *)
Definition zsample := (Z * Z)%type.
Definition q_of (s : zsample) : sample := (inject_Z (fst s), inject_Z (snd s)).
Inductive zreply := ZReturned (t : Z) | ZThrew (e : exn).
Definition step2z (st : option (corrector I64Time * list zreply)) (s : zsample) :=
  match st with
  | None => None
  | Some (c, rs) =>
      match correctTimestamp c (fst s : time_t I64Time) (snd s : time_t I64Time) with
      | Ret t c' => Some (c', rs ++ [ZReturned t])
      | Throw e c' => Some (c', rs ++ [ZThrew e])
      | Undef => None
      end
  end.
Definition run2z (calls : list zsample) := fold_left step2z calls (Some (newCorrector I64Time, [])).
(** Any two of the samples are less than 2^31 ns apart, and all lie within +-2^51 ns (26 days) of the epoch. *)
Definition short_recording (calls : list zsample) : Prop :=
  (forall s, In s calls -> Z.abs (fst s) < 2 ^ 51 /\ Z.abs (snd s) < 2 ^ 51) /\
  (forall s t, In s calls -> In t calls -> Z.abs (fst s - fst t) < 2 ^ 31 /\ Z.abs (snd s - snd t) < 2 ^ 31).

Definition hull_samples_z (c : core I64Time) : list sample := map (fun p => (inject_Z (zx p), inject_Z (zy p))) (points c).

Lemma run2z_ok calls : short_recording calls ->
  exists c rs, run2z calls = Some (c, rs) /\ LowerHull (accepted (map q_of calls)) (hull_samples_z (main c)).
Proof.
  intros HB.
  assert (G : forall done todo, calls = done ++ todo -> exists c rs S, run2z done = Some (c, rs) /\
     accepted (map q_of done) = map smp (rev (map inj S)) /\ incl S (map (fun s => zp (fst s) (snd s)) calls) /\
     Inv (map inj (hull (main c))) (map inj S)).
  { induction done as [|s done IH] using rev_ind; intros todo E.
    - exists (newCorrector I64Time), [], []. conjs; auto; [easy|apply inv_empty].
    - destruct (IH (s :: todo)) as (c & rs & S & R & EA & HI & Hi); [rewrite E, <- app_assoc; auto|].
      unfold run2z, accepted in *. rewrite map_app, !fold_left_app. cbn [map fold_left]. rewrite R. cbn [step2z].
      unfold correctTimestamp. rewrite EA.
      assert (Hs : In (zp (fst s) (snd s)) (map (fun s => zp (fst s) (snd s)) calls)).
      { apply (in_map (fun s => zp (fst s) (snd s))). rewrite E. rewrite !in_app_iff. left. right. left. auto. }
      assert (SM : Small (zp (fst s) (snd s) :: S)).
      { apply Small_incl with (map (fun s => zp (fst s) (snd s)) calls).
        - intros x [<-|Hx]; auto.
        - destruct HB as [B1 B2]. split.
          + intros a Ha. apply in_map_iff in Ha. destruct Ha as (s' & <- & Hs'). apply (B1 s' Hs').
          + intros a b Ha Hb. apply in_map_iff in Ha, Hb. destruct Ha as (s' & <- & Hs'), Hb as (s'' & <- & Hs'').
            apply (B2 s' s''); auto. }
      assert (SS : StronglySorted later (map inj S)) by apply Hi.
      destruct (core_I64 (main c) S (fst s) (snd s) Hi SM) as [[ET (t & S' & -> & Hle)]|(v & c' & ER & Hi' & Hacc)].
      + rewrite ET. exists (mkC (main c) (pending c)), (rs ++ [ZThrew TimeWentBackwards]), (t :: S').
        conjs; auto.
        rewrite offer_no; [reflexivity|]. intros K. specialize (K (smp (inj t))).
        assert (In (smp (inj t)) (map smp (rev (map inj (t :: S'))))).
        { apply in_map. apply -> in_rev. left. auto. }
        specialize (K H). cbn in K. rewrite <- Zlt_Qlt in K. lia.
      + rewrite ER. exists (mkC c' (pending c)), (rs ++ [ZReturned v]), (zp (fst s) (snd s) :: S).
        conjs; auto.
        * rewrite offer_yes.
          -- cbn [map rev]. rewrite map_app. reflexivity.
          -- intros x Hx. apply in_map_iff in Hx. destruct Hx as (y & <- & Hy). apply in_rev in Hy.
             destruct S as [|t S']; [easy|]. cbn [q_of fst smp].
             assert (later (inj (zp (fst s) (snd s))) y).
             { destruct Hy as [<-|Hy]; [apply later_inj; exact Hacc|].
               inversion SS; subst. rewrite Forall_forall in H2. specialize (H2 _ Hy).
               apply (later_inj (zp (fst s) (snd s)) t) in Hacc. unfold later in *. eapply Qlt_trans; eauto. }
             exact H.
        * intros x [<-|Hx]; auto. }
  destruct (G calls []) as (c & rs & S & R & EA & _ & Hi); [rewrite app_nil_r; auto|].
  exists c, rs. split; auto. rewrite EA.
  apply hull_correct in Hi. unfold hull_samples_z, points. 
  rewrite <- map_rev in Hi |- *. rewrite <- map_rev in Hi. rewrite !map_map in Hi |- *. rewrite (map_map inj smp (rev (hull (main c)))) in Hi. exact Hi.
Qed.
