(** C149: numerical Jacobians in binary64. *)
From Coq Require Import Reals Psatz Lia.
From Coquelicot Require Import Coquelicot.
From Verif Require Import Float64 Nsec_Proofs TimerTable_Num Round_Proofs Kin_Float_Model Kin_Float_Num Kin_FloatExp_Props Kin_FloatMat_Props Kin_FloatSlerp_Props NumDiff_FloatModel.
Import ListNotations.
Open Scope R_scope.

(** ** specification *)
(** x with coordinate c replaced by y *)
Definition put (x : list f64) (c : nat) (y : f64) : list f64 := map (fun j => if Nat.eqb j c then y else nth j x fzero) (seq 0 (length x)).
Definition steady (f : list f64 -> list f64) (x : list f64) : Prop := forall c y, (c < length x)%nat -> length (f (put x c y)) = length (f x).
Definition fentry (J : list (list f64)) (i c : nat) : f64 := nth i (nth c J []) fzero.
Definition fshape (J : list (list f64)) (m n : nat) : Prop := length J = n /\ Forall (fun col => length col = m) J.

(** ** structure *)
Lemma fupdate_put x c d : (c < length x)%nat -> fupdate x c d = put x c (fadd (nth c x fzero) d).
Proof.
  unfold put. revert c. induction x as [|a x IH]; intros c H; [cbn in H; lia|]. cbn [length seq map nth]. destruct c as [|c]; cbn [fupdate Nat.eqb nth].
  - f_equal. rewrite <- seq_shift, map_map. cbn [nth Nat.eqb]. clear. induction x as [|b x IH]; auto. cbn [length seq map nth]. f_equal. rewrite <- seq_shift, map_map. exact IH.
  - f_equal. cbn [length] in H. rewrite IH by lia. rewrite <- seq_shift, map_map. reflexivity.
Qed.
Lemma fminus_some a b : length a = length b -> exists d, fminus a b = Some d /\ length d = length a /\ forall i, (i < length a)%nat -> nth i d fzero = fsub (nth i a fzero) (nth i b fzero).
Proof.
  revert b. induction a as [|x a IH]; intros [|y b] L; try discriminate L; cbn [fminus length nth]. exists []. repeat split; auto. intros i H. lia.
  destruct (IH b) as (d & E & Ld & Hd). auto. rewrite E. exists (fsub x y :: d). repeat split; auto. cbn; lia. intros [|i] H; cbn; auto. apply Hd. lia.
Qed.
Lemma fall_some_map {T} (g : nat -> option T) l : (forall c, In c l -> exists v, g c = Some v) -> exists vs, fall_some (map g l) = Some vs /\ length vs = length l /\ (forall k d, (k < length l)%nat -> g (nth k l 0%nat) = Some (nth k vs d)).
Proof.
  induction l as [|c l IH]; intros H; cbn. exists []. repeat split; auto. intros; lia. destruct (H c (or_introl eq_refl)) as [v E]. destruct IH as (vs & F & L & K). intros; apply H; right; auto. rewrite E, F. exists (v :: vs). repeat split; cbn; auto. intros [|k] d Hk; auto. apply K. lia.
Qed.
(** the difference quotient the program forms from the two function values of row i *)
Definition quotient (recip : bool) (p m h : f64) : f64 := if recip then fmul (fsub p m) (fdiv (fofZ 1) (fmul h (fofZ 2))) else fdiv (fsub p m) (fmul h (fofZ 2)).
Lemma fover_nth recip d s i : (i < length d)%nat -> length (fover recip d s) = length d /\ nth i (fover recip d s) fzero = if recip then fmul (nth i d fzero) (fdiv (fofZ 1) s) else fdiv (nth i d fzero) s.
Proof.
  intros H. unfold fover. destruct recip; (split; [apply map_length|]).
  - rewrite (nth_indep _ fzero (fmul fzero (fdiv (fofZ 1) s))) by now rewrite map_length. now rewrite (map_nth (fun v => fmul v (fdiv (fofZ 1) s))).
  - rewrite (nth_indep _ fzero (fdiv fzero s)) by now rewrite map_length. now rewrite (map_nth (fun v => fdiv v s)).
Qed.
Lemma fover_length recip d s : length (fover recip d s) = length d. Proof. unfold fover. destruct recip; apply map_length. Qed.
(** which matrix is returned, for every function, point and step *)
Theorem float_jacobian_quotients recip f eps x : steady f x -> exists J, fst (festimateJacobian recip f eps x) = Some J /\ fshape J (length (f x)) (length x) /\
  forall i c, (i < length (f x))%nat -> (c < length x)%nat -> let h := frcEps eps x c in let xc := nth c x fzero in
    fentry J i c = quotient recip (nth i (f (put x c (fadd xc h))) fzero) (nth i (f (put x c (fadd xc (fneg h)))) fzero) h.
Proof.
  intros C. unfold festimateJacobian. cbn [fst].
  assert (Col : forall c, (c < length x)%nat -> exists v, fcolumn recip f eps x (length (f x)) c = Some v /\ length v = length (f x) /\ forall i, (i < length (f x))%nat -> nth i v fzero = quotient recip (nth i (f (put x c (fadd (nth c x fzero) (frcEps eps x c)))) fzero) (nth i (f (put x c (fadd (nth c x fzero) (fneg (frcEps eps x c))))) fzero) (frcEps eps x c)).
  { intros c Hc. unfold fcolumn. cbv zeta. rewrite !fupdate_put by assumption. set (p := f (put x c _)). set (m := f (put x c _)). assert (LP : length p = length (f x)) by (apply C; assumption). assert (LM : length m = length (f x)) by (apply C; assumption).
    destruct (fminus_some p m) as (d & E & L & D); [congruence|]. rewrite E, L, LP, Nat.eqb_refl. eexists. split; [reflexivity|]. split; [now rewrite fover_length, L|]. intros i Hi. destruct (fover_nth recip d (fmul (frcEps eps x c) (fofZ 2)) i) as [_ ->]; [lia|]. rewrite D by lia. reflexivity. }
  destruct (fall_some_map (fcolumn recip f eps x (length (f x))) (seq 0 (length x))) as (J & E & L & K).
  { intros c Hc. apply in_seq in Hc. destruct (Col c) as (v & Hv & _); [lia|]. eauto. }
  exists J. rewrite seq_length in *. split; [exact E|]. split.
  - split; [exact L|]. apply Forall_forall. intros v Hv. destruct (In_nth _ _ [] Hv) as (k & Hk & <-). specialize (K k [] ltac:(lia)). rewrite seq_nth in K by lia. cbn in K. destruct (Col k ltac:(lia)) as (w & Hw & Lw & _). rewrite Hw in K. inversion K. subst. auto.
  - intros i c Hi Hc. cbv zeta. specialize (K c [] Hc). rewrite seq_nth in K by lia. cbn in K. destruct (Col c Hc) as (w & Hw & _ & Dw). rewrite Hw in K. inversion K as [EQ]. unfold fentry. rewrite <- EQ. auto.
Qed.
(** where the function is evaluated: at x, and with one coordinate moved by the step, all others untouched bit for bit *)
Theorem float_jacobian_calls recip f eps x : snd (festimateJacobian recip f eps x) =
  x :: flat_map (fun c => let h := frcEps eps x c in let xc := nth c x fzero in [put x c (fadd xc h); put x c (fadd xc (fneg h))]) (seq 0 (length x)).
Proof.
  unfold festimateJacobian. cbn [snd]. f_equal. rewrite !flat_map_concat_map. f_equal. apply map_ext_in. intros c Hc. apply in_seq in Hc. cbv zeta. now rewrite !fupdate_put by lia.
Qed.

(** ** the step *)
Lemma two_val : B2R (fofZ 2) = 2 /\ is_finite (fofZ 2) = true. Proof. destruct (fofZ_correct 2 ltac:(cbn; lia)) as [E F]. auto. Qed.
Lemma fabs_val (x : f64) : is_finite x = true -> B2R (fabs x) = Rabs (B2R x) /\ is_finite (fabs x) = true.
Proof. intros F. unfold fabs. split; [apply B2R_Babs|]. rewrite is_finite_Babs. exact F. Qed.
Lemma fmax_val (a b : f64) : is_finite a = true -> is_finite b = true -> B2R (fmax a b) = Rmax (B2R a) (B2R b) /\ is_finite (fmax a b) = true.
Proof.
  intros FA FB. unfold fmax. pose proof (fltb_ext a b (is_nan_finite _ FA) (is_nan_finite _ FB)) as B. rewrite !ext_finite in B by assumption. destruct (fltb a b).
  - split; [|exact FB]. rewrite Rmax_right; [reflexivity|]. apply Rlt_le, B. reflexivity.
  - split; [|exact FA]. rewrite Rmax_left; [reflexivity|]. destruct (Rle_dec (B2R b) (B2R a)) as [|G]; [assumption|]. exfalso. assert (false = true) by (apply B; lra). discriminate.
Qed.
Definition step (eps : f64) (xc : f64) : R := Rmax (Rabs (B2R xc) * B2R eps) (B2R eps).
Lemma step_err eps x c : is_finite eps = true -> bpow radix2 (-40) <= B2R eps <= 1 / 2 -> is_finite (nth c x fzero) = true -> Rabs (B2R (nth c x fzero)) <= bpow radix2 900 ->
  let h := frcEps eps x c in is_finite h = true /\ B2R eps <= B2R h <= bpow radix2 900 /\ Rabs (B2R h - step eps (nth c x fzero)) <= 101 / 100 * u * step eps (nth c x fzero).
Proof.
  intros FE EB FX XB h. unfold h, frcEps, step. set (xc := nth c x fzero) in *. clearbody xc. destruct (fabs_val xc FX) as [VA FA]. pose proof u53_pos as UP. pose proof u_val as UV. pose proof (Rabs_pos (B2R xc)) as X0. pose proof (bpow_gt_0 radix2 (-40)) as E40.
  set (a := Rabs (B2R xc)) in *. set (e := B2R eps) in *. assert (VB : 0 <= a * e) by (apply Rmult_le_pos; lra). assert (AE : a * e <= a * 1) by (apply Rmult_le_compat_l; lra).
  destruct (fmul_rnd (fabs xc) eps 900 FA FE ltac:(lia)) as [EM FM]. { rewrite VA. fold e. rewrite Rabs_pos_eq; lra. } rewrite VA in EM. fold e in EM.
  destruct (fmax_val _ _ FM FE) as [VX FV]. fold e in VX. rewrite EM in VX. split; [exact FV|]. rewrite VX. clear VX FV EM FM VA FA.
  assert (ONE : e <= bpow radix2 900) by (apply Rle_trans with (bpow radix2 0); [change (bpow radix2 0) with 1; lra|apply bpow_le; lia]).
  assert (RB : rnd (a * e) <= bpow radix2 900). { rewrite <- (rnd_id (bpow radix2 900)) by (apply generic_format_bpow; cbn; lia). apply rnd_le. lra. }
  split; [split; [apply Rmax_r|apply Rmax_lub; lra]|].
  assert (EE : rnd e = e) by (apply rnd_id; apply (generic_format_B2R 53 1024)).
  destruct (Rle_dec (a * e) e) as [L|L].
  - rewrite (Rmax_right (a * e) e L). rewrite Rmax_right by (rewrite <- EE at 2; apply rnd_le; lra). rewrite Rminus_diag_eq, Rabs_R0 by reflexivity. repeat apply Rmult_le_pos; lra.
  - assert (G : e <= a * e) by lra. rewrite (Rmax_left (a * e) e) by lra. rewrite Rmax_left by (rewrite <- EE at 1; apply rnd_le; lra). pose proof (rnd_err (a * e)) as RE. rewrite (Rabs_pos_eq (a * e)) in RE by lra.
    assert (EU : eta <= 1 / 100 * u * bpow radix2 (-40)). { apply Rle_trans with (bpow radix2 (-7) * bpow radix2 (-53) * bpow radix2 (-40)); [rewrite <- !bpow_plus; apply bpow_le; lia|]. apply Rmult_le_compat_r; [lra|]. apply Rmult_le_compat_r; [lra|]. replace (bpow radix2 (-7)) with (/ 128) by (cbn; lra). lra. }
    assert (1 / 100 * u * bpow radix2 (-40) <= 1 / 100 * u * (a * e)) by (apply Rmult_le_compat_l; lra). replace (101 / 100 * u * (a * e)) with (u * (a * e) + 1 / 100 * u * (a * e)) by field. lra.
Qed.
(** moving a coordinate by the step, in one of the two directions *)
Definition slack (eps : f64) : R := u * (101 / 100 / B2R eps + 1).
Lemma slack_small eps : bpow radix2 (-40) <= B2R eps -> 0 < slack eps <= / 4000.
Proof.
  intros E. unfold slack. pose proof u53_pos as UP. pose proof (bpow_gt_0 radix2 (-40)) as E40. assert (IE : 0 < / B2R eps) by (apply Rinv_0_lt_compat; lra).
  assert (IB : / B2R eps <= bpow radix2 40). { rewrite <- (Rinv_inv (bpow radix2 40)). rewrite <- bpow_opp. apply Rinv_le_contravar; assumption. }
  split; [apply Rmult_lt_0_compat; lra|]. apply Rle_trans with (u * (101 / 100 * bpow radix2 40 + 1)); [apply Rmult_le_compat_l; lra|]. change (bpow radix2 40) with 1099511627776. rewrite u_val. lra.
Qed.
Lemma moved_err eps (xc h s : f64) : is_finite eps = true -> bpow radix2 (-40) <= B2R eps <= 1 / 2 -> is_finite xc = true -> Rabs (B2R xc) <= bpow radix2 900 -> is_finite h = true -> 0 < B2R h <= bpow radix2 900 ->
  Rabs (B2R h - step eps xc) <= 101 / 100 * u * step eps xc -> is_finite s = true -> Rabs (B2R s) = B2R h ->
  is_finite (fadd xc s) = true /\ Rabs (B2R (fadd xc s) - (B2R xc + B2R s)) <= slack eps * B2R h.
Proof.
  intros FE EB FX XB FH HB SE FS AS. pose proof u53_pos as UP. pose proof u_val as UV. pose proof (bpow_gt_0 radix2 (-40)) as E40.
  assert (TB : Rabs (B2R xc + B2R s) <= Rabs (B2R xc) + B2R h) by (rewrite <- AS; apply Rabs_triang).
  destruct (fadd_rnd xc s 901 FX FS ltac:(lia)) as [EA FA]. { apply Rle_trans with (1 := TB). change (bpow radix2 901) with (bpow radix2 (1 + 900)). rewrite bpow_plus. change (bpow radix2 1) with 2. lra. }
  split; [exact FA|]. rewrite EA. apply Rle_trans with (u * Rabs (B2R xc + B2R s)); [apply rnd_sum_rel; apply (generic_format_B2R 53 1024)|].
  unfold slack. set (e := B2R eps) in *. set (a := Rabs (B2R xc)) in *. assert (IE : 0 < / e) by (apply Rinv_0_lt_compat; lra).
  assert (AS2 : a * e <= step eps xc) by apply Rmax_l. assert (SP : e <= step eps xc) by apply Rmax_r. set (m := step eps xc) in *. apply Rabs_le_inv in SE. assert (UM : u * m <= / 10 ^ 9 * m) by (apply Rmult_le_compat_r; lra).
  assert (AH : a * e <= 101 / 100 * B2R h) by lra.
  assert (AB : a <= 101 / 100 / e * B2R h). { apply (Rmult_le_reg_r e); [lra|]. replace (101 / 100 / e * B2R h * e) with (101 / 100 * B2R h) by (field; lra). exact AH. }
  rewrite Rmult_assoc. apply Rmult_le_compat_l; lra.
Qed.
(** ** the quotient *)
Lemma format_twice x : format64 x -> format64 (2 * x).
Proof.
  intros F. apply FLT_format_generic in F; [|reflexivity]. destruct F as [[m e] V M E]. cbn [Fnum Fexp] in *. apply generic_format_FLT. exists (Float radix2 m (e + 1)); cbn [Fnum Fexp]; [|exact M|lia].
  rewrite V. unfold F2R. cbn [Fnum Fexp]. rewrite bpow_plus. change (bpow radix2 1) with 2. ring.
Qed.
Lemma quotient_err recip (p m h : f64) : is_finite p = true -> is_finite m = true -> is_finite h = true -> Rabs (B2R p) <= bpow radix2 900 -> Rabs (B2R m) <= bpow radix2 900 -> bpow radix2 (-40) <= B2R h <= bpow radix2 900 ->
  let Q := (B2R p - B2R m) / (2 * B2R h) in is_finite (quotient recip p m h) = true /\ Rabs (B2R (quotient recip p m h) - Q) <= 32 / 10 * u * Rabs Q + eta.
Proof.
  intros FP FM FH BP BM HB Q. pose proof u53_pos as UP. pose proof u_val as UV. pose proof eta_pos as EP. pose proof (bpow_gt_0 radix2 (-40)) as E40. pose proof (bpow_gt_0 radix2 900) as P900. destruct two_val as [V2 F2].
  assert (BD : Rabs (B2R p - B2R m) <= bpow radix2 901). { change (bpow radix2 901) with (bpow radix2 (1 + 900)). rewrite bpow_plus. change (bpow radix2 1) with 2. pose proof (Rabs_triang (B2R p) (- B2R m)) as T. rewrite Rabs_Ropp in T. unfold Rminus. lra. }
  destruct (fsub_rnd p m 901 FP FM ltac:(lia) BD) as [ED FD]. pose proof (rnd_abs_le _ 901 ltac:(lia) BD) as BD2. rewrite <- ED in BD2.
  assert (DE : Rabs (B2R (fsub p m) - (B2R p - B2R m)) <= u * Rabs (B2R p - B2R m)). { rewrite ED. apply (rnd_sum_rel (B2R p) (- B2R m)); [|apply generic_format_opp]; apply (generic_format_B2R 53 1024). }
  destruct (fmul_rnd h (fofZ 2) 901 FH F2 ltac:(lia)) as [E2 FF2]. { rewrite V2, Rabs_pos_eq by lra. change (bpow radix2 901) with (bpow radix2 (900 + 1)). rewrite bpow_plus. change (bpow radix2 1) with 2. lra. }
  assert (H2 : B2R (fmul h (fofZ 2)) = 2 * B2R h).
  { rewrite E2, V2. rewrite (Rmult_comm (B2R h)). apply rnd_id, format_twice, (generic_format_B2R 53 1024). }
  set (s := fmul h (fofZ 2)) in *. set (d := fsub p m) in *. set (dr := B2R p - B2R m) in *. set (hh := B2R h) in *. unfold quotient. fold s d. clearbody s d. assert (I0 : 0 < / (2 * hh)) by (apply Rinv_0_lt_compat; lra).
  assert (I39 : / (2 * hh) <= bpow radix2 39). { rewrite <- (Rinv_inv (bpow radix2 39)), <- bpow_opp. apply Rinv_le_contravar; [apply bpow_gt_0|]. change (bpow radix2 (- (39))) with (bpow radix2 (1 + -40)). rewrite bpow_plus. change (bpow radix2 1) with 2. lra. }
  assert (I901 : bpow radix2 (-901) <= / (2 * hh)). { rewrite <- (Rinv_inv (bpow radix2 (-901))), <- bpow_opp. apply Rinv_le_contravar; [lra|]. change (bpow radix2 (- -901)) with (bpow radix2 (1 + 900)). rewrite bpow_plus. change (bpow radix2 1) with 2. lra. }
  set (w := / (2 * hh)) in *. assert (QE : Q = dr * w) by reflexivity. set (X := B2R d) in *. assert (XW : Rabs (X * w - Q) <= u * Rabs Q). { rewrite QE, <- Rmult_minus_distr_r, !Rabs_mult, (Rabs_pos_eq w) by lra. rewrite <- Rmult_assoc. apply Rmult_le_compat_r; lra. }
  assert (AX : Rabs (X * w) <= (1 + u) * Rabs Q). { replace (X * w) with ((X * w - Q) + Q) by ring. apply Rle_trans with (1 := Rabs_triang _ _). lra. }
  assert (BXW : Rabs (X * w) <= bpow radix2 940). { rewrite Rabs_mult, (Rabs_pos_eq w) by lra. change (bpow radix2 940) with (bpow radix2 (901 + 39)). rewrite bpow_plus. apply Rmult_le_compat; try lra. apply Rabs_pos. }
  pose proof (Rabs_pos Q) as Q0. assert (UQ : 0 <= u * Rabs Q) by (apply Rmult_le_pos; lra). assert (UUQ : u * (u * Rabs Q) <= / 1000 * (u * Rabs Q)) by (apply Rmult_le_compat_r; lra).
  destruct recip.
  - destruct (fofZ_correct 1 ltac:(cbn; lia)) as [V1 F1]. destruct (fdiv_rnd (fofZ 1) s 39 F1 ltac:(rewrite H2; lra) ltac:(lia)) as [ER FR]. { rewrite V1, H2. unfold Rdiv. rewrite Rmult_1_l. fold w. rewrite Rabs_pos_eq; lra. }
    rewrite V1, H2 in ER. unfold Rdiv in ER. rewrite Rmult_1_l in ER. fold w in ER. pose proof (rnd_err w) as WE. rewrite <- ER, (Rabs_pos_eq w) in WE by lra. set (r := fdiv (fofZ 1) s) in *. clearbody r. set (rr := B2R r) in *.
    assert (EW : eta <= / 100 * u * w). { apply Rle_trans with (/ 100 * u * bpow radix2 (-901)); [|apply Rmult_le_compat_l; lra]. apply Rle_trans with (bpow radix2 (-7) * bpow radix2 (-53) * bpow radix2 (-901)); [rewrite <- !bpow_plus; apply bpow_le; lia|]. apply Rmult_le_compat_r; [apply bpow_ge_0|]. apply Rmult_le_compat_r; [lra|]. replace (bpow radix2 (-7)) with (/ 128) by (cbn; lra). lra. }
    assert (RW : Rabs (rr - w) <= 101 / 100 * u * w) by lra.
    assert (XR : Rabs (X * rr - X * w) <= 102 / 100 * (u * Rabs Q)). { rewrite <- Rmult_minus_distr_l, Rabs_mult. apply Rle_trans with (Rabs X * (101 / 100 * u * w)); [apply Rmult_le_compat_l; [apply Rabs_pos|lra]|]. replace (Rabs X * (101 / 100 * u * w)) with (101 / 100 * (u * Rabs (X * w))) by (rewrite Rabs_mult, (Rabs_pos_eq w) by lra; ring). assert (u * Rabs (X * w) <= u * ((1 + u) * Rabs Q)) by (apply Rmult_le_compat_l; lra). lra. }
    assert (R40 : rr <= bpow radix2 40). { apply Rabs_le_inv in RW. change (bpow radix2 40) with (bpow radix2 (1 + 39)). rewrite bpow_plus. change (bpow radix2 1) with 2. assert (u * w <= / 1000 * w) by (apply Rmult_le_compat_r; lra). lra. }
    assert (R0 : 0 <= rr) by (rewrite ER, <- rnd_0; apply rnd_le; lra).
    destruct (fmul_rnd d r 941 FD FR ltac:(lia)) as [EM FMM]. { fold X rr. rewrite Rabs_mult, (Rabs_pos_eq rr) by lra. change (bpow radix2 941) with (bpow radix2 (901 + 40)). rewrite bpow_plus. apply Rmult_le_compat; try lra. apply Rabs_pos. }
    split; [exact FMM|]. rewrite EM. fold X rr. pose proof (rnd_err (X * rr)) as RE.
    assert (AR : Rabs (X * rr) <= Rabs (X * w) + Rabs (X * rr - X * w)). { replace (X * rr) with (X * w + (X * rr - X * w)) at 1 by ring. apply Rabs_triang. }
    assert (UR : u * Rabs (X * rr) <= u * ((1 + u) * Rabs Q + 102 / 100 * (u * Rabs Q))) by (apply Rmult_le_compat_l; lra).
    assert (UUU : u * (u * (u * Rabs Q)) <= / 1000 * (u * Rabs Q)). { apply Rle_trans with (1 * (u * (u * Rabs Q))); [apply Rmult_le_compat_r; [apply Rmult_le_pos; lra|lra]|lra]. }
    replace (rnd (X * rr) - Q) with ((rnd (X * rr) - X * rr) + ((X * rr - X * w) + (X * w - Q))) by ring. apply Rle_trans with (1 := Rabs_triang _ _). pose proof (Rabs_triang (X * rr - X * w) (X * w - Q)) as T. lra.
  - destruct (fdiv_rnd d s 940 FD ltac:(rewrite H2; lra) ltac:(lia)) as [EM FMM]. { rewrite H2. exact BXW. }
    split; [exact FMM|]. rewrite EM, H2. fold X. unfold Rdiv. fold w. pose proof (rnd_err (X * w)) as RE. assert (UR : u * Rabs (X * w) <= u * ((1 + u) * Rabs Q)) by (apply Rmult_le_compat_l; lra).
    replace (rnd (X * w) - Q) with ((rnd (X * w) - X * w) + (X * w - Q)) by ring. apply Rle_trans with (1 := Rabs_triang _ _). lra.
Qed.

(** ** C149 *)
(** the central difference of a function that is differentiable with derivative within L of D *)
Lemma central F F' xc h yp ym D L k : 0 < h -> 0 <= k <= / 4000 -> 0 <= L -> (forall t, Rabs (t - xc) <= 2 * h -> is_derive F t (F' t) /\ Rabs (F' t - D) <= L) ->
  Rabs (yp - (xc + h)) <= k * h -> Rabs (ym - (xc - h)) <= k * h -> Rabs ((F yp - F ym) / (2 * h) - D) <= Rabs D * k + L * (1 + k).
Proof.
  intros H K L0 DF YP YM. apply Rabs_le_inv in YP, YM. assert (KH : 0 <= k * h <= / 4000 * h) by (split; [apply Rmult_le_pos; lra|apply Rmult_le_compat_r; lra]).
  assert (O : ym < yp) by lra. destruct (MVT_gen F ym yp F') as (c & C & E).
  - intros t T. rewrite Rmin_left, Rmax_right in T by lra. apply DF. apply Rabs_le. lra.
  - intros t T. rewrite Rmin_left, Rmax_right in T by lra. apply derivable_continuous_pt. exists (F' t). apply is_derive_Reals, DF. apply Rabs_le. lra.
  - rewrite Rmin_left, Rmax_right in C by lra. destruct (DF c ltac:(apply Rabs_le; lra)) as [_ B]. rewrite E. set (q := (yp - ym) / (2 * h)).
    assert (Q : Rabs (q - 1) <= k). { unfold q. apply (Rmult_le_reg_r (2 * h)); [lra|]. rewrite <- (Rabs_pos_eq (2 * h)) at 2 by lra. rewrite <- Rabs_mult. replace (((yp - ym) / (2 * h) - 1) * (2 * h)) with (yp - ym - 2 * h) by (field; lra). apply Rabs_le. lra. }
    replace (F' c * (yp - ym) / (2 * h) - D) with (D * (q - 1) + (F' c - D) * q) by (unfold q; field; lra). apply Rle_trans with (1 := Rabs_triang _ _). rewrite !Rabs_mult. apply Rplus_le_compat; [apply Rmult_le_compat_l; [apply Rabs_pos|exact Q]|].
    apply Rmult_le_compat; try apply Rabs_pos; [exact B|]. replace q with ((q - 1) + 1) by ring. apply Rle_trans with (1 := Rabs_triang _ _). rewrite Rabs_R1. lra.
Qed.
(** what rounding adds to the truncation error T of the difference quotient *)
Lemma jacobian_core recip f eps x i c F D T delta : let xc := nth c x fzero in let h := step eps xc in
  steady f x -> (i < length (f x))%nat -> (c < length x)%nat -> is_finite eps = true -> bpow radix2 (-40) <= B2R eps <= 1 / 2 -> is_finite xc = true -> Rabs (B2R xc) <= bpow radix2 900 -> 0 <= delta ->
  (forall y, is_finite y = true -> Rabs (B2R y - B2R xc) <= 2 * h -> let v := nth i (f (put x c y)) fzero in is_finite v = true /\ Rabs (B2R v) <= bpow radix2 900 /\ Rabs (B2R v - F (B2R y)) <= delta) ->
  (forall hr yp ym, Rabs (hr - h) <= 101 / 100 * u * h -> Rabs (yp - (B2R xc + hr)) <= slack eps * hr -> Rabs (ym - (B2R xc - hr)) <= slack eps * hr -> Rabs ((F yp - F ym) / (2 * hr) - D) <= T) ->
  exists J, fst (festimateJacobian recip f eps x) = Some J /\ fshape J (length (f x)) (length x) /\ is_finite (fentry J i c) = true /\
    Rabs (B2R (fentry J i c) - D) <= 1002 / 1000 * (delta / h) + T + 33 / 10 * u * (Rabs D + T) + eta.
Proof.
  intros xc h C Hi Hc FE EB FX XB D0 EV DF. destruct (float_jacobian_quotients recip f eps x C) as (J & EJ & SJ & QJ). exists J. split; [exact EJ|]. split; [exact SJ|].
  specialize (QJ i c Hi Hc). cbv zeta in QJ. fold xc in QJ. rewrite QJ. clear QJ EJ SJ J. destruct (step_err eps x c FE EB FX XB) as (FH & HB & HE). fold xc in HE. fold h in HE. set (hf := frcEps eps x c) in *. clearbody hf.
  pose proof u53_pos as UP. pose proof u_val as UV. pose proof (bpow_gt_0 radix2 (-40)) as E40. pose proof (slack_small eps (proj1 EB)) as SK. set (k := slack eps) in *. set (hr := B2R hf) in *.
  assert (HP : 0 < h) by (unfold h, step; apply Rlt_le_trans with (2 := Rmax_r _ _); lra). assert (UH : u * h <= / 10 ^ 9 * h) by (apply Rmult_le_compat_r; lra). pose proof (Rabs_le_inv _ _ HE) as HEI.
  assert (FNH : is_finite (fneg hf) = true /\ B2R (fneg hf) = - hr) by (apply fneg_val; exact FH). destruct FNH as [FN VN].
  destruct (moved_err eps xc hf hf FE EB FX XB FH ltac:(fold hr; lra) HE FH) as [FP YP]; [fold hr; rewrite Rabs_pos_eq; lra|]. destruct (moved_err eps xc hf (fneg hf) FE EB FX XB FH ltac:(fold hr; lra) HE FN) as [FM YM]; [rewrite VN, Rabs_Ropp; fold hr; rewrite Rabs_pos_eq; lra|].
  rewrite VN in YM. fold hr in YP, YM. fold k in YP, YM. set (yp := fadd xc hf) in *. set (ym := fadd xc (fneg hf)) in *. pose proof (Rabs_le_inv _ _ YP) as YPI. pose proof (Rabs_le_inv _ _ YM) as YMI.
  assert (KH : 0 <= k * hr <= / 4000 * hr) by (split; [apply Rmult_le_pos; lra|apply Rmult_le_compat_r; lra]).
  destruct (EV yp FP ltac:(apply Rabs_le; lra)) as (FVP & BVP & DVP). destruct (EV ym FM ltac:(apply Rabs_le; lra)) as (FVM & BVM & DVM). set (vp := nth i (f (put x c yp)) fzero) in *. set (vm := nth i (f (put x c ym)) fzero) in *.
  destruct (quotient_err recip vp vm hf FVP FVM FH BVP BVM ltac:(fold hr; lra)) as [FQ EQ]. fold hr in EQ. split; [exact FQ|].
  pose proof (DF hr (B2R yp) (B2R ym) HE YP YM) as CE.
  set (Q := (B2R vp - B2R vm) / (2 * hr)) in *. set (Q0 := (F (B2R yp) - F (B2R ym)) / (2 * hr)) in *.
  assert (QQ : Rabs (Q - Q0) <= 1001 / 1000 * (delta / h)).
  { unfold Q, Q0. apply (Rmult_le_reg_r (2 * hr)); [lra|]. rewrite <- (Rabs_pos_eq (2 * hr)) at 3 by lra. rewrite <- Rabs_mult. match goal with |- Rabs ?z <= _ => replace z with ((B2R vp - F (B2R yp)) - (B2R vm - F (B2R ym))) by (field; lra) end.
    apply Rle_trans with (2 * delta). { unfold Rminus at 1. apply Rle_trans with (1 := Rabs_triang _ _). rewrite Rabs_Ropp. lra. }
    replace (1001 / 1000 * (delta / h) * (2 * hr)) with (2 * delta * (1001 / 1000 * hr / h)) by (field; lra). rewrite <- (Rmult_1_r (2 * delta)) at 1. apply Rmult_le_compat_l; [lra|]. apply (Rmult_le_reg_r h); [lra|]. replace (1001 / 1000 * hr / h * h) with (1001 / 1000 * hr) by (field; lra). lra. }
  assert (DH : 0 <= delta / h) by (apply Rmult_le_pos; [lra|left; apply Rinv_0_lt_compat; lra]). set (dh := delta / h) in *. pose proof (Rabs_pos D) as AD. assert (T0 : 0 <= T) by (apply Rle_trans with (2 := CE); apply Rabs_pos).
  assert (QD : Rabs (Q - D) <= 1001 / 1000 * dh + T). { replace (Q - D) with ((Q - Q0) + (Q0 - D)) by ring. apply Rle_trans with (1 := Rabs_triang _ _). lra. }
  assert (AQ : Rabs Q <= Rabs D + Rabs (Q - D)). { replace Q with (D + (Q - D)) at 1 by ring. apply Rabs_triang. }
  assert (UQ : u * Rabs Q <= u * (Rabs D + (1001 / 1000 * dh + T))) by (apply Rmult_le_compat_l; lra).
  assert (UD : 0 <= u * dh <= / 10 ^ 9 * dh) by (split; [apply Rmult_le_pos; lra|apply Rmult_le_compat_r; lra]). assert (0 <= u * (Rabs D + T)) by (apply Rmult_le_pos; lra).
  replace (B2R (quotient recip vp vm hf) - D) with ((B2R (quotient recip vp vm hf) - Q) + (Q - D)) by ring. apply Rle_trans with (1 := Rabs_triang _ _). lra.
Qed.
Lemma real_step eps xc hr : bpow radix2 (-40) <= B2R eps -> Rabs (hr - step eps xc) <= 101 / 100 * u * step eps xc -> 0 < step eps xc /\ 0 < hr <= 1001 / 1000 * step eps xc.
Proof.
  intros E H. pose proof u53_pos as UP. pose proof u_val as UV. pose proof (bpow_gt_0 radix2 (-40)) as E40. set (h := step eps xc) in *. assert (HP : 0 < h) by (unfold h, step; apply Rlt_le_trans with (2 := Rmax_r _ _); lra).
  assert (UH : u * h <= / 10 ^ 9 * h) by (apply Rmult_le_compat_r; lra). apply Rabs_le_inv in H. lra.
Qed.
(** functions with a derivative that varies little over the step *)
Theorem float_jacobian recip f eps x i c F F' D L delta : let xc := nth c x fzero in let h := step eps xc in
  steady f x -> (i < length (f x))%nat -> (c < length x)%nat -> is_finite eps = true -> bpow radix2 (-40) <= B2R eps <= 1 / 2 -> is_finite xc = true -> Rabs (B2R xc) <= bpow radix2 900 -> 0 <= L -> 0 <= delta ->
  (forall y, is_finite y = true -> Rabs (B2R y - B2R xc) <= 2 * h -> let v := nth i (f (put x c y)) fzero in is_finite v = true /\ Rabs (B2R v) <= bpow radix2 900 /\ Rabs (B2R v - F (B2R y)) <= delta) ->
  (forall t, Rabs (t - B2R xc) <= 3 * h -> is_derive F t (F' t) /\ Rabs (F' t - D) <= L) ->
  exists J, fst (festimateJacobian recip f eps x) = Some J /\ fshape J (length (f x)) (length x) /\ is_finite (fentry J i c) = true /\
    Rabs (B2R (fentry J i c) - D) <= 101 / 100 * (L + delta / h) + Rabs D * (u * (103 / 100 / B2R eps + 5)) + eta.
Proof.
  intros xc h C Hi Hc FE EB FX XB L0 D0 EV DF. pose proof (slack_small eps (proj1 EB)) as SK. 
  destruct (jacobian_core recip f eps x i c F D (Rabs D * slack eps + L * (1 + slack eps)) delta C Hi Hc FE EB FX XB D0 EV) as (J & EJ & SJ & FJ & B).
  { intros hr yp ym HR YP YM. destruct (real_step eps xc hr (proj1 EB) HR) as [HP HB]. apply (central F F' (B2R xc)); try assumption; try lra. intros t T. apply DF. unfold h, xc in *. lra. }
  exists J. refine (conj EJ (conj SJ (conj FJ _))). apply Rle_trans with (1 := B). clear B. fold xc h. pose proof u53_pos as UP. pose proof u_val as UV. pose proof (bpow_gt_0 radix2 (-40)) as E40.
  assert (HP : 0 < h) by (unfold h, step; apply Rlt_le_trans with (2 := Rmax_r _ _); lra). assert (DH : 0 <= delta / h) by (apply Rmult_le_pos; [lra|left; apply Rinv_0_lt_compat; lra]).
  set (dh := delta / h) in *. clearbody dh. pose proof (Rabs_pos D) as AD. set (a := Rabs D) in *. clearbody a. assert (KE : a * slack eps = 101 / 100 * (u * a * / B2R eps) + u * a) by (unfold slack, Rdiv; ring). set (k := slack eps) in *.
  assert (LK : 0 <= L * k <= L * / 4000) by (split; [apply Rmult_le_pos; lra|apply Rmult_le_compat_l; lra]). assert (DK : 0 <= a * k <= a * / 4000) by (split; [apply Rmult_le_pos; lra|apply Rmult_le_compat_l; lra]).
  assert (UL : 0 <= u * L <= / 10 ^ 9 * L) by (split; [apply Rmult_le_pos; lra|apply Rmult_le_compat_r; lra]). assert (ULK : u * (L * k) <= u * (L * / 4000)) by (apply Rmult_le_compat_l; lra). assert (UDK : u * (a * k) <= u * (a * / 4000)) by (apply Rmult_le_compat_l; lra). assert (UAD : 0 <= u * a) by (apply Rmult_le_pos; lra).
  assert (IE : 0 < / B2R eps) by (apply Rinv_0_lt_compat; lra). assert (UDE : 0 <= u * a * / B2R eps) by (apply Rmult_le_pos; lra).
  replace (a * (u * (103 / 100 / B2R eps + 5))) with (103 / 100 * (u * a * / B2R eps) + 5 * (u * a)) by (unfold Rdiv; ring). lra.
Qed.
(** functions with three derivatives: the truncation error is of the second order in the step *)
Lemma central3 F xc h yp ym K k : 0 < h -> 0 <= k <= / 4000 -> (forall n t, (n <= 3)%nat -> ex_derive_n F n t) -> (forall t, Rabs (t - xc) <= 2 * h -> Rabs (Derive_n F 3 t) <= K) ->
  Rabs (yp - (xc + h)) <= k * h -> Rabs (ym - (xc - h)) <= k * h -> Rabs ((F yp - F ym) / (2 * h) - Derive F xc) <= (Rabs (Derive F xc) + 1001 / 1000 * h * Rabs (Derive_n F 2 xc)) * k + 1001 / 1000 * (K * (h * h) / 6).
Proof.
  intros H K0 X B YP YM. assert (KP : 0 <= K) by (apply Rle_trans with (2 := B xc ltac:(rewrite Rminus_diag_eq, Rabs_R0 by reflexivity; lra)); apply Rabs_pos). set (a := yp - xc). set (b := xc - ym). set (d1 := Derive F xc) in *. set (d2 := Derive_n F 2 xc) in *.
  apply Rabs_le_inv in YP, YM. assert (KH : 0 <= k * h <= / 4000 * h) by (split; [apply Rmult_le_pos; lra|apply Rmult_le_compat_r; lra]).
  assert (AH : Rabs (a - h) <= k * h) by (unfold a; apply Rabs_le; lra). assert (BH : Rabs (b - h) <= k * h) by (unfold b; apply Rabs_le; lra). pose proof (Rabs_le_inv _ _ AH) as AI. pose proof (Rabs_le_inv _ _ BH) as BI.
  (* forward *)
  assert (T1 : Rabs (F yp - F xc - d1 * a - d2 * (a * a) / 2) <= K * (a * a * a) / 6).
  { destruct (Taylor_Lagrange F 2 xc yp) as (z & Z & T). unfold a in AI. lra. intros t Ht n Hn. apply X. lia. rewrite T. unfold sum_f_R0. change (yp - xc) with a. cbn [fact Nat.mul Nat.add pow INR]. change (Derive_n F 2 xc) with d2. change (Derive_n F 1 xc) with d1. change (Derive_n F 0 xc) with (F xc).
    replace (_ - d2 * (a * a) / 2) with (a * a * a / 6 * Derive_n F 3 z) by field.
    rewrite Rabs_mult. assert (AP : 0 <= a * a * a / 6) by (assert (0 <= a * a * a) by (repeat apply Rmult_le_pos; lra); lra). rewrite (Rabs_pos_eq (a * a * a / 6)) by exact AP. apply Rle_trans with (a * a * a / 6 * K); [apply Rmult_le_compat_l; [exact AP|]|right; field]. apply B. unfold a in AI. apply Rabs_le. lra. }
  (* backward: the reflected function *)
  assert (Rn : forall n t, (n <= 3)%nat -> Derive_n (fun s => F (- s)) n t = (-1) ^ n * Derive_n F n (- t)). { intros n t Hn. apply Derive_n_comp_opp. apply filter_forall. intros y j Hj. apply X. lia. }
  assert (T2 : Rabs (F ym - F xc + d1 * b - d2 * (b * b) / 2) <= K * (b * b * b) / 6).
  { destruct (Taylor_Lagrange (fun s => F (- s)) 2 (- xc) (- ym)) as (z & Z & T). unfold b in BI. lra. intros t Ht n Hn. apply ex_derive_n_comp_opp. apply filter_forall. intros y j Hj. apply X. lia.
    rewrite Ropp_involutive in T. rewrite T. unfold sum_f_R0. rewrite !Rn by lia. rewrite !Ropp_involutive. replace (- ym - - xc) with b by (unfold b; ring). cbn [fact Nat.mul Nat.add pow INR].
    change (Derive_n F 2 xc) with d2. change (Derive_n F 1 xc) with d1. change (Derive_n F 0 xc) with (F xc).
    replace (_ - d2 * (b * b) / 2) with (- (b * b * b / 6 * Derive_n F 3 (- z))) by field.
    rewrite Rabs_Ropp, Rabs_mult. assert (AP : 0 <= b * b * b / 6) by (assert (0 <= b * b * b) by (repeat apply Rmult_le_pos; lra); lra). rewrite (Rabs_pos_eq (b * b * b / 6)) by exact AP. apply Rle_trans with (b * b * b / 6 * K); [apply Rmult_le_compat_l; [exact AP|]|right; field]. apply B. unfold b in BI. apply Rabs_le. lra. }
  apply (Rmult_le_reg_r (2 * h)); [lra|]. rewrite <- (Rabs_pos_eq (2 * h)) at 2 by lra. rewrite <- Rabs_mult. replace (((F yp - F ym) / (2 * h) - d1) * (2 * h)) with ((F yp - F xc - d1 * a - d2 * (a * a) / 2) - (F ym - F xc + d1 * b - d2 * (b * b) / 2) + (d1 * ((a - h) + (b - h)) + d2 / 2 * (((a - h) - (b - h)) * (a + b)))) by (field; lra).
  set (p1 := F yp - F xc - d1 * a - d2 * (a * a) / 2) in *. set (p2 := F ym - F xc + d1 * b - d2 * (b * b) / 2) in *. clearbody p1 p2 a b.
  apply Rle_trans with (1 := Rabs_triang _ _). pose proof (Rabs_triang p1 (- p2)) as TA. rewrite Rabs_Ropp in TA. pose proof (Rabs_triang (d1 * ((a - h) + (b - h))) (d2 / 2 * (((a - h) - (b - h)) * (a + b)))) as TB. rewrite !Rabs_mult in TB.
  pose proof (Rabs_pos d1) as P1. pose proof (Rabs_pos d2) as P2. assert (AB1 : Rabs d1 * Rabs (a - h + (b - h)) <= Rabs d1 * (2 * (k * h))) by (apply Rmult_le_compat_l; [lra|]; apply Rle_trans with (1 := Rabs_triang _ _); lra).
  assert (AB2 : Rabs (a - h - (b - h)) * Rabs (a + b) <= 2 * (k * h) * (2002 / 1000 * h)). { apply Rmult_le_compat; try apply Rabs_pos; [|rewrite Rabs_pos_eq; lra]. unfold Rminus at 1. apply Rle_trans with (1 := Rabs_triang _ _). rewrite Rabs_Ropp. lra. }
  assert (AB3 : Rabs (d2 / 2) * (Rabs (a - h - (b - h)) * Rabs (a + b)) <= Rabs d2 / 2 * (2 * (k * h) * (2002 / 1000 * h))). { apply Rmult_le_compat; [apply Rabs_pos|apply Rmult_le_pos; apply Rabs_pos| |exact AB2]. unfold Rdiv. rewrite Rabs_mult, (Rabs_pos_eq (/ 2)) by lra. lra. }
  assert (CU : forall z, 0 <= z <= 40001 / 40000 * h \/ 0 <= z <= 4001 / 4000 * h -> z * z * z <= 1001 / 1000 * (h * h * h)). { intros z Z. assert (Z' : 0 <= z <= 4001 / 4000 * h) by lra. apply Rle_trans with (4001 / 4000 * h * (4001 / 4000 * h) * (4001 / 4000 * h)). { apply Rmult_le_compat; try lra; [apply Rmult_le_pos; lra|apply Rmult_le_compat; lra]. } assert (0 <= h * h * h) by (repeat apply Rmult_le_pos; lra). lra. }
  pose proof (CU a ltac:(right; lra)) as CA. pose proof (CU b ltac:(right; lra)) as CB. clear CU. assert (KA : K * (a * a * a) <= K * (1001 / 1000 * (h * h * h))) by (apply Rmult_le_compat_l; lra). assert (KB : K * (b * b * b) <= K * (1001 / 1000 * (h * h * h))) by (apply Rmult_le_compat_l; lra).
  unfold Rminus at 1. apply Rle_trans with (Rabs d1 * (2 * (k * h)) + Rabs d2 / 2 * (2 * (k * h) * (2002 / 1000 * h)) + 2 * (K * (1001 / 1000 * (h * h * h)) / 6)); [unfold Rminus in *; lra|]. right. field.
Qed.
Theorem float_jacobian_smooth recip f eps x i c F K delta : let xc := nth c x fzero in let h := step eps xc in
  steady f x -> (i < length (f x))%nat -> (c < length x)%nat -> is_finite eps = true -> bpow radix2 (-40) <= B2R eps <= 1 / 2 -> is_finite xc = true -> Rabs (B2R xc) <= bpow radix2 900 -> 0 <= delta ->
  (forall y, is_finite y = true -> Rabs (B2R y - B2R xc) <= 2 * h -> let v := nth i (f (put x c y)) fzero in is_finite v = true /\ Rabs (B2R v) <= bpow radix2 900 /\ Rabs (B2R v - F (B2R y)) <= delta) ->
  (forall n t, (n <= 3)%nat -> ex_derive_n F n t) -> (forall t, Rabs (t - B2R xc) <= 3 * h -> Rabs (Derive_n F 3 t) <= K) ->
  exists J, fst (festimateJacobian recip f eps x) = Some J /\ fshape J (length (f x)) (length x) /\ is_finite (fentry J i c) = true /\
    Rabs (B2R (fentry J i c) - Derive F (B2R xc)) <= 101 / 100 * (K * (h * h) / 6 + delta / h) + (Rabs (Derive F (B2R xc)) + h * Rabs (Derive_n F 2 (B2R xc))) * (u * (103 / 100 / B2R eps + 5)) + eta.
Proof.
  intros xc h C Hi Hc FE EB FX XB D0 EV X B3. pose proof (slack_small eps (proj1 EB)) as SK. pose proof u53_pos as UP. pose proof u_val as UV. pose proof (bpow_gt_0 radix2 (-40)) as E40.
  assert (HP : 0 < h) by (unfold h, step; apply Rlt_le_trans with (2 := Rmax_r _ _); lra). assert (KP : 0 <= K) by (apply Rle_trans with (2 := B3 (B2R xc) ltac:(rewrite Rminus_diag_eq, Rabs_R0 by reflexivity; lra)); apply Rabs_pos).
  set (d1 := Rabs (Derive F (B2R xc))). set (d2 := Rabs (Derive_n F 2 (B2R xc))). assert (P1 : 0 <= d1) by apply Rabs_pos. assert (P2 : 0 <= d2) by apply Rabs_pos. assert (PH : 0 <= h * d2) by (apply Rmult_le_pos; lra). assert (HH : 0 <= h * h) by (apply Rmult_le_pos; lra).
  set (T := (d1 + 1003 / 1000 * (h * d2)) * slack eps + 1004 / 1000 * (K * (h * h) / 6)).
  destruct (jacobian_core recip f eps x i c F (Derive F (B2R xc)) T delta C Hi Hc FE EB FX XB D0 EV) as (J & EJ & SJ & FJ & B).
  { intros hr yp ym HR YP YM. destruct (real_step eps xc hr (proj1 EB) HR) as [_ HB]. fold h in HB. apply Rle_trans with (1 := central3 F (B2R xc) hr yp ym K (slack eps) ltac:(lra) ltac:(lra) X ltac:(intros t Ht; apply B3; lra) YP YM). unfold T. fold d1 d2.
    apply Rplus_le_compat.
    - apply Rmult_le_compat_r; [lra|]. assert (hr * d2 <= 1001 / 1000 * h * d2) by (apply Rmult_le_compat_r; lra). lra.
    - assert (hr * hr <= 1001 / 1000 * h * (1001 / 1000 * h)) by (apply Rmult_le_compat; lra). assert (K * (hr * hr) <= K * (1001 / 1000 * h * (1001 / 1000 * h))) by (apply Rmult_le_compat_l; lra). assert (0 <= K * (h * h)) by (apply Rmult_le_pos; lra). lra. }
  exists J. refine (conj EJ (conj SJ (conj FJ _))). apply Rle_trans with (1 := B). clear B EV. fold xc h d1. 
  assert (DH : 0 <= delta / h) by (apply Rmult_le_pos; [lra|left; apply Rinv_0_lt_compat; lra]). set (dh := delta / h) in *. clearbody dh. set (w := h * d2) in *. set (q := K * (h * h) / 6) in *. assert (Q0 : 0 <= q) by (unfold q; assert (0 <= K * (h * h)) by (apply Rmult_le_pos; lra); lra).
  assert (KE : (d1 + 1003 / 1000 * w) * slack eps = 101 / 100 * (u * d1 * / B2R eps) + u * d1 + 1003 / 1000 * (101 / 100 * (u * w * / B2R eps) + u * w)) by (unfold slack, Rdiv; ring). assert (IE : 0 < / B2R eps) by (apply Rinv_0_lt_compat; lra).
  assert (U1 : 0 <= u * d1) by (apply Rmult_le_pos; lra). assert (U2 : 0 <= u * w) by (apply Rmult_le_pos; lra). assert (U3 : 0 <= u * d1 * / B2R eps) by (apply Rmult_le_pos; lra). assert (U4 : 0 <= u * w * / B2R eps) by (apply Rmult_le_pos; lra). assert (UQ : 0 <= u * q <= / 10 ^ 9 * q) by (split; [apply Rmult_le_pos; lra|apply Rmult_le_compat_r; lra]).
  assert (SM : u * ((d1 + 1003 / 1000 * w) * slack eps) <= u * ((d1 + 1003 / 1000 * w) * / 4000)). { apply Rmult_le_compat_l; [lra|]. apply Rmult_le_compat_l; lra. }
  replace ((d1 + w) * (u * (103 / 100 / B2R eps + 5))) with (103 / 100 * (u * d1 * / B2R eps) + 5 * (u * d1) + (103 / 100 * (u * w * / B2R eps) + 5 * (u * w))) by (unfold Rdiv; ring).
  unfold T. fold w q. set (s := (d1 + 1003 / 1000 * w) * slack eps) in *. lra.
Qed.

(** ** False as stated in exact arithmetic: not even the identity has an exact numerical Jacobian, and a step below the spacing of the doubles gives zero *)
Definition eleven_tenths : f64 := fdiv (fofZ 11) (fofZ 10).
Lemma identity_steady x : steady (fun v => v) x. Proof. intros c y H. unfold put. now rewrite map_length, seq_length. Qed.
Theorem float_jacobian_refuted : forall recip, let f := fun v : list f64 => v in let x := [eleven_tenths] in steady f x /\ exists J, fst (festimateJacobian recip f default_eps x) = Some J /\ feqb (fentry J 0 0) (fofZ 1) = false.
Proof.
  intros recip f x. split; [apply identity_steady|]. destruct (float_jacobian_quotients recip f default_eps x (identity_steady x)) as (J & E & _ & Q). exists J. split; [exact E|]. rewrite (Q 0%nat 0%nat) by (cbn; lia). clear. destruct recip; vm_compute; reflexivity.
Qed.
Theorem float_jacobian_small_step_refuted : forall recip, let f := fun v : list f64 => v in let x := [fofZ 1] in let eps := flit 1 (-60) in fltb fzero eps = true /\ exists J, fst (festimateJacobian recip f eps x) = Some J /\ feqb (fentry J 0 0) fzero = true.
Proof.
  intros recip f x eps. split; [vm_compute; reflexivity|]. destruct (float_jacobian_quotients recip f eps x (identity_steady x)) as (J & E & _ & Q). exists J. split; [exact E|]. rewrite (Q 0%nat 0%nat) by (cbn; lia). clear. destruct recip; vm_compute; reflexivity.
Qed.
(** the hypotheses are met, and what the bound says: the numerical derivative of the identity at any point is 1 to within 2^-26 *)
Lemma default_eps_val : is_finite default_eps = true /\ B2R default_eps = bpow radix2 (-26).
Proof.
  assert (S : B2SF default_eps = B2SF (flit 1 (-26))) by (vm_compute; reflexivity). apply B2SF_inj in S. rewrite S. assert (T : B2SF (flit 1 (-26)) = SpecFloat.S754_finite false 4503599627370496 (-78)) by (vm_compute; reflexivity).
  split; [vm_compute; reflexivity|]. rewrite <- SF2R_B2SF, T. unfold SF2R, F2R. cbn [Fnum Fexp cond_Zopp]. change 4503599627370496%Z with (radix2 ^ 52)%Z. rewrite IZR_Zpower by lia. rewrite <- bpow_plus. reflexivity.
Qed.
Example float_jacobian_hypotheses recip (xc : f64) : is_finite xc = true -> Rabs (B2R xc) <= bpow radix2 800 ->
  exists J, fst (festimateJacobian recip (fun v => v) default_eps [xc]) = Some J /\ Rabs (B2R (fentry J 0 0) - 1) <= bpow radix2 (-26).
Proof.
  intros FX XB. destruct default_eps_val as [FE VE]. pose proof u53_pos as UP. pose proof (Rabs_le_inv _ _ XB) as XI. assert (B8 : bpow radix2 802 <= bpow radix2 900) by (apply bpow_le; lia). assert (B82 : bpow radix2 802 = 4 * bpow radix2 800) by (change (bpow radix2 802) with (bpow radix2 (2 + 800)); rewrite bpow_plus; reflexivity). assert (B81 : 1 <= bpow radix2 800) by (change 1 with (bpow radix2 0); apply bpow_le; lia).
  assert (E1 : bpow radix2 (-40) <= B2R default_eps <= 1 / 2) by (rewrite VE; split; [apply bpow_le; lia|cbn; lra]).
  assert (HB : step default_eps xc <= bpow radix2 800 / 2). { unfold step. apply Rmax_lub; [|lra]. assert (Rabs (B2R xc) * B2R default_eps <= bpow radix2 800 * (1 / 2)) by (pose proof (bpow_gt_0 radix2 (-40)); apply Rmult_le_compat; try lra; apply Rabs_pos). lra. }
  destruct (float_jacobian recip (fun v => v) default_eps [xc] 0 0 (fun t => t) (fun _ => 1) 1 0 0) as (J & EJ & _ & _ & B).
  - apply identity_steady.
  - cbn. lia.
  - cbn. lia.
  - exact FE.
  - exact E1.
  - exact FX.
  - cbn [nth]. lra.
  - lra.
  - lra.
  - cbn [nth]. intros y FY YB. cbn [put length seq map nth Nat.eqb]. split; [exact FY|]. split; [|rewrite Rminus_diag_eq, Rabs_R0 by reflexivity; lra]. apply Rabs_le_inv in YB. apply Rabs_le. lra.
  - intros t _. split; [auto_derive; [exact I|reflexivity]|]. rewrite Rminus_diag_eq, Rabs_R0 by reflexivity. lra.
  - exists J. split; [exact EJ|]. apply Rle_trans with (1 := B). rewrite VE. assert (IE : / bpow radix2 (-26) = bpow radix2 26) by (rewrite <- bpow_opp; reflexivity). unfold Rdiv. rewrite IE, Rabs_R1, Rmult_0_l. change (bpow radix2 26) with 67108864. replace (bpow radix2 (-26)) with (/ 67108864) by (cbn; lra). pose proof eta_smaller. rewrite u_val in *. lra.
Qed.
