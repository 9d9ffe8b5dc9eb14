(** C117: progress reports. *)
From Coq Require Import Reals Lra.
From Flocq Require Import Core.Raux.
From Verif Require Import Bytes PTree_Model Progress_Model.
Open Scope R_scope.

(** ** Specification *)
Fixpoint sumZ (l : list Z) : Z := match l with [] => 0 | a :: r => a + sumZ r end%Z.
(** hours, minutes and seconds, leaving out what is zero *)
Definition duration_text (h m s : Z) (fraction : bool) : bytes :=
  (if (h =? 0)%Z then [] else print_int h ++ str " h ") ++ (if (m =? 0)%Z then [] else print_int m ++ str "m ") ++
  (if (s =? 0)%Z && negb fraction then [] else print_int s ++ str "s").

(** ** Proofs *)
Lemma sample_started t0 n i k now : sample (mkProg true t0 n i) k now =
  (mkProg true t0 n (i + k), if (i + k =? 0)%Z then Raises else Report (i + k) n (now - t0) (IZR n * ((now - t0) / IZR (i + k))) (remaining_text (IZR n * ((now - t0) / IZR (i + k)) - (now - t0)))).
Proof. unfold sample. cbn [started iteration numIterations startTime]. destruct (i + k =? 0)%Z; auto. Qed.
(** The text: for a remaining time r >= 0, h, m, s with m, s < 60 and 3600 h + 60 m + s <= r < 3600 h + 60 m + s + 1. *)
Theorem remaining_text_exact r : 0 <= r -> exists h m s f, remaining_text r = duration_text h m s f /\
  (0 <= h)%Z /\ (0 <= m < 60)%Z /\ (0 <= s < 60)%Z /\ IZR (3600 * h + 60 * m + s) <= r < IZR (3600 * h + 60 * m + s) + 1 /\ (f = true <-> IZR (3600 * h + 60 * m + s) < r).
Proof.
  intros R0. unfold remaining_text, divmod60, divmod60Z. set (q := Zfloor (r / 60)).
  assert (Q : IZR q <= r / 60 < IZR q + 1). { split; [apply Zfloor_lb|apply Zfloor_ub]. }
  assert (Q0 : (0 <= q)%Z). { apply (Zfloor_lub 0). cbn. apply Rmult_le_pos; lra. }
  set (x := r - 60 * IZR q). assert (X : 0 <= x < 60) by (unfold x; lra).
  assert (T : Ztrunc x = Zfloor x) by (apply Ztrunc_floor; lra). set (s := Zfloor x).
  assert (S1 : IZR s <= x < IZR s + 1) by (split; [apply Zfloor_lb|apply Zfloor_ub]).
  assert (S0 : (0 <= s)%Z) by (apply (Zfloor_lub 0); cbn; lra).
  assert (S60 : (s < 60)%Z) by (apply lt_IZR; lra).
  exists (q / 60)%Z, (q mod 60)%Z, s, (Rlt_bool (IZR s) x).
  pose proof (Z.div_mod q 60 ltac:(lia)) as DM. pose proof (Z.mod_pos_bound q 60 ltac:(lia)) as MB. pose proof (Z.div_pos q 60 Q0 ltac:(lia)) as DP.
  assert (E : IZR (3600 * (q / 60) + 60 * (q mod 60) + s) = 60 * IZR q + IZR s). { rewrite DM at 3. rewrite !plus_IZR, !mult_IZR. lra. }
  split; [|split; [auto|split; [auto|split; [auto|]]]].
  - unfold duration_text. rewrite T.
    f_equal. { destruct (Z.ltb_spec 0 (q / 60)), (Z.eqb_spec (q / 60) 0); auto; lia. }
    f_equal. { destruct (Z.ltb_spec 0 (q mod 60)), (Z.eqb_spec (q mod 60) 0); auto; lia. }
    fold x. fold s. destruct (Rlt_bool_spec 0 x) as [P|P]; destruct (Z.eqb_spec s 0) as [Es|Es]; cbn [andb negb]; auto.
    + rewrite Es in *. destruct (Rlt_bool_spec 0 x); cbn [negb]; auto. lra.
    + rewrite Es. destruct (Rlt_bool_spec 0 x); cbn [negb]; auto. lra.
    + exfalso. assert (x = 0) by lra. apply Es. unfold s. rewrite H. apply (Zfloor_IZR 0).
  - rewrite E. unfold x in S1. split; [lra|]. destruct (Rlt_bool_spec (IZR s) x) as [P|P]; unfold x in P; split; intros H; auto; try discriminate; lra.
Qed.
(** Every history: the first sample only starts the clock; each later one reports the steps made since, the time since, and the total time that the
    present rate predicts. *)
Theorem progress_reports n k0 t0 h : Forall (fun x => (0 < fst x)%Z) h ->
  snd (samples (progress_new n) ((k0, t0) :: h)) = Quiet :: map (fun j =>
    let i := sumZ (map fst (firstn (S j) h)) in
    let e := snd (nth j h (0%Z, 0)) - t0 in
    let total := IZR n / IZR i * e in
    Report i n e total (remaining_text (total - e))) (seq 0 (length h)) /\
  iteration (fst (samples (progress_new n) ((k0, t0) :: h))) = sumZ (map fst h).
Proof.
  intros F. cbn [samples]. change (sample (progress_new n) k0 t0) with (mkProg true t0 n 0, Quiet). cbv iota beta.
  assert (G : forall h i0, (0 <= i0)%Z -> Forall (fun x => (0 < fst x)%Z) h ->
    snd (samples (mkProg true t0 n i0) h) = map (fun j =>
      let i := (i0 + sumZ (map fst (firstn (S j) h)))%Z in
      let e := snd (nth j h (0%Z, 0)) - t0 in
      let total := IZR n / IZR i * e in
      Report i n e total (remaining_text (total - e))) (seq 0 (length h)) /\ iteration (fst (samples (mkProg true t0 n i0) h)) = (i0 + sumZ (map fst h))%Z).
  { clear. induction h as [|[k t] h IH]; intros i0 I0 F; [cbn; split; auto; lia|]. inversion F as [|? ? K F']; subst. cbn [fst] in K.
    cbn [samples]. rewrite sample_started. destruct (Z.eqb_spec (i0 + k) 0) as [|NZ]; [lia|].
    destruct (IH (i0 + k)%Z ltac:(lia) F') as [I1 I2]. destruct (samples (mkProg true t0 n (i0 + k)) h) as [p' l]. cbn [fst snd] in *. split.
    - cbn [length seq map]. f_equal.
      + cbn [firstn map fst sumZ nth snd]. replace (i0 + (k + 0))%Z with (i0 + k)%Z by lia.
        replace (IZR n * ((t - t0) / IZR (i0 + k))) with (IZR n / IZR (i0 + k) * (t - t0)) by (field; apply not_0_IZR; auto). reflexivity.
      + rewrite I1. rewrite <- seq_shift, map_map. apply map_ext. intros j.
        change (firstn (S (S j)) ((k, t) :: h)) with ((k, t) :: firstn (S j) h). cbn [map fst sumZ nth]. replace (i0 + k + sumZ (map fst (firstn (S j) h)))%Z with (i0 + (k + sumZ (map fst (firstn (S j) h))))%Z by lia. reflexivity.
    - rewrite I2. cbn [map fst sumZ]. lia. }
  destruct (G h 0%Z ltac:(lia) F) as [G1 G2]. destruct (samples (mkProg true t0 n 0) h) as [p' l]. cbn [fst snd] in *. rewrite G2. split; auto. f_equal. exact G1.
Qed.
(** In particular a loop that calls sample once per iteration never reports its last one: after N calls the report is N-1 of N. *)
Theorem progress_last_refuted n t0 ts : (0 < n)%Z -> Z.of_nat (length ts) = (n - 1)%Z ->
  iteration (fst (samples (progress_new n) ((1%Z, t0) :: map (fun t => (1%Z, t)) ts))) = (n - 1)%Z.
Proof.
  intros N L. destruct (progress_reports n 1 t0 (map (fun t => (1%Z, t)) ts)) as [_ E]; [apply Forall_map, Forall_forall; intros; cbn; lia|]. rewrite E, map_map. cbn [fst].
  rewrite <- L. clear. induction ts as [|t ts IH]; auto. cbn [map sumZ length]. rewrite IH. lia.
Qed.
(** The remaining time is not negative as long as there is something left to do, and its text is then exact. *)
Theorem progress_remaining_partial n i e : (0 < i <= n)%Z -> 0 <= e -> let rem := IZR n / IZR i * e - e in 0 <= rem /\ rem = IZR (n - i) * (e / IZR i).
Proof.
  intros [I1 I2] E. assert (P : 0 < IZR i) by (apply IZR_lt; lia). cbv zeta.
  assert (Q : IZR n / IZR i * e - e = IZR (n - i) * (e / IZR i)) by (rewrite minus_IZR; field; lra).
  rewrite Q. split; auto. apply Rmult_le_pos; [apply IZR_le; lia|]. apply Rmult_le_pos; auto. apply Rlt_le, Rinv_0_lt_compat; auto.
Qed.
(** Beyond the announced number of steps the text is wrong: one second over time reads as 59 minutes and 59 seconds left. *)
Theorem progress_overtime_refuted : exists p h i n e total, snd (samples p h) = [Quiet; Report i n e total (str "59m 59s")] /\ total - e = -1.
Proof.
  exists (progress_new 3), [(1%Z, 0); (4%Z, 4)], 4%Z, 3%Z, 4, 3. split; [|lra].
  destruct (progress_reports 3 1 0 [(4%Z, 4)]) as [-> _]; [repeat constructor; cbn; lia|]. cbn [length seq map firstn fst sumZ nth snd Z.add].
  f_equal. f_equal. change (4 + 0)%Z with 4%Z. assert (T : 3 / 4 * (4 - 0) = 3) by lra. rewrite T. replace (4 - 0) with 4 by lra.
  f_equal. unfold remaining_text, divmod60, divmod60Z. replace (Zfloor ((3 - 4) / 60)) with (-1)%Z by (symmetry; apply Zfloor_imp; split; cbn; lra).
  replace (3 - 4 - 60 * -1) with 59 by lra. rewrite (Ztrunc_IZR 59). rewrite (Rlt_bool_true 0 59) by lra. reflexivity.
Qed.
(** A sample of zero steps directly after the first one divides by zero. *)
Theorem progress_zero_refuted n t0 t : snd (samples (progress_new n) [(1%Z, t0); (0%Z, t)]) = [Quiet; Raises].
Proof. reflexivity. Qed.
(** reset starts a new count; -1 keeps the number of iterations *)
Theorem progress_reset_exact n h m k : let p := fst (samples (progress_new n) h) in
  progress_reset p m = progress_new (if (m =? -1)%Z then n else m) /\ (m <> -1 -> progress_reset p m = progress_new m)%Z /\ sample (progress_reset p m) k = sample (progress_new (if (m =? -1)%Z then n else m)) k.
Proof.
  assert (K : forall h p, numIterations (fst (samples p h)) = numIterations p).
  { clear. induction h as [|[k t] h IH]; intros p; auto. cbn [samples]. assert (E : numIterations (fst (sample p k t)) = numIterations p).
    { unfold sample. destruct (started p); auto. destruct (_ =? 0)%Z; auto. }
    destruct (sample p k t) as [p' x]. cbn [fst] in E. specialize (IH p'). destruct (samples p' h) as [p'' l]. destruct x; cbn [fst] in *; congruence. }
  cbv zeta. unfold progress_reset. rewrite K. cbn [progress_new numIterations]. split; auto. split; auto. intros H. destruct (Z.eqb_spec m (-1)); [lia|auto].
Qed.
(** Concrete case *)
Example ex_progress : exists e total, snd (samples (progress_new 10) [(1%Z, 100); (1%Z, 600); (1%Z, 1100)]) =
  [Quiet; Report 1 10 500 5000 (str "1 h 15m "); Report 2 10 e total (str "1 h 6m 40s")].
Proof.
  exists 1000, 5000. destruct (progress_reports 10 1 100 [(1%Z, 600); (1%Z, 1100)]) as [-> _]; [repeat constructor; cbn; lia|]. cbn [length seq map firstn fst sumZ nth snd].
  change (1 + 0)%Z with 1%Z. change (1 + (1 + 0))%Z with 2%Z. change (1 + 1)%Z with 2%Z.
  replace (600 - 100) with 500 by lra. replace (1100 - 100) with 1000 by lra. replace (10 / 1 * 500) with 5000 by lra. replace (10 / 2 * 1000) with 5000 by lra.
  f_equal. f_equal; [|f_equal]; f_equal; unfold remaining_text, divmod60, divmod60Z.
  - replace (Zfloor ((5000 - 500) / 60)) with 75%Z by (symmetry; apply Zfloor_imp; split; cbn; lra). rewrite Rlt_bool_false by lra. reflexivity.
  - replace (Zfloor ((5000 - 1000) / 60)) with 66%Z by (symmetry; apply Zfloor_imp; split; cbn; lra). replace (5000 - 1000 - 60 * 66) with 40 by lra. rewrite Rlt_bool_true by lra. rewrite (Ztrunc_IZR 40). reflexivity.
Qed.
Print Assumptions progress_reports.

(** The line: carriage return, the counters, a tab, the remaining time, blanks, and the text None (the result of flush()). *)
Theorem progress_line i n e t text : line_of (Report i n e t text) =
  [13%N] ++ str "  Progress " ++ print_int i ++ str " / " ++ print_int n ++ str " " ++ [9%N] ++ str " Time remaining: " ++ text ++ repeat 32%N 17 ++ str " None" ++ [10%N] /\
  line_of Quiet = [] /\ line_of Raises = [].
Proof. split; [|split; reflexivity]. reflexivity. Qed.
