(** C134: the tables printed by Timing::print. *)
From Coq Require Import Permutation Sorted.
From Verif Require Import Bytes Float64 Round_Model Nsec_Model Nsec_Proofs TimeString_Props Timer_Model TimerTable_Model TimerTable_Num.
From Coq Require Import Psatz.
Import ListNotations.
Open Scope R_scope.

(** ** Specification *)
(** The tags in the order of their first use: the handle of a tag is its place in this list (C27). *)
Definition tag_dec : forall a b : tag, {a = b} + {a <> b} := list_eq_dec N.eq_dec.
Definition use (k : list tag) (o : top) : list tag :=
  match o with TGetHandle t => if in_dec tag_dec t k then k else k ++ [t] | _ => k end.
Definition known (ops : list top) : list tag := fold_left use ops [].
(** The durations recorded under a handle since its last reset, in nanoseconds. *)
Definition record_of (h : nat) (l : list Z) (o : top) : list Z :=
  match o with
  | TSample h' ns => if Nat.eq_dec h' h then l ++ [ns] else l
  | TReset h' => if Nat.eq_dec h' h then [] else l
  | _ => l
  end.
Definition durations (ops : list top) (h : nat) : list Z := fold_left (record_of h) ops [].
(** [recorded ops t l]: l are the durations recorded under the tag t. *)
Definition recorded (ops : list top) (t : tag) (l : list Z) : Prop :=
  exists h, nth_error (known ops) h = Some t /\ l = durations ops h.
(** Timer objects exist only for valid handles (C28). *)
Definition valid (ops : list top) : Prop :=
  forall pre h ns post, ops = pre ++ TSample h ns :: post -> (h < length (known pre))%nat.
(** An order in which the hash map may list the tags: each registered tag once. *)
Definition an_order (ops : list top) (order : list tag) : Prop :=
  NoDup order /\ forall t, In t order <-> In (TGetHandle t) ops.

(** A text H:MM:SS.UUUUUU that denotes r up to half a microsecond (the last printed digit) and the error e. *)
Definition reads_as (text : bytes) (r e : R) : Prop :=
  exists H M S U, time_text text H M S U /\ (value M < 60)%Z /\ Rabs (text_seconds H M S U - r) <= 1 / 2000000 + e.
Definition least (l : list Z) (m : Z) : Prop := In m l /\ forall d, In d l -> (m <= d)%Z.
Definition greatest (l : list Z) (m : Z) : Prop := In m l /\ forall d, In d l -> (d <= m)%Z.
(** The statistics by which the table can be sorted, and the error of each printed number (2^-53 per addition). *)
Definition stat (k : sort_type) (l : list Z) (r : R) : Prop :=
  match k with
  | BY_TOTAL => r = total l
  | BY_MEAN => r = mean l
  | BY_STD => r = sqrt (variance l)
  | BY_MIN => exists m, least l m /\ r = secs m
  | BY_MAX => exists m, greatest l m /\ r = secs m
  | BY_NUM_SAMPLES => r = INR (length l)
  end.
Definition error (k : sort_type) (l : list Z) (r : R) : R :=
  let n := INR (length l) in
  match k with
  | BY_TOTAL => (2 * n + 5) * u53 * r
  | BY_MEAN => (2 * n + 7) * u53 * r
  | BY_STD => sqrt ((7 * n + 34) * u53 * mean_sq l) + 2 * u53 * sqrt (mean_sq l)
  | BY_MIN | BY_MAX => 4 * u53 * r
  | BY_NUM_SAMPLES => 0
  end.
Definition shows (k : sort_type) (l : list Z) (text : bytes) : Prop :=
  exists r, stat k l r /\ reads_as text r (error k l r).

(** The line of a tag: the tag filled with blanks to the length of the longest tag, the number of samples right adjusted
    in 7 columns, and the five statistics if there are samples. *)
Definition blanks (s : bytes) : Prop := Forall (eq 32%N) s.
Definition longest (ops : list top) (w : nat) : Prop :=
  (forall t, In (TGetHandle t) ops -> (length t <= w)%nat) /\ (exists t, In (TGetHandle t) ops /\ length t = w).
Definition line_of (ops : list top) (t : tag) (r : bytes) : Prop :=
  exists w l fill b n fields, longest ops w /\ recorded ops t l /\
    r = t ++ fill ++ [9%N] ++ b ++ n ++ [9%N] ++ fields ++ [10%N] /\
    blanks fill /\ length (t ++ fill) = w /\
    blanks b /\ length (b ++ n) = Nat.max 7 (length n) /\ Forall digit n /\ value n = Z.of_nat (length l) /\
    (l = [] -> fields = []) /\
    (l <> [] -> exists tt mm ss lo hi,
       fields = tt ++ [9%N] ++ str "(" ++ mm ++ str " +- " ++ ss ++ str ")" ++ [9%N] ++ str "[" ++ lo ++ str "," ++ hi ++ str "]" /\
       shows BY_TOTAL l tt /\ shows BY_MEAN l mm /\ shows BY_STD l ss /\ shows BY_MIN l lo /\ shows BY_MAX l hi).
Definition header : bytes := str "SM Timing" ++ [10%N] ++ str "-----------" ++ [10%N].

(** The durations of every tag are ordinary, and there is one only or they are spread: their variance is not lost in the
    rounding errors of the sum of the squares. *)
Definition spread (l : list Z) : Prop :=
  l = [] \/ length l = 1%nat \/ (7 * INR (length l) + 34) * u53 * mean_sq l <= variance l.
Definition tame (ops : list top) : Prop := forall t l, recorded ops t l -> ordinary l /\ spread l.

(** ** the state after a history *)
Lemma known_snoc ops o : known (ops ++ [o]) = use (known ops) o.
Proof. unfold known. now rewrite fold_left_app. Qed.
Lemma durations_snoc ops o h : durations (ops ++ [o]) h = record_of h (durations ops h) o.
Proof. unfold durations. now rewrite fold_left_app. Qed.
Lemma tag_index_in t l : tag_index t l = None <-> ~ In t l.
Proof.
  induction l as [|t' l IH]; cbn; [tauto|]. destruct (bytes_eqb t t') eqn:E.
  - apply bytes_eqb_eq in E. subst. split; [discriminate|tauto].
  - assert (t <> t') by (intros ->; rewrite bytes_eqb_refl in E; discriminate).
    destruct (tag_index t l); cbn; split; try discriminate; intuition congruence.
Qed.
Lemma tag_index_nth t l h : tag_index t l = Some h -> nth_error l h = Some t.
Proof.
  revert h. induction l as [|t' l IH]; intros h; cbn; [discriminate|]. destruct (bytes_eqb t t') eqn:E.
  - intros [= <-]. apply bytes_eqb_eq in E. now subst.
  - destruct (tag_index t l) as [i|]; cbn; [|discriminate]. intros [= <-]. cbn. auto.
Qed.
Lemma known_nodup ops : NoDup (known ops).
Proof.
  induction ops as [|o ops IH] using rev_ind; [constructor|]. rewrite known_snoc. destruct o; cbn [use]; auto.
  destruct (in_dec tag_dec t (known ops)) as [|N]; auto. apply NoDup_app_remove_l with (l := []) || idtac.
  apply NoDup_rev in IH. rewrite <- (rev_involutive (known ops ++ [t])). apply NoDup_rev. rewrite rev_app_distr. cbn. constructor; auto.
  now rewrite <- in_rev.
Qed.
Lemma known_in ops t : In t (known ops) <-> In (TGetHandle t) ops.
Proof.
  induction ops as [|o ops IH] using rev_ind; [cbn; tauto|]. rewrite known_snoc, in_app_iff. cbn [In].
  destruct o as [t'|h ns|h]; cbn [use].
  - destruct (in_dec tag_dec t' (known ops)) as [I|N].
    + rewrite IH. split; [tauto|]. intros [K|[K|[]]]; auto. injection K as <-. now apply IH.
    + rewrite in_app_iff, IH. cbn. split; [intros [K|[<-|[]]]|intros [K|[K|[]]]]; auto. injection K as <-. auto.
  - rewrite IH. split; [tauto|]. intros [K|[K|[]]]; auto; discriminate.
  - rewrite IH. split; [tauto|]. intros [K|[K|[]]]; auto; discriminate.
Qed.
Lemma valid_prefix ops o : valid (ops ++ [o]) -> valid ops.
Proof. intros V pre h ns post E. apply (V pre h ns (post ++ [o])). rewrite E, <- app_assoc. reflexivity. Qed.
Lemma unused_handle ops h : valid ops -> (length (known ops) <= h)%nat -> durations ops h = [].
Proof.
  induction ops as [|o ops IH] using rev_ind; intros V L; [reflexivity|].
  rewrite durations_snoc. rewrite known_snoc in L.
  assert (L2 : (length (known ops) <= h)%nat).
  { destruct o; cbn [use] in L; auto. destruct (in_dec _ _ _); auto. rewrite app_length in L. cbn in L. lia. }
  rewrite (IH (valid_prefix _ _ V) L2). destruct o as [t|h' ns|h']; cbn [record_of]; auto.
  - destruct (Nat.eq_dec h' h) as [->|]; auto. specialize (V ops h ns [] eq_refl). lia.
  - now destruct (Nat.eq_dec h' h).
Qed.
Lemma update_map_seq (f g : nat -> facc) h (F : facc -> facc) : forall n b,
  (forall i, (i <> h)%nat -> g i = f i) -> g h = F (f h) ->
  (b <= h)%nat -> update (map f (seq b n)) (h - b) F = map g (seq b n).
Proof.
  induction n; intros b A B L; [reflexivity|]. cbn [seq map]. destruct (Nat.eq_dec b h) as [->|N].
  - rewrite Nat.sub_diag. cbn [update]. f_equal; [now rewrite B|]. apply map_ext_in. intros i Hi. apply in_seq in Hi. symmetry. apply A. lia.
  - replace (h - b)%nat with (S (h - S b)) by lia. cbn [update]. f_equal; [symmetry; now apply A|]. apply IHn; auto. lia.
Qed.
Lemma trun_state ops : valid ops -> let s := trun ops in
  t_tags s = known ops /\ t_accs s = map (fun h => accumulated (durations ops h)) (seq 0 (length (known ops))) /\
  t_maxlen s = fold_right Nat.max 0%nat (map (@length N) (known ops)).
Proof.
  induction ops as [|o ops IH] using rev_ind; intros V; cbn zeta; [now repeat split|].
  destruct (IH (valid_prefix _ _ V)) as (I1 & I2 & I3). unfold trun in *. rewrite fold_left_app. cbn [fold_left].
  set (s := fold_left tstep ops t_init) in *. rewrite known_snoc.
  destruct o as [t|h ns|h]; cbn [tstep use].
  - destruct (in_dec tag_dec t (known ops)) as [I|N].
    + destruct (tag_index t (t_tags s)) eqn:E; [|apply tag_index_in in E; rewrite I1 in E; tauto].
      split; auto. split; auto. rewrite I2. apply map_ext. intros h. now rewrite durations_snoc.
    + destruct (tag_index t (t_tags s)) eqn:E; [apply tag_index_nth, nth_error_In in E; rewrite I1 in E; tauto|].
      cbn [t_tags t_accs t_maxlen]. rewrite I1, I2, I3. split; auto. split.
      * rewrite app_length. cbn [length]. rewrite Nat.add_1_r, seq_S, map_app. cbn [map]. f_equal.
        -- apply map_ext. intros h. now rewrite durations_snoc.
        -- rewrite durations_snoc, unused_handle; [reflexivity|exact (valid_prefix _ _ V)|lia].
      * rewrite map_app, fold_right_app. cbn [map fold_right]. clear.
        induction (map (@length N) (known ops)) as [|x l IHl]; cbn; [lia|]. cbn in IHl. lia.
  - cbn [t_tags t_accs t_maxlen]. split; auto. split; auto. rewrite I2. rewrite <- (Nat.sub_0_r h) at 1. apply update_map_seq; [| |lia].
    + intros i Hi. rewrite durations_snoc. cbn [record_of]. destruct (Nat.eq_dec h i); [congruence|auto].
    + rewrite durations_snoc. cbn [record_of]. destruct (Nat.eq_dec h h); [|congruence]. unfold accumulated.
      now rewrite map_app, fold_left_app.
  - cbn [t_tags t_accs t_maxlen]. split; auto. split; auto. rewrite I2. rewrite <- (Nat.sub_0_r h) at 1. apply update_map_seq; [| |lia].
    + intros i Hi. rewrite durations_snoc. cbn [record_of]. destruct (Nat.eq_dec h i); [congruence|auto].
    + rewrite durations_snoc. cbn [record_of]. destruct (Nat.eq_dec h h); [|congruence]. reflexivity.
Qed.
Lemma acc_of_recorded ops t : valid ops -> In (TGetHandle t) ops ->
  exists l, recorded ops t l /\ acc_of (trun ops) t = accumulated l.
Proof.
  intros V I. destruct (trun_state ops V) as (S1 & S2 & _). apply known_in in I. unfold acc_of. rewrite S1, S2.
  destruct (tag_index t (known ops)) as [h|] eqn:E; [|apply tag_index_in in E; tauto]. apply tag_index_nth in E.
  exists (durations ops h). split; [exists h; auto|].
  assert (L : (h < length (known ops))%nat) by (apply nth_error_Some; congruence).
  rewrite (nth_indep _ newF (accumulated (durations ops 0))) by (rewrite map_length, seq_length; exact L).
  rewrite (map_nth (fun i => accumulated (durations ops i)) (seq 0 (length (known ops))) 0%nat h). now rewrite seq_nth.
Qed.
Lemma recorded_unique ops t l l' : recorded ops t l -> recorded ops t l' -> l = l'.
Proof.
  intros (h & E & ->) (h' & E' & ->). assert (h = h'); [|now subst].
  apply (proj1 (NoDup_nth_error (known ops)) (known_nodup ops)); [apply nth_error_Some; congruence|congruence].
Qed.
Lemma maxlen_longest ops t0 : valid ops -> In (TGetHandle t0) ops -> longest ops (t_maxlen (trun ops)).
Proof.
  intros V I0. destruct (trun_state ops V) as (_ & _ & ->).
  assert (G : forall l : list tag, (forall t, In t l -> (length t <= fold_right Nat.max 0 (map (@length N) l))%nat) /\
     (l <> [] -> exists t, In t l /\ length t = fold_right Nat.max 0%nat (map (@length N) l))).
  { clear. induction l as [|x l [I1 I2]]; [split; [intros ? []|congruence]|]. cbn [map fold_right In]. split.
    - intros t [<-|H]; [lia|]. specialize (I1 t H). lia.
    - intros _. destruct (Nat.max_spec (length x) (fold_right Nat.max 0%nat (map (@length N) l))) as [[L E]|[L E]].
      + destruct l as [|y l]; [cbn in L; lia|]. destruct I2 as (t & H & E2); [congruence|]. exists t. split; auto. rewrite E. exact E2.
      + exists x. split; auto. }
  destruct (G (known ops)) as [G1 G2]. split.
  - intros t Ht. apply G1. now apply known_in.
  - destruct G2 as (t & Ht & E). { intros K. apply known_in in I0. rewrite K in I0. destruct I0. }
    exists t. split; auto. now apply known_in.
Qed.

(** ** the numbers of one line *)
Lemma Rdiv_1 x : x / 1 = x. Proof. lra. Qed.
Lemma single_variance d : (0 <= d <= 2 ^ 62)%Z -> B2R (fVariance (accumulated [d])) = 0.
Proof.
  intros Hd. destruct (sample_error d Hd) as (F & B & _). destruct (square_error d Hd) as (F2 & _ & _).
  unfold fVariance, fMean, fcnt, accumulated. cbn [map fold_left faccAdd newF f_cnt f_sum f_sum2]. change (Z.of_nat 1) with 1%Z.
  destruct (fofZ_correct 1 ltac:(lia)) as [E1 FE1].
  assert (A : forall x : f64, is_finite x = true -> Rabs (B2R x) <= bpow radix2 1000 ->
            B2R (fdiv (fadd fzero x) (fofZ 1)) = B2R x /\ is_finite (fdiv (fadd fzero x) (fofZ 1)) = true).
  { intros x Fx Bx. destruct (fadd_rnd fzero x 1000) as [P1 P2]; auto; [lia|change (B2R fzero) with 0; now rewrite Rplus_0_l|].
    change (B2R fzero) with 0 in P1. rewrite Rplus_0_l, rnd_id in P1 by apply generic_format_B2R.
    destruct (fdiv_rnd (fadd fzero x) (fofZ 1) 1000) as [Q1 Q2]; auto; [rewrite E1; lra|lia|rewrite P1, E1, Rdiv_1; exact Bx|].
    rewrite P1, E1, Rdiv_1, rnd_id in Q1 by apply generic_format_B2R. auto. }
  set (x := nsecToSec d) in *.
  assert (SB : 0 <= secs d <= 8589934592).
  { split; [apply secs_nonneg; lia|]. unfold secs. destruct Hd as [_ Hd]. apply IZR_le in Hd. change (IZR (2^62)) with 4611686018427387904 in Hd. lra. }
  assert (XB : 0 <= B2R x <= 2 * 8589934592).
  { destruct (sample_error d Hd) as (_ & B' & E). fold x in B', E. apply Rabs_le_inv in E. rewrite u53_val in E.
    pose proof (bpow_gt_0 radix2 (-31)). split; [destruct B'|]; lra. }
  assert (B100 : bpow radix2 100 <= bpow radix2 1000) by (apply bpow_le; lia). rewrite bpow_100 in B100.
  destruct (A x F) as [X1 X2]; [rewrite Rabs_pos_eq; lra|].
  assert (XX : 0 <= B2R x * B2R x <= 4 * 73786976294838206464).
  { split; [apply Rle_0_sqr|]. apply Rle_trans with ((2 * 8589934592) * (2 * 8589934592)); [apply Rmult_le_compat; lra|lra]. }
  destruct (fmul_rnd x x 100) as [M1 M2]; auto; [lia|rewrite Rabs_pos_eq by apply XX; rewrite bpow_100; lra|].
  assert (MB : Rabs (B2R (fmul x x)) <= bpow radix2 100).
  { rewrite M1. apply rnd_abs_le; [lia|]. rewrite Rabs_pos_eq by apply XX. rewrite bpow_100. lra. }
  destruct (A (fmul x x) M2) as [Y1 Y2]; [apply Rle_trans with (1 := MB); apply bpow_le; lia|].
  set (g := fdiv (fadd fzero x) (fofZ 1)) in *. set (q := fdiv (fadd fzero (fmul x x)) (fofZ 1)) in *.
  destruct (fmul_rnd g g 100) as [N1 N2]; auto; [lia|rewrite X1, Rabs_pos_eq by apply XX; rewrite bpow_100; lra|].
  assert (E0 : B2R q - B2R (fmul g g) = 0) by (rewrite Y1, N1, M1, X1; ring).
  destruct (fsub_rnd q (fmul g g) 100) as [Z1 _]; auto; [lia|rewrite E0, Rabs_R0; apply bpow_ge_0|].
  rewrite Z1, E0. apply rnd_0.
Qed.
Lemma spread_variance l : ordinary l -> spread l -> l <> [] -> 0 <= B2R (fVariance (accumulated l)).
Proof.
  intros O [S|[S|S]] NE; [congruence| |].
  - destruct l as [|d [|d' l]]; try discriminate. rewrite single_variance; [lra|]. apply ordinary_each, Forall_inv in O. exact O.
  - destruct (variance_spec l O NE) as (_ & _ & _ & E). apply Rabs_le_inv in E. lra.
Qed.
(** the binary64 number behind each printed statistic *)
Definition computed (k : sort_type) (a : facc) : f64 :=
  match k with
  | BY_TOTAL => f_sum a | BY_MEAN => fMean a | BY_STD => fStd a
  | BY_MAX => f_max a | BY_MIN => f_min a | BY_NUM_SAMPLES => fcnt a
  end.
Lemma ordinary_pos l : ordinary l -> l <> [] -> exists m M, least l m /\ greatest l M.
Proof.
  intros _. induction l as [|d l IH]; [congruence|]. intros _. destruct l as [|d' l'].
  - exists d, d. split; (split; [now left|]; intros x [<-|[]]; lia).
  - destruct IH as (m & M & [Im Lm] & [IM LM]); [congruence|].
    exists (Z.min d m), (Z.max d M). split; split.
    + destruct (Z.min_spec d m) as [[_ ->]|[_ ->]]; [now left|now right].
    + intros x [<-|Hx]; [lia|]. specialize (Lm x Hx). lia.
    + destruct (Z.max_spec d M) as [[_ ->]|[_ ->]]; [now right|now left].
    + intros x [<-|Hx]; [lia|]. specialize (LM x Hx). lia.
Qed.
Lemma computed_ok k l : ordinary l -> l <> [] -> (k = BY_STD -> 0 <= B2R (fVariance (accumulated l))) ->
  let v := computed k (accumulated l) in
  is_finite v = true /\ Bsign v = false /\ B2R v <= bpow radix2 46 /\ (k <> BY_NUM_SAMPLES -> B2R v <= bpow radix2 35) /\
  (exists r, stat k l r) /\
  (forall r, stat k l r -> Rabs (B2R v - r) <= error k l r).
Proof.
  intros O NE KV v. pose proof (count_INR l O) as NB. pose proof u53_val as UV. pose proof u53_pos as UP.
  destruct (sum_signs l O NE) as (S1 & S2 & _ & _). pose proof (total_bound l O) as TB.
  pose proof (ordinary_each l O) as P. rewrite Forall_forall in P.
  assert (P3546 : bpow radix2 35 <= bpow radix2 46) by (apply bpow_le; lia).
  assert (MMB : forall d, In d l -> B2R (nsecToSec d) <= bpow radix2 35).
  { intros d Hd. destruct (sample_error d (P d Hd)) as (_ & _ & E). apply Rabs_le_inv in E.
    assert (secs d <= 8589934592).
    { unfold secs. destruct (P d Hd) as [_ Hd2]. apply IZR_le in Hd2. change (IZR (2^62)) with 4611686018427387904 in Hd2. lra. }
    assert (0 <= secs d) by (apply secs_nonneg, P; auto). rewrite UV in E. change (bpow radix2 35) with 34359738368. lra. }
  destruct (ordinary_pos l O NE) as (m0 & M0 & L0 & G0).
  destruct k; unfold v; cbn [computed stat error].
  - destruct (sum_spec l O) as (_ & F & _ & E). split; auto. split; auto.
    assert (BB : B2R (f_sum (accumulated l)) <= bpow radix2 35).
    { apply Rabs_le_inv in E. assert ((2 * INR (length l) + 5) * u53 * total l <= 1 * total l) by (apply Rmult_le_compat_r; [lra|rewrite UV; lra]).
      change (bpow radix2 33) with 8589934592 in TB. change (bpow radix2 35) with 34359738368. lra. }
    split; [lra|]. split; auto. split; [eauto|]. intros r ->. exact E.
  - destruct (mean_spec l O NE) as (F & _ & M & E). split; auto. split; auto.
    assert (BB : B2R (fMean (accumulated l)) <= bpow radix2 35).
    { apply Rabs_le_inv in E. assert ((2 * INR (length l) + 7) * u53 * mean l <= 1 * mean l) by (apply Rmult_le_compat_r; [lra|rewrite UV; lra]).
      change (bpow radix2 33) with 8589934592 in M. change (bpow radix2 35) with 34359738368. lra. }
    split; [lra|]. split; auto. split; [eauto|]. intros r ->. exact E.
  - destruct (std_spec l O NE) as [_ S]. destruct S as (F & Sg & B & E); auto. split; auto. split; auto.
    split; [lra|]. split; auto. split; [eauto|]. intros r ->. exact E.
  - destruct (minmax_spec l O NE) as [(d & Hd & Ed & Hmin) _]. rewrite Ed in *.
    split; [apply sample_error; auto|]. split; [apply sample_sign; auto|]. split; [pose proof (MMB d Hd); lra|]. split; [auto|].
    split; [exists (secs m0); eauto|]. intros r (m & [Im Lm] & ->).
    replace (B2R (nsecToSec d)) with (B2R (nsecToSec m)); [apply sample_error; auto|].
    apply Rle_antisym; [apply sample_mono; auto|auto].
  - destruct (minmax_spec l O NE) as [_ (d & Hd & Ed & Hmax)]. rewrite Ed in *.
    split; [apply sample_error; auto|]. split; [apply sample_sign; auto|]. split; [pose proof (MMB d Hd); lra|]. split; [auto|].
    split; [exists (secs M0); eauto|]. intros r (m & [Im Lm] & ->).
    replace (B2R (nsecToSec d)) with (B2R (nsecToSec m)); [apply sample_error; auto|].
    apply Rle_antisym; [auto|apply sample_mono; auto].
  - destruct (sum_spec l O) as (C & _). unfold fcnt. rewrite C. pose proof O as (_ & _ & NZ).
    assert (NA : (Z.abs (Z.of_nat (length l)) <= 2 ^ 53)%Z).
    { change (2^45)%Z with 35184372088832%Z in NZ. change (2^53)%Z with 9007199254740992%Z. lia. }
    destruct (fofZ_correct (Z.of_nat (length l)) NA) as [E F].
    destruct (fofZ_pos (length l) (nonempty_count l NE) NZ) as [_ Sg]. split; auto. split; auto. rewrite E, <- INR_IZR_INZ.
    split; [change (bpow radix2 46) with 70368744177664; lra|]. split; [congruence|]. split; [eauto|].
    intros r ->. rewrite Rminus_diag_eq, Rabs_R0 by reflexivity. lra.
Qed.
Lemma shown_text k l : ordinary l -> l <> [] -> k <> BY_NUM_SAMPLES -> (k = BY_STD -> 0 <= B2R (fVariance (accumulated l))) ->
  exists text, secondsToTimeString (computed k (accumulated l)) = Some text /\ shows k l text.
Proof.
  intros O NE NK KV. destruct (computed_ok k l O NE KV) as (F & Sg & _ & B & (r & Hr) & E). specialize (B NK).
  set (v := computed k (accumulated l)) in *.
  destruct (secondsToTimeString_partial v F Sg) as (t & H & M & S & U & T1 & T2 & T3 & _ & T5).
  { split; [now apply sign_nonneg|]. change (bpow radix2 35) with 34359738368 in B. lra. }
  exists t. split; auto. exists r. split; auto. exists H, M, S, U. split; auto. split; auto.
  specialize (E r Hr). replace (text_seconds H M S U - r) with ((text_seconds H M S U - B2R v) + (B2R v - r)) by ring.
  apply Rle_trans with (1 := Rabs_triang _ _). lra.
Qed.

(** ** lines *)
Lemma row_spec ops t : valid ops -> tame ops -> In (TGetHandle t) ops ->
  exists r, trow (t_maxlen (trun ops)) t (acc_of (trun ops) t) = Some r /\ line_of ops t r.
Proof.
  intros V T I. destruct (acc_of_recorded ops t V I) as (l & R & E). destruct (T t l R) as [O S]. rewrite E.
  pose proof (maxlen_longest ops t V I) as W. set (w := t_maxlen (trun ops)) in *.
  destruct (sum_spec l O) as (C & _). unfold trow. rewrite C.
  destruct (dec_spec (Z.of_nat (length l)) ltac:(lia)) as (D1 & D2 & D3). set (n := dec (Z.of_nat (length l))) in *.
  assert (BL : forall k, blanks (repeat 32%N k)).
  { intros k. apply Forall_forall. intros x Hx. now apply repeat_spec in Hx. }
  assert (LW : length (t ++ repeat 32%N (w - length t)) = w).
  { rewrite app_length, repeat_length. pose proof (proj1 W t I). lia. }
  assert (LN : length (repeat 32%N (7 - length n) ++ n) = Nat.max 7 (length n)) by (rewrite app_length, repeat_length; lia).
  destruct (Nat.ltb_spec 0 (length l)) as [L|L].
  - assert (NE : l <> []) by (intros ->; cbn in L; lia).
    pose proof (spread_variance l O S NE) as VV.
    destruct (shown_text BY_TOTAL l O NE) as (tt & T1 & H1); [discriminate|discriminate|].
    destruct (shown_text BY_MEAN l O NE) as (mm & T2 & H2); [discriminate|discriminate|].
    destruct (shown_text BY_STD l O NE) as (ss & T3 & H3); [discriminate|auto|].
    destruct (shown_text BY_MIN l O NE) as (lo & T4 & H4); [discriminate|discriminate|].
    destruct (shown_text BY_MAX l O NE) as (hi & T5 & H5); [discriminate|discriminate|].
    cbn [computed] in T1, T2, T3, T4, T5. rewrite T1, T2, T3, T4, T5. eexists. split; [reflexivity|].
    exists w, l, (repeat 32%N (w - length t)), (repeat 32%N (7 - length n)), n,
      (tt ++ [9%N] ++ str "(" ++ mm ++ str " +- " ++ ss ++ str ")" ++ [9%N] ++ str "[" ++ lo ++ str "," ++ hi ++ str "]").
    split; auto. split; auto. split.
    { unfold pad_right, pad_left, TAB, NL. rewrite <- !app_assoc. reflexivity. }
    repeat (split; [auto|]). { congruence. } intros _. exists tt, mm, ss, lo, hi. auto 10.
  - assert (NE : l = []) by (destruct l; auto; cbn in L; lia). eexists. split; [reflexivity|].
    exists w, l, (repeat 32%N (w - length t)), (repeat 32%N (7 - length n)), n, [].
    split; auto. split; auto. split.
    { unfold pad_right, pad_left, TAB, NL. rewrite <- !app_assoc. reflexivity. }
    repeat (split; [auto|]). congruence.
Qed.
Lemma rows_spec ops l : valid ops -> tame ops -> (forall t, In t l -> In (TGetHandle t) ops) ->
  exists rows, print_rows (trun ops) l = Some (header ++ concat rows) /\ Forall2 (line_of ops) l rows.
Proof.
  intros V T I. assert (G : exists rows, trows (trun ops) l = Some (concat rows) /\ Forall2 (line_of ops) l rows).
  { induction l as [|t l IH]; [exists []; split; [reflexivity|constructor]|].
    destruct IH as (rows & E & F); [intros x Hx; apply I; now right|].
    destruct (row_spec ops t V T) as (r & Er & Fr); [apply I; now left|].
    exists (r :: rows). cbn [trows concat]. rewrite Er, E. split; auto. }
  destruct G as (rows & E & F). exists rows. unfold print_rows. rewrite E. split; auto.
Qed.

(** ** sorting *)
Lemma mm_insert_perm p l : Permutation (mm_insert p l) (p :: l).
Proof.
  induction l as [|x l IH]; cbn; auto. destruct (fltb (fst x) (fst p)); auto.
  apply perm_trans with (x :: p :: l); [now apply perm_skip|constructor].
Qed.
Definition desc (p q : f64 * tag) : Prop := ext (fst q) <= ext (fst p).
Lemma mm_insert_sorted p l : is_nan (fst p) = false -> Forall (fun q => is_nan (fst q) = false) l ->
  StronglySorted desc l -> StronglySorted desc (mm_insert p l).
Proof.
  intros Np Nl S. induction S as [|x l S IH F]; cbn; [repeat constructor|].
  apply Forall_cons_iff in Nl. destruct Nl as [Nx Nl]. pose proof (fltb_ext (fst x) (fst p) Nx Np) as C.
  destruct (fltb (fst x) (fst p)).
  - assert (L : ext (fst x) < ext (fst p)) by now apply C. constructor; [now constructor|]. constructor; [unfold desc; lra|].
    eapply Forall_impl; [|exact F]. unfold desc. intros q Hq. lra.
  - constructor; [now apply IH|]. assert (L : ~ ext (fst x) < ext (fst p)) by (intros K; apply C in K; discriminate).
    eapply Permutation_Forall; [apply Permutation_sym, mm_insert_perm|]. constructor; [unfold desc; lra|exact F].
Qed.
Lemma mm_fold_sorted keys : Forall (fun q => is_nan (fst q) = false) keys ->
  let l := fold_left (fun l p => mm_insert p l) keys [] in Permutation l keys /\ StronglySorted desc l.
Proof.
  intros N. cbn zeta. induction keys as [|p keys IH] using rev_ind; [split; constructor|].
  apply Forall_app in N. destruct N as [N Np]. apply Forall_inv in Np. destruct (IH N) as [P S].
  rewrite fold_left_app. cbn [fold_left]. split.
  - apply perm_trans with (p :: keys); [apply perm_trans with (1 := mm_insert_perm _ _); now constructor|].
    apply Permutation_cons_append.
  - apply mm_insert_sorted; auto. eapply Permutation_Forall; [apply Permutation_sym, P|exact N].
Qed.
(** t1 is listed above t2 *)
Definition above (listed : list tag) (t1 t2 : tag) : Prop := exists a b c, listed = a ++ t1 :: b ++ t2 :: c.
Lemma sorted_above l a p b q c : StronglySorted desc l -> l = a ++ p :: b ++ q :: c -> desc p q.
Proof.
  intros S. revert a. induction S as [|x l S IH F]; intros a E; [now destruct a|]. destruct a as [|y a].
  - cbn in E. injection E as -> ->. rewrite Forall_forall in F. apply F. apply in_or_app. right. now left.
  - injection E as -> ->. now apply (IH a).
Qed.
Lemma map_split (A B : Type) (f : A -> B) l : forall a y c, map f l = a ++ y :: c ->
  exists a' x c', l = a' ++ x :: c' /\ map f a' = a /\ f x = y /\ map f c' = c.
Proof.
  intros a y c E. symmetry in E. apply eq_sym in E. apply map_eq_app in E. destruct E as (l1 & l2 & -> & <- & E2).
  apply map_eq_cons in E2. destruct E2 as (x & l3 & -> & <- & <-). exists l1, x, l3. auto.
Qed.

(** C134, plain table. For every history and every iteration order of the hash map: the header and, for each registered
    tag exactly once, its line. (What is missing for the full claim is [tame]: see the refutation below.) *)
Theorem timing_table_partial : forall ops order, valid ops -> an_order ops order -> tame ops ->
  exists rows, print_plain (trun ops) order = Some (header ++ concat rows) /\ Forall2 (line_of ops) order rows.
Proof. intros ops order V A T. apply rows_spec; auto. intros t Ht. now apply A. Qed.

(** C134, sorted table: the same lines in an order in which the chosen statistic decreases (up to the rounding errors of
    the two statistics); tags without samples come first. *)
Theorem timing_table_sorted_partial : forall ops order k, valid ops -> an_order ops order -> tame ops ->
  exists listed rows, print_sorted (trun ops) k order = Some (header ++ concat rows) /\
    Permutation listed order /\ Forall2 (line_of ops) listed rows /\
    (forall t1 t2 l1 l2, above listed t1 t2 -> recorded ops t1 l1 -> recorded ops t2 l2 ->
       (l2 = [] -> l1 = []) /\
       (l1 <> [] -> l2 <> [] -> forall r1 r2, stat k l1 r1 -> stat k l2 r2 -> r2 <= r1 + error k l1 r1 + error k l2 r2)).
Proof.
  intros ops order k V A T. set (f := fun t => (sort_key k (acc_of (trun ops) t), t)).
  assert (KEY : forall t, In t order -> exists l, recorded ops t l /\
     ((l = [] /\ fst (f t) = dbl_max) \/
      (l <> [] /\ fst (f t) = computed k (accumulated l) /\ is_finite (fst (f t)) = true /\ B2R (fst (f t)) <= bpow radix2 46 /\
        forall r, stat k l r -> Rabs (B2R (fst (f t)) - r) <= error k l r))).
  { intros t Ht. apply A in Ht. destruct (acc_of_recorded ops t V Ht) as (l & R & E). destruct (T t l R) as [O S].
    exists l. split; auto. unfold f. cbn [fst]. rewrite E. unfold sort_key. destruct (sum_spec l O) as (C & _). rewrite C.
    destruct (Nat.ltb_spec 0 (length l)) as [L|L].
    - right. assert (NE : l <> []) by (intros ->; cbn in L; lia).
      destruct (computed_ok k l O NE) as (F & _ & B & _ & _ & Err); [intros _; now apply spread_variance|].
      split; auto.
    - left. destruct l; [auto|cbn in L; lia]. }
  destruct dbl_max_bound as [DF DB].
  assert (NN : Forall (fun q => is_nan (fst q) = false) (map f order)).
  { apply Forall_map, Forall_forall. intros t Ht. destruct (KEY t Ht) as (l & _ & [(_ & E)|(_ & _ & F & _)]).
    - rewrite E. now apply is_nan_finite.
    - now apply is_nan_finite. }
  assert (EX : existsb (fun p => is_nan (fst p)) (map f order) = false).
  { destruct (existsb _ _) eqn:X; auto. apply existsb_exists in X. destruct X as (p & Hp & Np). rewrite Forall_forall in NN.
    rewrite (NN p Hp) in Np. discriminate. }
  destruct (mm_fold_sorted (map f order) NN) as [PM SS].
  set (sl := fold_left (fun l p => mm_insert p l) (map f order) []) in *.
  assert (PL : Permutation (map snd sl) order).
  { apply perm_trans with (map snd (map f order)); [now apply Permutation_map|]. rewrite map_map. unfold f. cbn [snd]. now rewrite map_id. }
  destruct (rows_spec ops (map snd sl) V T) as (rows & ER & FR).
  { intros t Ht. apply A. eapply Permutation_in; eauto. }
  exists (map snd sl), rows. split.
  { unfold print_sorted, sorted_order. fold f. rewrite EX. exact ER. }
  split; auto. split; auto. intros t1 t2 l1 l2 (a & b & c & E) R1 R2.
  apply map_split in E. destruct E as (a' & p1 & c1 & E1 & _ & Ep1 & E2).
  apply map_split in E2. destruct E2 as (b' & p2 & c' & E2 & _ & Ep2 & _). subst c1.
  assert (D : desc p1 p2) by (eapply sorted_above; eauto).
  assert (IN : forall p, In p sl -> p = f (snd p) /\ In (snd p) order).
  { intros p Hp. apply (Permutation_in _ PM) in Hp. apply in_map_iff in Hp. destruct Hp as (t & <- & Ht). auto. }
  destruct (IN p1) as [F1 O1]; [rewrite E1; apply in_or_app; right; now left|].
  destruct (IN p2) as [F2 O2]; [rewrite E1; apply in_or_app; right; right; apply in_or_app; right; now left|].
  rewrite Ep1 in F1, O1. rewrite Ep2 in F2, O2. rewrite F1, F2 in D. unfold desc in D. clear F1 F2 E1 Ep1 Ep2.
  destruct (KEY t1 O1) as (l1' & R1' & K1). destruct (KEY t2 O2) as (l2' & R2' & K2).
  rewrite <- (recorded_unique ops t1 l1 l1' R1 R1') in K1. rewrite <- (recorded_unique ops t2 l2 l2' R2 R2') in K2. clear l1' l2' R1' R2'.
  assert (P46 : bpow radix2 46 < bpow radix2 100) by (apply bpow_lt; lia).
  split.
  - intros Z. destruct K1 as [(K1 & _)|(N1 & _ & G1 & B1 & _)]; auto. destruct K2 as [(_ & K2)|(N2 & _)]; [|congruence].
    rewrite K2, (ext_finite dbl_max DF), (ext_finite _ G1) in D. lra.
  - intros N1 N2 r1 r2 H1 H2. destruct K1 as [(K1 & _)|(_ & _ & G1 & _ & C1)]; [congruence|].
    destruct K2 as [(K2 & _)|(_ & _ & G2 & _ & C2)]; [congruence|].
    rewrite (ext_finite _ G1), (ext_finite _ G2) in D. specialize (C1 r1 H1). specialize (C2 r2 H2).
    apply Rabs_le_inv in C1. apply Rabs_le_inv in C2. lra.
Qed.

(** C134 (refutation of the full claim): three intervals of exactly 100 ms. The computed variance is negative, the
    standard deviation is a NaN and its conversion to a time text is undefined, in the plain table and in every sorted
    one. *)
Definition ops_ex : list top := [TGetHandle (str "a"); TSample 0 100000000; TSample 0 100000000; TSample 0 100000000].
Theorem timing_table_refuted : exists ops order t l, valid ops /\ an_order ops order /\ In t order /\ recorded ops t l /\
  ordinary l /\ l <> [] /\ is_nan (fStd (accumulated l)) = true /\
  print_plain (trun ops) order = None /\ forall k, print_sorted (trun ops) k order = None.
Proof.
  exists ops_ex, [str "a"], (str "a"), [100000000; 100000000; 100000000]%Z. split.
  { intros pre h ns post E. unfold ops_ex in E.
    destruct pre as [|o0 [|o1 [|o2 [|o3 pre]]]]; cbn in E; try discriminate; injection E; intros; subst; try (vm_compute; lia).
    now destruct pre. }
  split. { split; [repeat constructor; cbn; tauto|]. intros t. cbn. split; [intros [<-|[]]; auto|]. intros [H|[H|[H|[H|[]]]]]; try discriminate. injection H as <-. auto. }
  split; [now left|]. split; [exists 0%nat; split; reflexivity|].
  split. { split; [repeat constructor; lia|]. vm_compute. split; discriminate. }
  split; [discriminate|]. split; [vm_compute; reflexivity|]. split; [vm_compute; reflexivity|].
  intros []; vm_compute; reflexivity.
Qed.

(** a non-trivial table *)
Definition ops_ok : list top :=
  [TGetHandle (str "a"); TGetHandle (str "bcd"); TSample 0 1500000000; TSample 0 2500000000; TSample 1 20000000; TGetHandle (str "z")].
Example ops_ok_tame : valid ops_ok /\ tame ops_ok /\ an_order ops_ok [str "z"; str "a"; str "bcd"].
Proof.
  split.
  { intros pre h ns post E. unfold ops_ok in E.
    destruct pre as [|o0 [|o1 [|o2 [|o3 [|o4 [|o5 pre]]]]]]; cbn in E; try discriminate; injection E; intros; subst; try (vm_compute; lia); try discriminate.
    now destruct pre. }
  split.
  { intros t l (h & E & ->). destruct h as [|[|[|h]]]; [| | |destruct h; discriminate E]; (split; [split; [repeat constructor; lia|vm_compute; split; discriminate]|]).
    - right. right. change (durations ops_ok 0) with [1500000000; 2500000000]%Z. unfold variance, mean_sq, mean, total, secs. cbn.
      rewrite u53_val || idtac. change (/ 9007199254740992) with (/ 9007199254740992). lra.
    - right. left. reflexivity.
    - left. reflexivity. }
  split.
  - repeat constructor; cbn; intuition discriminate.
  - intros t. cbn. split.
    + intros [<-|[<-|[<-|[]]]]; tauto.
    + intros [H|[H|[H|[H|[H|[H|[]]]]]]]; try discriminate; injection H as <-; tauto.
Qed.
Example table_ok : print_sorted (trun ops_ok) BY_TOTAL [str "bcd"; str "a"; str "z"] = Some (
  str "SM Timing" ++ NL ++ str "-----------" ++ NL ++
  str "z  " ++ TAB ++ str "      0" ++ TAB ++ NL ++
  str "a  " ++ TAB ++ str "      2" ++ TAB ++ str "00:00:04.000000" ++ TAB ++ str "(00:00:02.000000 +- 00:00:00.500000)" ++ TAB ++
    str "[00:00:01.500000,00:00:02.500000]" ++ NL ++
  str "bcd" ++ TAB ++ str "      1" ++ TAB ++ str "00:00:00.020000" ++ TAB ++ str "(00:00:00.020000 +- 00:00:00.000000)" ++ TAB ++
    str "[00:00:00.020000,00:00:00.020000]" ++ NL).
Proof. vm_compute. reflexivity. Qed.
Print Assumptions timing_table_sorted_partial.
