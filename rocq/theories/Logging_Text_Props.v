(** C61-C64: once / throttle, stream names, level names, formatter. *)
From Verif Require Import Float64.
From Verif Require Import Logging_Model Logging_Spec Strings_Model PTree_Model ValueStore_Proofs Logging_Filter_Props.
From Flocq Require Import Relative Plus_error.
Open Scope nat_scope.

(** ** C61 *)
(** a once-statement prints exactly at its first enabled execution *)
Theorem once_first h i : nth_error (once_run false h) i = Some true <-> nth_error h i = Some true /\ forall j, j < i -> nth_error h j = Some false.
Proof.
  assert (N : forall h i, nth_error (once_run true h) i <> Some true).
  { clear. induction h as [|b h IH]; intros [|i]; cbn [once_run nth_error]; try discriminate; unfold once_step; rewrite andb_false_r; cbn; [discriminate|apply IH]. }
  revert i. induction h as [|b h IH]; intros [|i]; cbn [once_run nth_error]; try (split; [discriminate|intros [X _]; discriminate]).
  - unfold once_step. destruct b; cbn; (split; [intros H; split; [congruence|intros; lia]|intros [H _]; congruence]).
  - unfold once_step. destruct b; cbn.
    + split; [intros H; destruct (N _ _ H)|]. intros [_ H]. specialize (H 0 ltac:(lia)). discriminate.
    + rewrite IH. split; intros [H1 H2]; (split; [exact H1|]).
      * intros [|j] L; [auto|]. cbn. apply H2. lia.
      * intros j L. apply (H2 (S j)). lia.
Qed.
Theorem once_at_most_once h i j : nth_error (once_run false h) i = Some true -> nth_error (once_run false h) j = Some true -> i = j.
Proof.
  rewrite !once_first. intros [A1 A2] [B1 B2]. destruct (Nat.lt_trichotomy i j) as [L|[L|L]]; auto; [specialize (B2 i L)|specialize (A2 j L)]; congruence.
Qed.

(** the time of the last message among the first executions, 0 if there was none: read off the outputs *)
Fixpoint last_message (h : list (bool * f64)) (out : list bool) (t0 : f64) : f64 :=
  match h, out with (_, now) :: h', e :: out' => last_message h' out' (if e then now else t0) | _, _ => t0 end.
Lemma throttle_decides rate h : forall t0 i b now, nth_error h i = Some (b, now) ->
  nth_error (throttle_run t0 rate h) i = Some (b && fleb (fadd (last_message (firstn i h) (firstn i (throttle_run t0 rate h)) t0) rate) now).
Proof.
  induction h as [|[b0 n0] h IH]; intros t0 [|i] b now E; try discriminate; cbn [nth_error] in E.
  - injection E as -> ->. cbn [throttle_run]. unfold throttle_step. destruct (b && fleb (fadd t0 rate) now) eqn:Q; cbn; rewrite Q; auto.
  - cbn [throttle_run]. destruct (throttle_step t0 b0 rate n0) as [l e] eqn:Q. cbn [nth_error firstn last_message]. rewrite (IH l i b now E). f_equal. f_equal. f_equal. f_equal. f_equal.
    unfold throttle_step in Q. destruct (b0 && _); injection Q as <- <-; auto.
Qed.
Lemma fadd_cases x y : is_finite x = true -> is_finite y = true ->
  (Rlt (Rabs (rnd (B2R x + B2R y)%R)) OMEGA /\ is_finite (fadd x y) = true /\ B2R (fadd x y) = rnd (B2R x + B2R y)%R) \/
  ((OMEGA <= Rabs (rnd (B2R x + B2R y)))%R /\ fadd x y = B754_infinity (Bsign x) /\ Bsign x = Bsign y).
Proof.
  intros Fx Fy. pose proof (Bplus_correct 53 1024 _ _ mode_NE x y Fx Fy) as H. cbn [round_mode] in H. fold (fadd x y) in H.
  destruct (Rlt_bool_spec (Rabs (rnd (B2R x + B2R y)%R)) OMEGA) as [L|L].
  - left. destruct H as (A & B & _). auto.
  - right. destruct H as (A & B). split; [exact L|]. split; [|exact B]. unfold binary_overflow in A. cbn in A. destruct (fadd x y); cbn in A; try discriminate. congruence.
Qed.
(** the test, on finite doubles with a positive period: the correctly rounded sum is at most now *)
Lemma throttle_test last rate now : is_finite last = true -> is_finite rate = true -> is_finite now = true -> (0 <= B2R rate)%R ->
  (fleb (fadd last rate) now = true <-> (rnd (B2R last + B2R rate) <= B2R now)%R).
Proof.
  intros FL FR FN P. destruct (fadd_cases last rate FL FR) as [(L & F & E)|(L & E & SG)].
  - rewrite (fleb_ext _ _ (is_nan_finite _ F) (is_nan_finite _ FN)), !ext_finite, E by auto. reflexivity.
  - pose proof (ext_finite_lt now FN) as BN. rewrite ext_finite in BN by auto. rewrite E.
    assert (NL : is_nan (B754_infinity (Bsign last) : f64) = false) by reflexivity. rewrite (fleb_ext _ _ NL (is_nan_finite _ FN)). cbn [ext]. rewrite (ext_finite now FN).
    assert (PS : Bsign last = false \/ (Bsign rate = true /\ B2R rate = 0%R)).
    { destruct (Bsign last) eqn:Q; auto. right. split; [congruence|]. symmetry in SG. destruct rate as [s|s| |s m e p]; try discriminate; auto. cbn [Bsign] in SG. subst s.
      exfalso. cbn [B2R] in P. assert ((F2R (Float radix2 (cond_Zopp true (Zpos m)) e) < 0)%R) by (apply F2R_lt_0; reflexivity). lra. }
    destruct PS as [PS|[_ Z]].
    + rewrite PS. assert ((0 <= rnd (B2R last + B2R rate))%R).
      { rewrite <- (round_0 radix2 fexp64 ZnearestE). apply round_le; [apply (fexp_correct 53 1024 _)|apply valid_rnd_N|].
        assert ((0 <= B2R last)%R). { destruct last as [s|s| |s m e p]; try discriminate; cbn [B2R]; [lra|]. cbn [Bsign] in PS. subst s. apply F2R_ge_0. discriminate. } lra. }
      rewrite Rabs_pos_eq in L by auto. split; intros; lra.
    + exfalso. rewrite Z, Rplus_0_r in L. rewrite (round_generic radix2 fexp64 ZnearestE (B2R last) (generic_format_B2R 53 1024 last)) in L. pose proof (abs_B2R_lt_emax 53 1024 last). lra.
Qed.
(** a history of finite times and a nonnegative period *)
Definition sane (rate : f64) (h : list (bool * f64)) : Prop := is_finite rate = true /\ (0 <= B2R rate)%R /\ Forall (fun e => is_finite (snd e) = true) h.
Lemma last_finite (h : list (bool * f64)) : Forall (fun e => is_finite (snd e) = true) h -> forall out t0, is_finite t0 = true -> is_finite (last_message h out t0) = true.
Proof. clear. induction 1 as [|[b n] h E F IH]; intros [|e out] t0 T; auto. cbn [last_message]. apply IH. destruct e; auto. Qed.
Lemma throttle_rule rate h i b now : sane rate h -> nth_error h i = Some (b, now) ->
  let last := last_message (firstn i h) (firstn i (throttle_run fzero rate h)) fzero in
  nth_error (throttle_run fzero rate h) i = Some true <-> b = true /\ (rnd (B2R last + B2R rate) <= B2R now)%R.
Proof.
  intros (FR & PR & FH) E last. rewrite (throttle_decides rate h fzero i b now E).
  assert (FL : is_finite last = true).
  { apply last_finite; auto. apply Forall_forall. intros x IN. rewrite Forall_forall in FH. apply FH. rewrite <- (firstn_skipn i h). apply in_or_app. auto. }
  assert (FN : is_finite now = true). { rewrite Forall_forall in FH. apply (FH (b, now)). eapply nth_error_In; eauto. }
  fold last. rewrite <- (throttle_test last rate now FL FR FN PR). split; [intros H; injection H as H; apply andb_prop in H; auto|intros [-> ->]; auto].
Qed.
(** every enabled execution at least one period after the last message (after time 0 if there is none) prints *)
Theorem throttle_emits rate h i now : sane rate h -> nth_error h i = Some (true, now) ->
  (B2R (last_message (firstn i h) (firstn i (throttle_run fzero rate h)) fzero) + B2R rate <= B2R now)%R ->
  nth_error (throttle_run fzero rate h) i = Some true.
Proof.
  intros S E L. apply (throttle_rule rate h i true now S E). split; auto.
  rewrite <- (round_generic radix2 fexp64 ZnearestE (B2R now) (generic_format_B2R 53 1024 now)). apply round_le; [apply (fexp_correct 53 1024 _)|apply valid_rnd_N|exact L].
Qed.
(** a message is printed only when enabled and no earlier than one period after the last one -- up to one rounding of the addition *)
Theorem throttle_spacing_partial rate h i b now : sane rate h -> nth_error h i = Some (b, now) -> nth_error (throttle_run fzero rate h) i = Some true ->
  let next := (B2R (last_message (firstn i h) (firstn i (throttle_run fzero rate h)) fzero) + B2R rate)%R in
  b = true /\ (next - bpow radix2 (-53) * Rabs next <= B2R now)%R.
Proof.
  intros S E T. apply (throttle_rule rate h i b now S E) in T as [T1 T2]. cbn zeta. set (last := last_message _ _ _) in *. split; auto.
  destruct (FLT_plus_error_N_ex radix2 (-1074) 53 (fun x => negb (Z.even x)) (B2R last) (B2R rate) (generic_format_B2R 53 1024 last) (generic_format_B2R 53 1024 rate)) as (d & D1 & D2).
  change (round radix2 (FLT_exp (-1074) 53) (Znearest (fun x => negb (Z.even x))) (B2R last + B2R rate)) with (rnd (B2R last + B2R rate)) in D2. rewrite D2 in T2.
  set (x := (B2R last + B2R rate)%R) in *.
  assert (U : u_ro radix2 53 = bpow radix2 (-53)). { unfold u_ro. change (/ 2)%R with (bpow radix2 (-1)). rewrite <- bpow_plus. reflexivity. }
  rewrite U in D1. pose proof (bpow_gt_0 radix2 (-53)) as P.
  assert (D3 : (Rabs d <= bpow radix2 (-53))%R).
  { eapply Rle_trans; [exact D1|]. unfold Rdiv. apply Rle_trans with (bpow radix2 (-53) * 1)%R; [|lra]. apply Rmult_le_compat_l; [lra|]. rewrite <- Rinv_1. apply Rinv_le; lra. }
  assert (D4 : (- (bpow radix2 (-53) * Rabs x) <= x * d)%R).
  { assert ((Rabs (x * d) <= bpow radix2 (-53) * Rabs x)%R) by (rewrite Rabs_mult, Rmult_comm; apply Rmult_le_compat_r; [apply Rabs_pos|auto]).
    pose proof (Rle_abs (- (x * d))) as H1. rewrite Rabs_Ropp in H1. lra. }
  lra.
Qed.
Lemma fpos x : is_finite x = true -> fltb fzero x = true -> (0 < B2R x)%R.
Proof. intros F L. apply fltb_ext in L; auto; [|apply is_nan_finite; auto]. rewrite (ext_finite x F) in L. exact L. Qed.
(** Exactly one period apart is not guaranteed: the addition is rounded, so with a period far below the resolution of the clock
    reading two messages are printed at the same instant. *)
Theorem throttle_spacing_refuted : exists rate h t, (0 < B2R rate)%R /\ sane rate h /\ h = [(true, t); (true, t)] /\ throttle_run fzero rate h = [true; true].
Proof.
  exists (flit 1 (-60)), [(true, flit 1 0); (true, flit 1 0)], (flit 1 0).
  assert (FR : is_finite (flit 1 (-60)) = true) by (vm_compute; reflexivity). assert (PR : (0 < B2R (flit 1 (-60)))%R) by (apply fpos; [exact FR|vm_compute; reflexivity]).
  split; [lra|]. split; [|split; [reflexivity|vm_compute; reflexivity]]. split; [vm_compute; reflexivity|]. split; [lra|].
  assert (F1 : is_finite (flit 1 0) = true) by (vm_compute; reflexivity). constructor; [exact F1|]. constructor; [exact F1|]. constructor.
Qed.

(** ** C62 *)
Definition qualified (n : bytes) : Prop := n = str "sm" \/ exists x, n = str "sm." ++ x.
Lemma prefix_cases n : (exists x, n = str "sm." ++ x) \/ (bytes_eqb (firstn 3 n) (str "sm.") = false).
Proof.
  destruct (bytes_eqb (firstn 3 n) (str "sm.")) eqn:E; auto. left. apply bytes_eqb_eq in E. exists (skipn 3 n). rewrite <- E. symmetry. apply firstn_skipn.
Qed.
(** a qualified name is left alone, any other name gets the prefix *)
Theorem prefix_spec n : (qualified n -> addDefaultPrefixIfMissing n = n) /\ (~ qualified n -> addDefaultPrefixIfMissing n = str "sm." ++ n).
Proof.
  unfold addDefaultPrefixIfMissing. split.
  - intros [->|(x & ->)]; [reflexivity|]. replace (bytes_eqb (firstn 3 (str "sm." ++ x)) (str "sm.")) with true; [auto|]. symmetry. apply bytes_eqb_eq. reflexivity.
  - intros NQ. destruct (prefix_cases n) as [H|H]; [destruct NQ; right; auto|]. rewrite H. destruct (bytes_eqb n (str "sm")) eqn:E; auto. apply bytes_eqb_eq in E. destruct NQ. left. auto.
Qed.
Theorem prefix_qualified n : qualified (addDefaultPrefixIfMissing n).
Proof.
  unfold addDefaultPrefixIfMissing. destruct (prefix_cases n) as [(x & ->)|H].
  - replace (bytes_eqb (firstn 3 (str "sm." ++ x)) (str "sm.")) with true; [right; exists x; reflexivity|]. symmetry. apply bytes_eqb_eq. reflexivity.
  - rewrite H. destruct (bytes_eqb n (str "sm")) eqn:E; [apply bytes_eqb_eq in E; left; auto|]. right. exists n. reflexivity.
Qed.
Theorem prefix_idempotent n : addDefaultPrefixIfMissing (addDefaultPrefixIfMissing n) = addDefaultPrefixIfMissing n.
Proof. apply prefix_spec. apply prefix_qualified. Qed.
(** x and sm.x name the same stream exactly if x is not qualified itself *)
Theorem prefix_identifies x : addDefaultPrefixIfMissing x = addDefaultPrefixIfMissing (str "sm." ++ x) <-> ~ qualified x.
Proof.
  rewrite (proj1 (prefix_spec (str "sm." ++ x))) by (right; eauto). split.
  - intros E Q. rewrite (proj1 (prefix_spec x) Q) in E. apply (f_equal (@length _)) in E. rewrite app_length in E. cbn in E. lia.
  - apply prefix_spec.
Qed.

(** ** C63 *)
Definition eq_nocase (a b : bytes) : Prop := Forall2 (fun x y => to_lower x = to_lower y) a b.
Definition level_names : list bytes :=
  [str "ALL"; str "FINEST"; str "VERBOSE"; str "FINER"; str "TRACE"; str "FINE"; str "DEBUG"; str "INFO"; str "WARN"; str "ERROR"; str "FATAL"].
Lemma nocase_map a b : eq_nocase a b <-> map lower a = map to_lower b.
Proof.
  split.
  - induction 1; cbn; auto. f_equal; auto.
  - revert b. induction a as [|x a IH]; intros [|y b] H; try discriminate; constructor; injection H as H1 H2; auto. apply IH. auto.
Qed.
Theorem fromString_names l name s : nth_error level_names l = Some name -> eq_nocase s name -> fromString s = l.
Proof.
  intros N E. apply nocase_map in E. unfold fromString. rewrite E.
  do 11 (destruct l as [|l]; [injection N as <-; reflexivity|]). destruct l; discriminate.
Qed.
Theorem fromString_unknown s : (forall name, In name level_names -> ~ eq_nocase s name) -> fromString s = Info.
Proof.
  intros H. assert (K : forall name, In name level_names -> bytes_eqb (map lower s) (map to_lower name) = false).
  { intros name IN. destruct (bytes_eqb _ _) eqn:E; auto. apply bytes_eqb_eq in E. apply nocase_map in E. destruct (H _ IN E). }
  unfold fromString. pose proof (K (str "ALL") ltac:(cbn; tauto)) as K0. pose proof (K (str "FINEST") ltac:(cbn; tauto)) as K1. pose proof (K (str "VERBOSE") ltac:(cbn; tauto)) as K2.
  pose proof (K (str "FINER") ltac:(cbn; tauto)) as K3. pose proof (K (str "TRACE") ltac:(cbn; tauto)) as K4. pose proof (K (str "FINE") ltac:(cbn; tauto)) as K5.
  pose proof (K (str "DEBUG") ltac:(cbn; tauto)) as K6. pose proof (K (str "INFO") ltac:(cbn; tauto)) as K7. pose proof (K (str "WARN") ltac:(cbn; tauto)) as K8.
  pose proof (K (str "ERROR") ltac:(cbn; tauto)) as K9. pose proof (K (str "FATAL") ltac:(cbn; tauto)) as K10.
  change (map to_lower (str "ALL")) with (str "all") in K0. change (map to_lower (str "FINEST")) with (str "finest") in K1. change (map to_lower (str "VERBOSE")) with (str "verbose") in K2.
  change (map to_lower (str "FINER")) with (str "finer") in K3. change (map to_lower (str "TRACE")) with (str "trace") in K4. change (map to_lower (str "FINE")) with (str "fine") in K5.
  change (map to_lower (str "DEBUG")) with (str "debug") in K6. change (map to_lower (str "INFO")) with (str "info") in K7. change (map to_lower (str "WARN")) with (str "warn") in K8.
  change (map to_lower (str "ERROR")) with (str "error") in K9. change (map to_lower (str "FATAL")) with (str "fatal") in K10.
  rewrite K0, K1, K2, K3, K4, K5, K6, K7, K8, K9, K10. reflexivity.
Qed.

(** ** C64 *)
Lemma letter_alpha c : is_letter c = is_alpha c. Proof. reflexivity. Qed.
Lemma letters_app n d r : Forall (fun c => is_alpha c = true) n -> is_alpha d = false -> letters (n ++ d :: r) = (n, d :: r).
Proof.
  intros F D. induction F as [|c n E F IH]; cbn [app letters].
  - rewrite letter_alpha, D. auto.
  - rewrite letter_alpha, E, IH. auto.
Qed.
Lemma letters_sound s : forall a b, letters s = (a, b) -> s = a ++ b /\ Forall (fun c => is_alpha c = true) a.
Proof.
  induction s as [|c s IH]; intros a b E; cbn [letters] in E; [injection E as <- <-; auto|].
  rewrite letter_alpha in E. destruct (is_alpha c) eqn:C; [|injection E as <- <-; auto]. destruct (letters s) as [a' b']. injection E as <- <-. destruct (IH a' b' eq_refl) as [-> F]. split; auto.
Qed.
Lemma match_here_iff s n r : match_here s = Some (n, r) <-> letters_only n /\ s = token_text n ++ r.
Proof.
  split.
  - destruct s as [|d [|b s]]; try discriminate. cbn [match_here]. destruct (N.eqb d 36) eqn:D; [|discriminate]. destruct (N.eqb b 123) eqn:B; [|discriminate]. cbn [andb].
    destruct (letters s) as [m t] eqn:E. destruct m as [|x m]; [discriminate|]. destruct t as [|e t]; [discriminate|]. destruct (N.eqb e 125) eqn:Q; [|discriminate]. intros H. injection H as <- <-.
    apply letters_sound in E as [-> F]. apply N.eqb_eq in D, B, Q. subst. split; [split; [discriminate|auto]|]. unfold token_text. cbn [str app]. rewrite <- app_assoc. reflexivity.
  - intros [[NE F] ->]. unfold token_text. cbn [str app]. cbn [match_here]. rewrite <- app_assoc. cbn [app]. change (N_of_ascii "$"%char =? 36)%N with true. change (N_of_ascii "{"%char =? 123)%N with true.
    cbn [andb]. rewrite letters_app by auto. destruct n as [|x n]; [congruence|]. reflexivity.
Qed.
Lemma no_dollar_inside n i : letters_only n -> 1 <= i < length (token_text n) -> nth_error (token_text n) i <> Some 36%N.
Proof.
  intros [NE F] [L1 L2] E. unfold token_text in *. cbn [str app] in *. destruct i as [|[|i]]; [lia|discriminate|]. cbn [nth_error length] in *.
  destruct (Nat.lt_ge_cases i (length n)) as [L|L].
  - rewrite nth_error_app1 in E by auto. apply nth_error_In in E. rewrite Forall_forall in F. apply F in E. discriminate.
  - rewrite nth_error_app2 in E by auto. rewrite app_length in L2. cbn in L2. replace (i - length n) with 0 in E by lia. discriminate.
Qed.
Lemma token_cons n : exists r, token_text n = 36%N :: r. Proof. eexists. reflexivity. Qed.
Lemma search_hit p : forall n r, ~ has_token p -> letters_only n -> search (p ++ token_text n ++ r) = Some (p, n, r).
Proof.
  induction p as [|c p IH]; intros n r NT LN.
  - cbn [app]. destruct (token_cons n) as (q & Q). pose proof (proj2 (match_here_iff (token_text n ++ r) n r) (conj LN eq_refl)) as M. rewrite Q in *. cbn [app] in *. cbn [search]. rewrite M. auto.
  - cbn [app search]. destruct (match_here (c :: p ++ token_text n ++ r)) as [[m t]|] eqn:M.
    + exfalso. apply match_here_iff in M as [LM E]. change (c :: p ++ token_text n ++ r) with ((c :: p) ++ token_text n ++ r) in E.
      destruct (Nat.le_gt_cases (length (token_text m)) (length (c :: p))) as [L|L].
      * apply NT. exists [], m, (skipn (length (token_text m)) (c :: p)). split; auto. cbn [app]. rewrite <- (firstn_skipn (length (token_text m)) (c :: p)) at 1. f_equal.
        apply (f_equal (firstn (length (token_text m)))) in E. rewrite firstn_app in E. replace (length (token_text m) - length (c :: p)) with 0 in E by lia. cbn [firstn] in E. rewrite app_nil_r in E.
        rewrite E, firstn_app, Nat.sub_diag, firstn_all. cbn [firstn]. apply app_nil_r.
      * apply (f_equal (fun l => nth_error l (length (c :: p)))) in E. rewrite nth_error_app2 in E by auto. rewrite Nat.sub_diag in E. destruct (token_cons n) as (q & Q). rewrite Q in E. cbn [app nth_error] in E.
        rewrite nth_error_app1 in E by auto. symmetry in E. revert E. apply no_dollar_inside; auto. cbn [length] in *. lia.
    + rewrite IH; auto. intros (a & m & b & LM & E). apply NT. exists (c :: a), m, b. split; auto. rewrite E. reflexivity.
Qed.
Lemma search_sound s : forall p n r, search s = Some (p, n, r) -> s = p ++ token_text n ++ r /\ letters_only n.
Proof.
  induction s as [|c s IH]; intros p n r E; [discriminate|]. cbn [search] in E. destruct (match_here (c :: s)) as [[m t]|] eqn:M.
  - injection E as <- <- <-. apply match_here_iff in M as [A B]. auto.
  - destruct (search s) as [[[p' n'] t']|]; [|discriminate]. injection E as <- <- <-. destruct (IH _ _ _ eq_refl) as [-> L]. auto.
Qed.
Lemma search_complete s : search s = None -> ~ has_token s.
Proof.
  induction s as [|c s IH]; intros E (a & n & b & LN & Q).
  - destruct (token_cons n) as (q & R). rewrite R in Q. destruct a; discriminate.
  - cbn [search] in E. destruct (match_here (c :: s)) as [[m t]|] eqn:M; [discriminate|]. destruct (search s) as [[[p' n'] t']|] eqn:SS; [discriminate|].
    destruct a as [|x a].
    + cbn [app] in Q. rewrite (proj2 (match_here_iff (c :: s) n b) (conj LN Q)) in M. discriminate.
    + injection Q as <- Q. apply IH; auto. exists a, n, b. auto.
Qed.
Lemma search_first s : forall p n r, search s = Some (p, n, r) -> ~ has_token p.
Proof.
  induction s as [|c s IH]; intros p n r E; [discriminate|]. cbn [search] in E. destruct (match_here (c :: s)) as [[m t]|] eqn:M.
  - injection E as <- <- <-. intros (a & k & b & _ & Q). destruct (token_cons k) as (q & R). rewrite R in Q. destruct a; discriminate.
  - destruct (search s) as [[[p' n'] t']|] eqn:SS; [|discriminate]. injection E as <- <- <-. intros (a & k & b & LK & Q). destruct a as [|x a].
    + destruct (search_sound _ _ _ _ SS) as [ES _]. cbn [app] in Q. assert (X : match_here (c :: s) = Some (k, b ++ token_text n' ++ t')).
      { apply match_here_iff. split; auto. rewrite ES. change (c :: p' ++ token_text n' ++ t') with ((c :: p') ++ token_text n' ++ t'). rewrite Q, <- app_assoc. auto. }
      congruence.
    + injection Q as <- Q. eapply IH; [reflexivity|]. exists a, k, b. auto.
Qed.
(** every format is literal pieces and tokens *)
Theorem format_exists s : exists p l, format_ok p l /\ s = format_text p l.
Proof.
  remember (length s) as k eqn:K. revert s K. induction k as [k IH] using lt_wf_ind. intros s K. destruct (search s) as [[[p n] r]|] eqn:E.
  - destruct (search_sound _ _ _ _ E) as [ES LN]. pose proof (search_first _ _ _ _ E) as NT.
    destruct (IH (length r)) with (s := r) as (q & l & OK & ER); auto. { subst. rewrite !app_length. destruct (token_cons n) as (z & ->). cbn. lia. }
    exists p, ((n, q) :: l). split; [cbn; auto|]. cbn [format_text]. rewrite <- ER. auto.
  - exists s, []. split; [split; auto; apply search_complete; auto|auto].
Qed.
Fixpoint tokens_spec (p : bytes) (l : list (bytes * bytes)) : list Logging_Model.token :=
  match l with [] => [Fixed p] | (n, q) :: r => Fixed p :: Typed n :: tokens_spec q r end.
Lemma search_none p : ~ has_token p -> search p = None.
Proof. intros NT. destruct (search p) as [[[a n] b]|] eqn:E; auto. destruct NT. destruct (search_sound _ _ _ _ E) as [-> L]. exists a, n, b. auto. Qed.
Lemma tokens_ok l : forall fuel p, format_ok p l -> length l <= fuel -> tokens_of fuel (format_text p l) = tokens_spec p l.
Proof.
  induction l as [|[n q] l IH]; intros fuel p OK L; cbn [format_ok format_text tokens_spec length] in *.
  - destruct fuel; cbn [tokens_of]; auto. rewrite search_none by tauto. auto.
  - destruct fuel as [|fuel]; [lia|]. cbn [tokens_of]. destruct OK as (NT & LN & OK). rewrite search_hit by auto. rewrite IH by (auto; lia). auto.
Qed.
Lemma format_length l : forall p, length l <= length (format_text p l).
Proof. induction l as [|[n q] l IH]; intros p; cbn [format_text length]; [lia|]. rewrite !app_length. specialize (IH q). destruct (token_cons n) as (z & ->). cbn. lia. Qed.
Definition plain (e : event) (extra : list (bytes * bytes)) : Prop :=
  ~ In 0%N (emessage e) /\ ~ In 0%N (efile e) /\ ~ In 0%N (efunction e) /\ ~ In 0%N (estream e) /\ Forall (fun kv => ~ In 0%N (snd kv)) extra.
Lemma severity_text l : severity l = level_text l.
Proof. do 11 (destruct l as [|l]; [reflexivity|]). destruct l; reflexivity. Qed.
Lemma known_false n : known n = false -> bytes_eqb n (str "severity") = false /\ bytes_eqb n (str "message") = false /\ bytes_eqb n (str "time") = false /\ bytes_eqb n (str "thread") = false /\
  bytes_eqb n (str "file") = false /\ bytes_eqb n (str "line") = false /\ bytes_eqb n (str "function") = false /\ bytes_eqb n (str "streamname") = false.
Proof. unfold known. cbn [existsb]. rewrite !orb_false_iff. tauto. Qed.
Lemma letters_nonul n : letters_only n -> ~ In 0%N n.
Proof. intros [_ F] IN. rewrite Forall_forall in F. apply F in IN. discriminate. Qed.
Lemma token_nonul n : letters_only n -> ~ In 0%N (token_text n).
Proof. intros L IN. apply letters_nonul in L. unfold token_text in IN. cbn [str app] in IN. destruct IN as [IN|[IN|IN]]; try discriminate. apply in_app_or in IN as [IN|[IN|[]]]; [auto|discriminate]. Qed.
Lemma render_shows extra e n v : plain e extra -> letters_only n -> shows extra e n v -> render extra e (Typed n) = v.
Proof.
  intros (P1 & P2 & P3 & P4 & P5) LN [[-> ->]|[[-> ->]|[[-> ->]|[[-> ->]|[[-> ->]|[[-> ->]|[[-> ->]|[[-> ->]|[[K (a & b & -> & H)]|[K [H ->]]]]]]]]]]].
  - apply severity_text.
  - apply c_str_id. auto.
  - reflexivity.
  - reflexivity.
  - apply c_str_id. auto.
  - reflexivity.
  - apply c_str_id. auto.
  - apply c_str_id. auto.
  - apply known_false in K as (K1 & K2 & K3 & K4 & K5 & K6 & K7 & K8). cbn [render]. rewrite K1, K2, K3, K4, K5, K6, K7, K8.
    assert (A : assoc n (a ++ (n, v) :: b) = Some v).
    { unfold assoc. clear P5. induction a as [|[k w] a IH]; cbn [app List.find fst]; [rewrite bytes_eqb_refl; auto|]. destruct (bytes_eqb k n) eqn:Q; [apply bytes_eqb_eq in Q; destruct (H k w (or_introl eq_refl) Q)|].
      apply IH. intros k' w' IN. apply (H k' w'). right. auto. }
    rewrite A. apply c_str_id. rewrite Forall_forall in P5. apply (P5 (n, v)). apply in_or_app. right. left. auto.
  - apply known_false in K as (K1 & K2 & K3 & K4 & K5 & K6 & K7 & K8). cbn [render]. rewrite K1, K2, K3, K4, K5, K6, K7, K8.
    assert (A : assoc n extra = None).
    { unfold assoc. clear P5. induction extra as [|[k w] a IH]; cbn [List.find fst]; auto. destruct (bytes_eqb k n) eqn:Q; [apply bytes_eqb_eq in Q; destruct (H k w (or_introl eq_refl) Q)|].
      apply IH. intros k' w' IN. apply (H k' w'). right. auto. }
    rewrite A. apply c_str_id. apply token_nonul. auto.
Qed.
Lemma color_ok l : color l = 27%N :: color_code l.
Proof. do 11 (destruct l as [|l]; [reflexivity|]). destruct l; reflexivity. Qed.
(** the formatter prints literal text unchanged and each token's value *)
Theorem formatter_correct extra e p l out doColor : format_ok p l -> ~ In 0%N (format_text p l) -> plain e extra -> formatted extra e p l out ->
  formatter_print doColor extra (formatter_init (format_text p l)) e =
  (if doColor then 27%N :: color_code (elevel e) else []) ++ out ++ (if doColor then 27%N :: str "[0m" else []) ++ [10%N].
Proof.
  intros OK NN PL F. unfold formatter_print, formatter_init. rewrite c_str_id by auto. rewrite tokens_ok by (auto; apply format_length). rewrite color_ok. f_equal. f_equal.
  clear doColor. induction F as [p|p n q r v out SH F IH].
  - cbn [tokens_spec flat_map render]. rewrite c_str_id by auto. apply app_nil_r.
  - cbn [format_ok format_text] in *. destruct OK as (NT & LN & OK). cbn [tokens_spec flat_map]. rewrite (render_shows extra e n v PL LN SH). f_equal; [|f_equal].
    + cbn [render]. apply c_str_id. intros IN. apply NN. apply in_or_app. auto.
    + apply IH; auto. intros IN. apply NN. apply in_or_app. right. apply in_or_app. auto.
Qed.
(** every token shows something, and only one thing *)
Theorem formatter_total extra e p l : exists out, formatted extra e p l out.
Proof.
  revert p. induction l as [|[n q] l IH]; intros p; [eexists; constructor|]. destruct (IH q) as (out & F).
  assert (S : exists v, shows extra e n v).
  { unfold shows. destruct (known n) eqn:K.
    - unfold known in K. apply existsb_exists in K as (x & IN & E). apply bytes_eqb_eq in E. subst x. cbn [In] in IN.
      repeat (destruct IN as [<-|IN]; [eexists; tauto|]). destruct IN.
    - assert (D : (exists v a b, extra = a ++ (n, v) :: b /\ forall k w, In (k, w) a -> k <> n) \/ (forall k w, In (k, w) extra -> k <> n)).
      { clear. induction extra as [|[k w] a IH]; [right; intros ? ? []|]. destruct (bytes_eqb k n) eqn:Q.
        - apply bytes_eqb_eq in Q. subst. left. exists w, [], a. split; auto.
        - assert (k <> n) by (intros ->; rewrite bytes_eqb_refl in Q; discriminate). destruct IH as [(v & x & y & -> & H')|H'].
          + left. exists v, ((k, w) :: x), y. split; auto. intros k' w' [E|IN]; [congruence|eauto].
          + right. intros k' w' [E|IN]; [congruence|eauto]. }
      destruct D as [(v & a & b & D)|D]; [exists v|exists (token_text n)]; [do 8 right; left; split; auto; exists a, b; auto|do 9 right; auto]. }
  destruct S as (v & S). eexists. econstructor; eauto.
Qed.

(** Non-vacuity *)
Example ex_format : formatter_print false [] (formatter_init (str "[${severity}] ${foo}: ${message}$")) (mkE (str "sm") 8 (str "f.cpp") 3 (str "g") (str "hi") (str "0") (str "1")) =
  str "[ WARN] ${foo}: hi$" ++ [10%N].
Proof. vm_compute. reflexivity. Qed.
Example ex_throttle : sane (flit 1 0) [(true, flit 3 0); (true, flit 7 (-1)); (true, flit 4 0)] /\ throttle_run fzero (flit 1 0) [(true, flit 3 0); (true, flit 7 (-1)); (true, flit 4 0)] = [true; false; true].
Proof.
  split; [|vm_compute; reflexivity]. assert (FR : is_finite (flit 1 0) = true) by (vm_compute; reflexivity).
  split; [exact FR|]. split; [apply Rlt_le, fpos; [exact FR|vm_compute; reflexivity]|].
  repeat (constructor; [cbn [snd]; vm_compute; reflexivity|]). constructor.
Qed.
Example ex_once : once_run false [false; true; true; false; true] = [false; true; false; false; false]. Proof. reflexivity. Qed.
Example ex_names : fromString (str "wArN") = 8 /\ fromString (str "loud") = 7. Proof. split; vm_compute; reflexivity. Qed.
Example ex_prefix : addDefaultPrefixIfMissing (str "sm.a") = str "sm.a" /\ addDefaultPrefixIfMissing (str "smart") = str "sm.smart". Proof. split; vm_compute; reflexivity. Qed.
Print Assumptions once_first.
Print Assumptions once_at_most_once.
Print Assumptions throttle_emits.
Print Assumptions throttle_spacing_partial.
Print Assumptions throttle_spacing_refuted.
Print Assumptions prefix_spec.
Print Assumptions prefix_qualified.
Print Assumptions prefix_idempotent.
Print Assumptions prefix_identifies.
Print Assumptions fromString_names.
Print Assumptions fromString_unknown.
Print Assumptions format_exists.
Print Assumptions formatter_correct.
Print Assumptions formatter_total.
