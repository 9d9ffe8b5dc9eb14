(** C109: doubles survive the text form of a property tree. *)
From Coq Require Import Reals Lra Qreals.
From Flocq Require Import Core.
From Verif Require Import Float64 Timer_Model TimeString_Props PTree_Model PTree_Spec PTree_Proofs PTree_Typed_Props PTree_Props Strings_Model.
From Verif Require Import DoubleText_Model DoubleText_Proofs.
Import ListNotations.
Open Scope R_scope.

(** ** Specification: the text of a decimal number *)
Definition sign_text (s : bytes) (neg : bool) : Prop :=
  (s = [] \/ s = str "+") /\ neg = false \/ s = str "-" /\ neg = true.
(** digits, with or without a point among them *)
Definition mantissa_text (s ip fp : bytes) : Prop :=
  Forall digit ip /\ Forall digit fp /\ ip ++ fp <> [] /\ (s = ip /\ fp = [] \/ s = ip ++ str "." ++ fp).
Definition exponent_text (s : bytes) (x : Z) : Prop :=
  s = [] /\ x = 0%Z \/
  exists c sg es neg, s = c :: sg ++ es /\ (c = 101%N \/ c = 69%N) /\ sign_text sg neg /\ Forall digit es /\ es <> [] /\
                      x = (if neg then - value es else value es)%Z.
(** [s] is the number with the sign [neg] and the size m * 10^e, between blanks *)
Definition double_text (s : bytes) (neg : bool) (m e : Z) : Prop :=
  exists w1 sg mt ip fp ex x w2, s = w1 ++ sg ++ mt ++ ex ++ w2 /\ blanks w1 /\ blanks w2 /\
    sign_text sg neg /\ mantissa_text mt ip fp /\ exponent_text ex x /\
    m = value (ip ++ fp) /\ e = (x - Z.of_nat (length fp))%Z.
(** The real number written: (-1)^neg * m * 10^e is [decimal neg m e] (DoubleText_Proofs). *)

(** ** lexing *)
Definition nodigit (s : bytes) : Prop := match s with c :: _ => is_digit c = false | [] => True end.
Lemma span_app ds r : Forall digit ds -> nodigit r -> span_digits (ds ++ r) = (ds, r).
Proof.
  intros F N. induction F as [|c ds D F IH]; cbn [app span_digits].
  - destruct r as [|c r]; auto. cbn [span_digits]. unfold nodigit in N. rewrite N. auto.
  - rewrite (proj2 (digit_spec c)) by auto. rewrite IH. auto.
Qed.
Lemma span_split s : exists ds r, s = ds ++ r /\ Forall digit ds /\ nodigit r /\ span_digits s = (ds, r).
Proof.
  destruct (take_digits_split s) as (ds & r & -> & F & N). exists ds, r. repeat split; auto. apply span_app; auto.
Qed.
Lemma number_value ds : number ds = value ds. Proof. reflexivity. Qed.
Lemma value_nonneg ds : Forall digit ds -> (0 <= value ds)%Z.
Proof.
  induction ds using rev_ind; intros F; [cbn; lia|]. apply Forall_app in F as [F1 F2]. rewrite value_app. cbn [length]. specialize (IHds F1).
  change (10 ^ Z.of_nat 1)%Z with 10%Z. inversion F2 as [|? ? D _]; subst. unfold digit in D. unfold value at 2. cbn [fold_left]. lia.
Qed.
Lemma digit_nospace c : digit c -> is_space c = false.
Proof. intros D. destruct (is_space c) eqn:E; auto. apply space_spec in E. unfold digit in D. lia. Qed.

(** what follows a sign: neither a sign nor a blank *)
Definition plain_head (s : bytes) : Prop := match s with c :: _ => c <> 45%N /\ c <> 43%N /\ is_space c = false | [] => False end.
Lemma take_sign_text sg neg s : sign_text sg neg -> plain_head s -> take_sign (sg ++ s) = (neg, s) /\ skip_ws (sg ++ s) = sg ++ s.
Proof.
  intros H P. destruct H as [[[->| ->] ->]|[-> ->]].
  - cbn [app]. destruct s as [|c s]; [easy|]. destruct P as (P1 & P2 & P3). cbn [take_sign skip_ws]. rewrite P3.
    destruct (N.eqb_spec c 45); [easy|]. destruct (N.eqb_spec c 43); [easy|]. auto.
  - split; reflexivity.
  - split; reflexivity.
Qed.
Lemma mantissa_head mt ip fp r : mantissa_text mt ip fp -> plain_head (mt ++ r).
Proof.
  intros (F1 & F2 & N & E). destruct E as [[-> ->]| ->].
  - rewrite app_nil_r in N. destruct ip as [|c ip]; [congruence|]. inversion F1 as [|? ? D _]; subst. cbn [app plain_head].
    pose proof (digit_nospace c D). unfold digit in D. repeat split; auto; lia.
  - destruct ip as [|c ip]; [repeat split; try discriminate; reflexivity|]. inversion F1 as [|? ? D _]; subst. cbn [app plain_head].
    pose proof (digit_nospace c D). unfold digit in D. repeat split; auto; lia.
Qed.
Lemma es_head es r : Forall digit es -> es <> [] -> plain_head (es ++ r).
Proof.
  destruct es as [|c es]; [congruence|]. intros F _. inversion F as [|? ? D _]; subst. cbn [app plain_head].
  pose proof (digit_nospace c D). unfold digit in D. repeat split; auto; lia.
Qed.
Definition noexp (s : bytes) : Prop := match s with c :: _ => c <> 101%N /\ c <> 69%N /\ c <> 46%N | [] => True end.
Lemma blanks_noexp w : blanks w -> nodigit w /\ noexp w.
Proof.
  intros B. destruct w as [|c w]; [cbn; auto|]. inversion B as [|? ? H _]; subst. split.
  - apply (blanks_nodigit (c :: w) B).
  - cbn. lia.
Qed.
(** the exponent and the end of the text *)
Definition exp_part (s3 : bytes) : option (Z * bytes) :=
  match s3 with
  | c :: r =>
      if (N.eqb c 101 || N.eqb c 69)%bool then
        let '(eneg, r1) := take_sign r in let '(es, r2) := span_digits r1 in
        match es with [] => None | _ => Some ((if eneg then - number es else number es)%Z, r2) end
      else Some (0%Z, s3)
  | [] => Some (0%Z, s3)
  end.
Lemma scan_unfold s neg s1 ip s2 fp s3 : take_sign (skip_ws s) = (neg, s1) -> span_digits s1 = (ip, s2) ->
  match s2 with c :: r => if N.eqb c 46 then span_digits r else ([], s2) | [] => ([], s2) end = (fp, s3) -> ip ++ fp <> [] ->
  scan_double s = match exp_part s3 with
                  | None => None
                  | Some (x, r) => Some (neg, number (ip ++ fp), (x - Z.of_nat (length fp))%Z, r)
                  end.
Proof.
  intros E1 E2 E3 N. unfold scan_double. rewrite E1, E2, E3. destruct (ip ++ fp) as [|n l] eqn:EM; [congruence|].
  assert (G : forall (a b : Z) (r : bytes), a = b -> Some (neg, number (n :: l), a, r) = Some (neg, number (n :: l), b, r)) by (intros; subst; auto).
  unfold exp_part. destruct s3 as [|c r]; [apply G; lia|]. destruct (N.eqb c 101 || N.eqb c 69)%bool; [|apply G; lia].
  destruct (take_sign r) as [en r1]. destruct (span_digits r1) as [es r2]. destruct es; auto. apply G. lia.
Qed.
Lemma exp_part_text ex x w : exponent_text ex x -> blanks w -> exp_part (ex ++ w) = Some (x, w) /\ nodigit (ex ++ w) /\
  match ex ++ w with c :: _ => c <> 46%N | [] => True end.
Proof.
  intros H B. destruct (blanks_noexp w B) as [D NE]. destruct H as [[-> ->]|(c & sg & es & neg & -> & C & SG & F & N & ->)].
  - cbn [app]. split; [|split]; auto.
    + unfold exp_part. destruct w as [|c w]; auto. cbn in NE. destruct (N.eqb_spec c 101); [easy|]. destruct (N.eqb_spec c 69); [easy|]. auto.
    + destruct w; auto. cbn in NE. easy.
  - rewrite <- app_comm_cons, <- app_assoc. split; [|split].
    + unfold exp_part. replace ((N.eqb c 101 || N.eqb c 69)%bool) with true by (destruct C; subst; reflexivity).
      destruct (take_sign_text sg neg (es ++ w) SG (es_head es w F N)) as [-> _]. rewrite span_app by auto.
      destruct es; [congruence|]. auto.
    + cbn. destruct C; subst; reflexivity.
    + destruct C; subst; discriminate.
Qed.
Lemma scan_text s neg m e : double_text s neg m e -> exists w, blanks w /\ scan_double s = Some (neg, m, e, w).
Proof.
  intros (w1 & sg & mt & ip & fp & ex & x & w2 & -> & B1 & B2 & SG & MT & EX & -> & ->). exists w2. split; auto.
  destruct (exp_part_text ex x w2 EX B2) as (XP & XD & XN).
  destruct (take_sign_text sg neg (mt ++ ex ++ w2) SG (mantissa_head mt ip fp _ MT)) as [TS SW].
  assert (T : take_sign (skip_ws (w1 ++ sg ++ mt ++ ex ++ w2)) = (neg, mt ++ ex ++ w2)) by (rewrite skip_ws_app by auto; rewrite SW; auto).
  destruct MT as (F1 & F2 & N & E).
  assert (G : exists s2, span_digits (mt ++ ex ++ w2) = (ip, s2) /\
    match s2 with c :: r => if N.eqb c 46 then span_digits r else ([], s2) | [] => ([], s2) end = (fp, ex ++ w2)).
  { destruct E as [[-> ->]| ->].
    - exists (ex ++ w2). split; [apply span_app; auto|]. destruct (ex ++ w2) as [|c r]; auto. destruct (N.eqb_spec c 46); [easy|auto].
    - exists (str "." ++ fp ++ ex ++ w2). split.
      + rewrite <- !app_assoc. apply span_app; auto. reflexivity.
      + cbn [str app]. rewrite N.eqb_refl. apply span_app; auto. }
  destruct G as (s2 & G1 & G2). rewrite (scan_unfold _ _ _ _ _ _ _ T G1 G2 N), XP. auto.
Qed.
Lemma take_sign_split s neg r : take_sign s = (neg, r) -> exists sg, s = sg ++ r /\ sign_text sg neg.
Proof.
  unfold take_sign. destruct s as [|c s]; [intros [= <- <-]; exists []; split; auto; left; auto|].
  destruct (N.eqb_spec c 45) as [->|]; [intros [= <- <-]; exists (str "-"); split; auto; right; auto|].
  destruct (N.eqb_spec c 43) as [->|]; [intros [= <- <-]; exists (str "+"); split; auto; left; auto|].
  intros [= <- <-]. exists []. split; auto. left. auto.
Qed.
Lemma exp_part_split s x r : exp_part s = Some (x, r) -> exists ex, s = ex ++ r /\ exponent_text ex x.
Proof.
  unfold exp_part. destruct s as [|c s]; [intros [= <- <-]; exists []; split; auto; left; auto|].
  destruct (N.eqb c 101 || N.eqb c 69)%bool eqn:C; [|intros [= <- <-]; exists []; split; auto; left; auto].
  destruct (take_sign s) as [en r1] eqn:TS. destruct (span_split r1) as (es & r2 & -> & F & N & SP). rewrite SP.
  destruct es as [|d es0] eqn:EE; [discriminate|]. rewrite <- EE in *. intros [= <- <-].
  destruct (take_sign_split _ _ _ TS) as (sg & -> & SG). exists (c :: sg ++ es). split.
  - cbn [app]. now rewrite <- app_assoc.
  - right. exists c, sg, es, en. repeat split; auto; [|congruence].
    apply orb_true_iff in C as [C|C]; apply N.eqb_eq in C; auto.
Qed.
Lemma scan_sound s neg m e r : scan_double s = Some (neg, m, e, r) -> blanks r -> double_text s neg m e.
Proof.
  intros H B. destruct (skip_ws_split s) as (w1 & E & B1 & _). destruct (take_sign (skip_ws s)) as [ng s1] eqn:TS.
  destruct (span_split s1) as (ip & s2 & E1 & F1 & N1 & SP).
  destruct (match s2 with c :: q => if N.eqb c 46 then span_digits q else ([], s2) | [] => ([], s2) end) as [fp s3] eqn:FPE.
  destruct (list_eq_dec N.eq_dec (ip ++ fp) []) as [NE|NE].
  { exfalso. unfold scan_double in H. rewrite TS, SP, FPE, NE in H. discriminate. }
  rewrite (scan_unfold _ _ _ _ _ _ _ TS SP FPE NE) in H. destruct (exp_part s3) as [[x r']|] eqn:XP; [|discriminate].
  injection H as <- <- <- <-. destruct (exp_part_split _ _ _ XP) as (ex & -> & EX). destruct (take_sign_split _ _ _ TS) as (sg & SE & SG).
  assert (G : exists mt, s1 = mt ++ ex ++ r' /\ mantissa_text mt ip fp).
  { destruct s2 as [|c q].
    - injection FPE as <- <-. exists ip. split; auto. repeat split; auto.
    - destruct (N.eqb_spec c 46) as [->|NC].
      + destruct (span_split q) as (ds & t & -> & F2 & _ & SP2). rewrite SP2 in FPE. injection FPE as <- <-.
        exists (ip ++ str "." ++ ds). split; [rewrite E1, <- !app_assoc; auto|]. repeat split; auto.
      + injection FPE as <- <-. exists ip. split; auto. repeat split; auto. }
  destruct G as (mt & -> & MT). exists w1, sg, mt, ip, fp, ex, x, r'. rewrite E at 1. rewrite SE. repeat split; auto; try apply MT.
Qed.
Lemma double_text_nonneg s neg m e : double_text s neg m e -> (0 <= m)%Z.
Proof. intros (w1 & sg & mt & ip & fp & ex & x & w2 & _ & _ & _ & _ & (F1 & F2 & _) & _ & -> & _). apply value_nonneg, Forall_app; auto. Qed.

(** ** C109: reading. A text is read as a double exactly if it is a decimal number (between blanks) that does not
    overflow, and then as the double nearest to it, with its sign. *)
Theorem getDouble_reads_nearest : forall s x,
  parse_double s = Some x <->
  exists neg m e, double_text s neg m e /\ Rabs (rnd (decimal neg m e)) < OMEGA /\
                  is_finite x = true /\ B2R x = rnd (decimal neg m e) /\ Bsign x = neg.
Proof.
  intros s x. split.
  - unfold parse_double. destruct (scan_double s) as [[[[neg m] e] r]|] eqn:SC; [|discriminate].
    destruct (skip_ws r) eqn:SR; [|discriminate]. intros H. apply skip_ws_nil in SR. pose proof (scan_sound _ _ _ _ _ SC SR) as T.
    exists neg, m, e. split; auto. destruct (of_dec_spec neg m e (double_text_nonneg _ _ _ _ T)) as [O1 O2].
    destruct (Rlt_or_le (Rabs (rnd (decimal neg m e))) OMEGA) as [L|G]; [|rewrite O2 in H by auto; discriminate].
    destruct (O1 L) as (y & E & F & V & S). rewrite E in H. injection H as <-. auto.
  - intros (neg & m & e & T & L & F & V & S). destruct (scan_text _ _ _ _ T) as (w & B & SC). unfold parse_double. rewrite SC.
    rewrite skip_ws_blanks by auto. destruct (of_dec_spec neg m e (double_text_nonneg _ _ _ _ T)) as [O1 _].
    destruct (O1 L) as (y & E & Fy & Vy & Sy). rewrite E. f_equal. apply B2R_Bsign_inj; auto; congruence.
Qed.

(** ** printing *)
Lemma drop_zeros_split s : exists k, s = repeat 48%N k ++ drop_zeros s.
Proof.
  induction s as [|c s (k & IH)]; [exists 0%nat; auto|]. cbn [drop_zeros]. destruct (N.eqb_spec c 48) as [->|N].
  - exists (S k). cbn [repeat app]. now rewrite <- IH.
  - exists 0%nat. auto.
Qed.
Lemma repeat_rev {A} (a : A) k : rev (repeat a k) = repeat a k.
Proof. induction k; auto. cbn [repeat rev]. rewrite IHk. symmetry. apply repeat_cons. Qed.
Lemma strip_split s : exists k, s = strip_zeros s ++ repeat 48%N k.
Proof.
  destruct (drop_zeros_split (rev s)) as (k & E). exists k. unfold strip_zeros. rewrite <- (repeat_rev 48%N k), <- rev_app_distr, <- E.
  now rewrite rev_involutive.
Qed.
Lemma value_repeat0 k : value (repeat 48%N k) = 0%Z.
Proof. rewrite <- (app_nil_r (repeat 48%N k)). rewrite value_zeros. reflexivity. Qed.
Lemma with_point_text ip fp : Forall digit ip -> Forall digit fp -> ip <> [] ->
  exists fp', mantissa_text (with_point ip fp) ip fp' /\
    IZR (value (ip ++ fp')) * bpow r10 (- Z.of_nat (length fp')) = IZR (value (ip ++ fp)) * bpow r10 (- Z.of_nat (length fp)).
Proof.
  intros F1 F2 N. destruct (strip_split fp) as (k & E). set (f := strip_zeros fp) in *. exists f. split.
  - assert (Ff : Forall digit f) by (rewrite E in F2; apply Forall_app in F2; apply F2).
    split; auto. split; auto. split. { intros G. apply app_eq_nil in G. tauto. }
    unfold with_point. fold f. destruct f as [|c f'] eqn:Ef; [left; rewrite app_nil_r; auto|right; auto].
  - assert (V : value (ip ++ fp) = (value (ip ++ f) * 10 ^ Z.of_nat k)%Z).
    { rewrite E, app_assoc. rewrite (value_app (ip ++ f)), value_repeat0, repeat_length. lia. }
    rewrite V. rewrite mult_IZR. change 10%Z with (radix_val r10). rewrite (IZR_Zpower r10) by lia.
    rewrite Rmult_assoc, <- bpow_plus. f_equal. f_equal.
    assert (length fp = length f + k)%nat by (rewrite E at 1; rewrite app_length, repeat_length; auto). lia.
Qed.
Lemma dec2_spec z : (0 <= z)%Z -> Forall digit (dec2 z) /\ dec2 z <> [] /\ value (dec2 z) = z.
Proof.
  intros H. destruct (dec_spec z H) as (D & V & L). unfold dec2. destruct (Z.ltb_spec z 10).
  - repeat split; [constructor; auto; unfold digit; lia|discriminate|]. change (48%N :: dec z) with (repeat 48%N 1 ++ dec z). now rewrite value_zeros.
  - repeat split; auto. destruct (dec z); [cbn in L; lia|discriminate].
Qed.
Lemma Forall_firstn {A} (P : A -> Prop) n l : Forall P l -> Forall P (firstn n l).
Proof. intros H. rewrite <- (firstn_skipn n l) in H. apply Forall_app in H. tauto. Qed.
Lemma Forall_skipn {A} (P : A -> Prop) n l : Forall P l -> Forall P (skipn n l).
Proof. intros H. rewrite <- (firstn_skipn n l) in H. apply Forall_app in H. tauto. Qed.
Lemma layout_text p D X sg neg : (1 <= p)%nat -> (0 <= D < 10 ^ Z.of_nat p)%Z -> sign_text sg neg ->
  exists m e, double_text (sg ++ layout p D X) neg m e /\ IZR m * bpow r10 e = IZR D * bpow r10 (X - Z.of_nat p + 1).
Proof.
  intros Hp HD SG. destruct (digs_spec p D HD) as (L & F & V). set (ds := digs p D) in *.
  assert (G : exists mt ip fp ex x, layout p D X = mt ++ ex /\ mantissa_text mt ip fp /\ exponent_text ex x /\
    IZR (value (ip ++ fp)) * bpow r10 (x - Z.of_nat (length fp)) = IZR D * bpow r10 (X - Z.of_nat p + 1)).
  { unfold layout. fold ds. destruct ((-4 <=? X) && (X <? Z.of_nat p))%Z%bool eqn:C.
    - apply andb_true_iff in C as [C1 C2]. apply Z.leb_le in C1. apply Z.ltb_lt in C2. destruct (Z.ltb_spec X 0).
      + destruct (with_point_text (str "0") (repeat 48%N (Z.to_nat (- X - 1)) ++ ds)) as (fp & MT & E).
        * constructor; [unfold digit; cbn; lia|constructor].
        * apply Forall_app. split; auto. apply Forall_forall. intros y Hy. apply repeat_spec in Hy. subst y. unfold digit. lia.
        * discriminate.
        * exists (with_point (str "0") (repeat 48%N (Z.to_nat (- X - 1)) ++ ds)), (str "0"), fp, [], 0%Z.
          rewrite app_nil_r. split; auto. split; auto. split; [left; auto|].
          replace (0 - Z.of_nat (length fp))%Z with (- Z.of_nat (length fp))%Z by lia. rewrite E. rewrite app_length, repeat_length, L.
          assert (VV : value (str "0" ++ repeat 48%N (Z.to_nat (- X - 1)) ++ ds) = D).
          { rewrite app_assoc. change (str "0") with (repeat 48%N 1). rewrite <- repeat_app, value_zeros. auto. }
          rewrite VV. f_equal. f_equal. lia.
      + destruct (with_point_text (firstn (Z.to_nat X + 1) ds) (skipn (Z.to_nat X + 1) ds)) as (fp & MT & E).
        * apply Forall_firstn; auto.
        * apply Forall_skipn; auto.
        * intros G. apply (f_equal (@length _)) in G. rewrite firstn_length, L in G. cbn [length] in G. lia.
        * exists (with_point (firstn (Z.to_nat X + 1) ds) (skipn (Z.to_nat X + 1) ds)), (firstn (Z.to_nat X + 1) ds), fp, [], 0%Z.
          rewrite app_nil_r. split; auto. split; auto. split; [left; auto|].
          replace (0 - Z.of_nat (length fp))%Z with (- Z.of_nat (length fp))%Z by lia. rewrite E. rewrite firstn_skipn, V.
          f_equal. f_equal. rewrite skipn_length, L. lia.
    - destruct (with_point_text (firstn 1 ds) (skipn 1 ds)) as (fp & MT & E).
      + apply Forall_firstn; auto.
      + apply Forall_skipn; auto.
      + intros G. apply (f_equal (@length _)) in G. rewrite firstn_length, L in G. cbn [length] in G. lia.
      + exists (with_point (firstn 1 ds) (skipn 1 ds)), (firstn 1 ds), fp,
          ([101%N] ++ (if (X <? 0)%Z then 45%N :: dec2 (- X) else 43%N :: dec2 X)), X.
        split; auto. split; auto. split.
        * right. destruct (Z.ltb_spec X 0).
          -- destruct (dec2_spec (- X)) as (D1 & D2 & D3); [lia|]. exists 101%N, (str "-"), (dec2 (- X)), true.
             repeat split; auto; [right; auto|rewrite D3; lia].
          -- destruct (dec2_spec X) as (D1 & D2 & D3); [lia|]. exists 101%N, (str "+"), (dec2 X), false.
             repeat split; auto. left. auto.
        * unfold Z.sub. rewrite bpow_plus, <- Rmult_assoc, (Rmult_comm _ (bpow r10 X)), Rmult_assoc, E, firstn_skipn, V.
          rewrite <- Rmult_assoc, (Rmult_comm (bpow r10 X)), Rmult_assoc, <- bpow_plus. f_equal. f_equal. rewrite skipn_length, L. lia. }
  destruct G as (mt & ip & fp & ex & x & -> & MT & EX & V2).
  exists (value (ip ++ fp)), (x - Z.of_nat (length fp))%Z. split; auto.
  exists [], sg, mt, ip, fp, ex, x, []. rewrite app_nil_r. split; auto. split; [constructor|]. split; [constructor|]. auto.
Qed.

Lemma f2q_abs (x : f64) : is_finite x = true -> Q2R (f2q (fabs x)) = Rabs (B2R x).
Proof.
  intros F. rewrite f2q_correct; [unfold fabs; apply B2R_Babs|]. unfold fabs. now rewrite is_finite_Babs.
Qed.
Lemma f64_range (x : f64) : is_finite x = true -> B2R x <> 0 -> bpow radix2 (-1074) <= Rabs (B2R x) < OMEGA.
Proof.
  intros F N. split.
  - destruct x as [s|s| |s m e b]; try (exfalso; apply N; reflexivity); try discriminate. pose proof (B754_finite s m e b : f64) as _.
    apply (abs_B2R_ge_emin 53 1024 (B754_finite s m e b)); reflexivity.
  - apply abs_B2R_lt_emax.
Qed.

(** ** C109: printing. The text printed for a finite double with p digits denotes a number with its sign, within half a
    unit of the p-th digit. *)
Theorem setDouble_text_close : forall p (x : f64), (1 <= p)%nat -> is_finite x = true ->
  exists m e, double_text (print_double p x) (Bsign x) m e /\
    Rabs (decimal (Bsign x) m e - B2R x) <= / 2 * bpow r10 (1 - Z.of_nat p) * Rabs (B2R x).
Proof.
  intros p x Hp F. destruct x as [s|s| |s mm ee bb]; try discriminate.
  - exists 0%Z, 0%Z. split.
    + exists [], (if s then str "-" else []), (str "0"), (str "0"), [], [], 0%Z, [].
      split; [destruct s; reflexivity|]. split; [constructor|]. split; [constructor|]. split; [destruct s; [right; auto|left; auto]|].
      split. { split; [repeat constructor; unfold digit; cbn; lia|]. split; [constructor|]. split; [discriminate|]. left. auto. }
      split; [left; auto|]. split; reflexivity.
    + unfold decimal. cbn [B2R]. rewrite Rmult_0_l, Rmult_0_r, Rminus_0_r, Rabs_R0. lra.
  - set (x := B754_finite s mm ee bb : f64) in *.
    assert (N : B2R x <> 0). { unfold x. cbn [B2R]. apply F2R_neq_0. destruct s; discriminate. }
    destruct (f64_range x F N) as [R1 R2]. pose proof (f2q_abs x F) as EQ.
    assert (PR : print_double p x = let '(D, X) := sci p (f2q (fabs x)) in (if s then [45%N] else []) ++ layout p D X) by reflexivity.
    rewrite PR. clear PR. pose proof (sci_spec p (f2q (fabs x)) Hp) as SS. rewrite EQ in SS. specialize (SS R1 R2).
    destruct (sci p (f2q (fabs x))) as [D X]. destruct SS as [SD SE].
    assert (SG : sign_text (if s then [45%N] else []) s) by (destruct s; [right|left]; auto).
    assert (D0 : (0 <= D < 10 ^ Z.of_nat p)%Z). { pose proof (Z.pow_nonneg 10 (Z.of_nat p - 1)). lia. }
    destruct (layout_text p D X _ s Hp D0 SG) as (m & e & T & V). change (Bsign x) with s. exists m, e. split; auto.
    unfold decimal. rewrite V. set (v := IZR D * bpow r10 (X - Z.of_nat p + 1)) in *.
    assert (SX : B2R x = (if s then -1 else 1) * Rabs (B2R x)).
    { pose proof (sign_neg x F N) as SN. change (Bsign x) with s in SN. destruct (Rlt_bool_spec (B2R x) 0) as [L|L]; rewrite SN.
      - rewrite Rabs_left by lra. ring.
      - rewrite Rabs_pos_eq by lra. ring. }
    rewrite SX at 1. replace ((if s then -1 else 1) * v - (if s then -1 else 1) * Rabs (B2R x)) with ((if s then -1 else 1) * (v - Rabs (B2R x))) by ring.
    rewrite Rabs_mult. replace (Rabs (if s then -1 else 1)) with 1; [|destruct s; [rewrite Rabs_left; lra|rewrite Rabs_pos_eq; lra]].
    rewrite Rmult_1_l. auto.
Qed.

(** ** C109: seventeen digits bring every finite double back, the sign of zero included. *)
Theorem double_text_roundtrip : forall p (x : f64), (17 <= p)%nat -> is_finite x = true -> parse_double (print_double p x) = Some x.
Proof.
  intros p x Hp F. destruct (setDouble_text_close p x) as (m & e & T & C); [lia|auto|].
  assert (RX : rnd (decimal (Bsign x) m e) = B2R x).
  { destruct (Req_dec (B2R x) 0) as [Z|N].
    - rewrite Z in *. rewrite Rabs_R0, Rmult_0_r, Rminus_0_r in C. assert (E : decimal (Bsign x) m e = 0).
      { destruct (Req_dec (decimal (Bsign x) m e) 0) as [|NZ]; auto. apply Rabs_pos_lt in NZ. lra. }
      rewrite E. apply rnd_0.
    - assert (FM : format64 (B2R x)) by apply generic_format_B2R. pose proof (digits17 p Hp) as D17.
      destruct (Rlt_or_le (B2R x) 0) as [L|G].
      + assert (H : rnd (- decimal (Bsign x) m e) = - B2R x).
        { apply round_near; [apply generic_format_opp; auto|lra|]. rewrite (Rabs_left (B2R x)) in C by lra.
          replace (- decimal (Bsign x) m e - - B2R x) with (- (decimal (Bsign x) m e - B2R x)) by ring. rewrite Rabs_Ropp.
          apply Rle_lt_trans with (1 := C). apply Rmult_lt_compat_r; lra. }
        rewrite rnd_opp in H. lra.
      + assert (0 < B2R x) by lra. apply round_near; auto. rewrite (Rabs_pos_eq (B2R x)) in C by lra. apply Rle_lt_trans with (1 := C).
        apply Rmult_lt_compat_r; lra. }
  apply getDouble_reads_nearest. exists (Bsign x), m, e. rewrite RX. repeat split; auto. apply abs_B2R_lt_emax.
Qed.
Corollary print_double_injective p (x y : f64) : (17 <= p)%nat -> is_finite x = true -> is_finite y = true ->
  print_double p x = print_double p y -> x = y.
Proof.
  intros P Fx Fy E. pose proof (double_text_roundtrip p x P Fx) as H. rewrite E, double_text_roundtrip in H by auto. congruence.
Qed.

(** In a tree: the value set is the value read, the key exists, a default is not used. *)
Theorem setDouble_then_getDouble : forall t ns key path (x : f64) p, (17 <= p)%nat -> is_finite x = true -> denotes ns key path ->
  exists t', setDouble p t ns key x = Ok t' /\ getDouble t' ns key = Ok x /\ doesKeyExist t' ns key = true /\
             (forall d, getDouble_default t' ns key d = x) /\ (forall d, getDouble_or_set p t' ns key d = Ok (t', x)).
Proof.
  intros t ns key path x p P F D. pose proof (double_text_roundtrip p x P F) as FA. fold (faithful parse_double (print_double p) x) in FA.
  destruct (set_then_get _ parse_double (print_double p) x t ns key path FA D) as (t' & S & G). destruct (G ns key D) as [G1 G2].
  exists t'. split; auto. split; auto. split; auto. split; intros d; apply (default_reads _ parse_double (print_double p) t' ns key path d D); auto.
Qed.
(** A missing or unreadable key: the mutable getDouble stores its default, and reads it from then on. *)
Theorem getDouble_default_stored : forall t ns key path (d : f64) p, (17 <= p)%nat -> is_finite d = true -> denotes ns key path ->
  (forall x, getDouble t ns key <> Ok x) ->
  getDouble_default t ns key d = d /\
  exists t', getDouble_or_set p t ns key d = Ok (t', d) /\ setDouble p t ns key d = Ok t' /\ getDouble t' ns key = Ok d.
Proof.
  intros t ns key path d p P F D N. destruct (default_reads _ parse_double (print_double p) t ns key path d D) as [_ H].
  destruct (H N) as (E & t' & E1 & E2 & E3). split; auto. exists t'. split; auto. split; auto.
  apply E3. apply double_text_roundtrip; auto.
Qed.
Example roundtrip_case : exists t', setDouble 17 pempty (view_root (str "cam")) (str "front/fps") (fadd (fdec 1 1) (fdec 2 1)) = Ok t' /\
  getDouble t' (view_root (str "cam")) (str "front/fps") = Ok (fadd (fdec 1 1) (fdec 2 1)).
Proof.
  destruct (setDouble_then_getDouble pempty (view_root (str "cam")) (str "front/fps") [str "cam"; str "front"; str "fps"] (fadd (fdec 1 1) (fdec 2 1)) 17) as (t' & A & B & _).
  - lia.
  - reflexivity.
  - exact ex_denotes.
  - exists t'. auto.
Qed.
Example nearest_case : exists x, parse_double (str " -2.50e1") = Some x /\ B2R x = -25.
Proof.
  assert (T : double_text (str " -2.50e1") true 250 (-1)).
  { exists (str " "), (str "-"), (str "2.50"), (str "2"), (str "50"), (str "e1"), 1%Z, [].
    split; [reflexivity|]. split; [constructor; [right; reflexivity|constructor]|]. split; [constructor|]. split; [right; auto|].
    split. { split; [repeat constructor; unfold digit; cbn; lia|]. split; [repeat constructor; unfold digit; cbn; lia|]. split; [discriminate|]. right. reflexivity. }
    split. { right. exists 101%N, [], (str "1"), false. split; [reflexivity|]. split; auto. split; [left; auto|].
      split; [repeat constructor; unfold digit; cbn; lia|]. split; [discriminate|reflexivity]. }
    split; reflexivity. }
  assert (V : decimal true 250 (-1) = IZR (-25)). { unfold decimal. change (bpow r10 (-1)) with (/ 10). lra. }
  assert (RV : rnd (IZR (-25)) = IZR (-25)). { apply rnd_id. apply format_IZR. cbn. lia. }
  assert (B25 : Rabs (IZR (-25)) < OMEGA).
  { rewrite Rabs_left by lra. apply Rlt_trans with (bpow radix2 5); [cbn; lra|apply bpow_lt; lia]. }
  destruct (of_dec_spec true 250 (-1) ltac:(lia)) as [O1 _]. rewrite V, RV in O1. destruct (O1 B25) as (x & E & F & B & S).
  exists x. split; [|auto]. apply getDouble_reads_nearest. exists true, 250%Z, (-1)%Z. split; auto. rewrite V, RV. repeat split; auto.
Qed.

(** ** What is lost. Infinities and NaN print as a text no stream reads. *)
Theorem nonfinite_double_refuted : forall p (x : f64), is_finite x = false -> parse_double (print_double p x) = None.
Proof. intros p [s|s| |s m e b] F; try discriminate; try destruct s; reflexivity. Qed.
Theorem nonfinite_set_get_refuted : forall t ns key path (x : f64) p, is_finite x = false -> denotes ns key path ->
  exists t', setDouble p t ns key x = Ok t' /\ (forall y, getDouble t' ns key <> Ok y) /\ doesKeyExist t' ns key = true /\
             forall d, getDouble_default t' ns key d = d.
Proof.
  intros t ns key path x p F D. pose proof (nonfinite_double_refuted p x F) as N.
  exists (put_comps t path (print_double p x)). split; [apply setX_denotes; auto|].
  assert (G : forall y, getDouble (put_comps t path (print_double p x)) ns key <> Ok y).
  { intros y. unfold getDouble. rewrite (getX_denotes parse_double _ _ _ _ D), put_same, N. discriminate. }
  split; auto. split; [rewrite (exist_denotes _ _ _ _ D), put_same; auto|].
  intros d. apply (default_reads _ parse_double (print_double p) _ ns key path d D). auto.
Qed.
(** Sixteen digits (older Boost) are one too few: 0.1 + 0.2 comes back as 0.3; six digits (a plain stream) lose an integer. *)
Theorem sixteen_digits_refuted : exists x y : f64, is_finite x = true /\ parse_double (print_double 16 x) = Some y /\ feqb x y = false.
Proof.
  exists (fadd (fdec 1 1) (fdec 2 1)), (fdec 3 1). split; [reflexivity|]. split; [|reflexivity].
  assert (E : option_map B2SF (parse_double (print_double 16 (fadd (fdec 1 1) (fdec 2 1)))) = Some (B2SF (fdec 3 1))) by (vm_compute; reflexivity).
  destruct (parse_double _) as [y|]; [|discriminate]. injection E as E. f_equal. apply BinarySingleNaN.B2SF_inj. auto.
Qed.
Theorem six_digits_refuted : exists x y : f64, is_finite x = true /\ parse_double (print_double 6 x) = Some y /\ feqb x y = false.
Proof.
  exists (fofZ 1234567), (fofZ 1234570). split; [reflexivity|]. split; [|reflexivity].
  assert (E : option_map B2SF (parse_double (print_double 6 (fofZ 1234567))) = Some (B2SF (fofZ 1234570))) by (vm_compute; reflexivity).
  destruct (parse_double _) as [y|]; [|discriminate]. injection E as E. f_equal. apply BinarySingleNaN.B2SF_inj. auto.
Qed.
Print Assumptions getDouble_reads_nearest.
Print Assumptions setDouble_text_close.
Print Assumptions double_text_roundtrip.
Print Assumptions setDouble_then_getDouble.
Print Assumptions getDouble_default_stored.
Print Assumptions nonfinite_set_get_refuted.
Print Assumptions sixteen_digits_refuted.
