(** C155: the Jacobians of homogeneous points in double precision. *)
From Coq Require Import Reals Psatz List Permutation Lia.
From Flocq Require Import Mult_error.
From Verif Require Import Float64 Nsec_Proofs TimerTable_Num Kin_Float_Model Kin_FloatHom_Model Kin_FloatHomJ_Model.
From Verif Require Import LinAlg Kin_Quat_Props Kin_Trans_Model Kin_Trans_Props Kin_Float_Geom Kin_Float_Num Kin_Float_Props Kin_FloatR_Props Kin_FloatMat_Props Kin_FloatSJ_Props Kin_FloatHom_Props Kin_Quat_Model.
Import ListNotations.
Open Scope R_scope.

(** ** Specification *)
(** entries of exact matrices *)
Definition ent43 (M : mat43) (i j : nat) : R := at3 (match i with 0 => s0 M | 1 => s1 M | 2 => s2 M | _ => s3 M end%nat) j.
Definition ent33 (M : mat3) (i j : nat) : R := at3 (match i with 0 => r30 M | 1 => r31 M | _ => r32 M end%nat) j.
Definition fent33 (M : FM3) (i j : nat) : f64 := fat3 (match i with 0 => fr0 M | 1 => fr1 M | _ => fr2 M end%nat) j.
(** the derivative of the Euclidean point X under the oplus of homogeneous points: half of I + [X]x + X X^T, whatever the scale *)
Definition oplus_euclid (X : vec3) (i j : nat) : R :=
  ((if Nat.eqb i j then 1 else 0) + ent33 (M3 (V3 0 (- vz X) (vy X)) (V3 (vz X) 0 (- vx X)) (V3 (- vy X) (vx X) 0)) i j + at3 X i * at3 X j) / 2.
(** the Euclidean point of p *)
Definition euclid (p : F4) : vec3 := let w := B2R (f3 p) in V3 (B2R (f0 p) / w) (B2R (f1 p) / w) (B2R (f2 p) / w).
(** any order of summation of four products *)
Definition orders_ok (o : nat -> nat -> stree) : Prop := forall i j, Permutation (leaves (o i j)) [0; 1; 2; 3]%nat.
(** zero, or large enough that half of it is a normal number *)
Definition halvable (x : f64) : Prop := B2R x = 0 \/ bpow radix2 (-1021) <= Rabs (B2R x).
(** the scale and the coordinates stay within 2^-200 .. 2^200 and below 2^200 *)
Definition in_range (p : F4) : Prop :=
  finite4 p /\ bpow radix2 (-200) <= Rabs (B2R (f3 p)) <= bpow radix2 200 /\ Rabs (B2R (f0 p)) <= bpow radix2 200 /\ Rabs (B2R (f1 p)) <= bpow radix2 200 /\ Rabs (B2R (f2 p)) <= bpow radix2 200.

(** that this is the derivative: the exact Jacobian, which Kin_Jac_Props (hp_toEuclidean_jacobian) proves to be the derivative, has these entries *)
Theorem oplus_euclid_exact p v J : hp_toEuclideanAndJacobian p = Some (v, J) -> forall i j, (i < 3)%nat -> (j < 3)%nat -> ent33 J i j = oplus_euclid v i j.
Proof.
  unfold hp_toEuclideanAndJacobian. destruct (Req_EM_T (e3 p) 0) as [|NZ]; [discriminate|]. intros H i j I Jj. injection H as <- <-.
  destruct i as [|[|[|]]]; [| | |lia]; (destruct j as [|[|[|]]]; [| | |lia]); unfold oplus_euclid, ent33, mm34_43, dot4, col43, hp_toHomogeneousJ, at3; cbn; field; exact NZ.
Qed.

(** ** halves *)
Lemma half_err x : Rabs (rnd x - x) <= u * Rabs x + eta. Proof. apply rnd_err. Qed.
Lemma rnd_half x : is_finite x = true -> Rabs (rnd (B2R x * (1 / 2)) - B2R x * (1 / 2)) <= eta /\ (halvable x -> rnd (B2R x * (1 / 2)) = B2R x * (1 / 2)).
Proof.
  intros F. assert (EX : bpow radix2 (-1021) <= Rabs (B2R x) -> rnd (B2R x * (1 / 2)) = B2R x * (1 / 2)).
  { intros L. apply rnd_id. replace (1 / 2) with (bpow radix2 (-1)) by (cbn; lra). change fexp64 with (FLT_exp (-1074) 53). apply mult_bpow_exact_FLT; [apply (generic_format_B2R 53 1024)|].
    assert (-1021 + 1 <= mag radix2 (B2R x))%Z by (apply mag_ge_bpow; replace (-1021 + 1 - 1)%Z with (-1021)%Z by lia; exact L). lia. }
  pose proof eta_pos as EP. destruct (Rle_or_lt (bpow radix2 (-1021)) (Rabs (B2R x))) as [L|L].
  - rewrite (EX L). split; [rewrite Rminus_diag_eq, Rabs_R0 by reflexivity; lra|auto].
  - split.
    + set (y := B2R x * (1 / 2)). assert (Y : Rabs y < bpow radix2 (-1022)).
      { unfold y. rewrite Rabs_mult, (Rabs_pos_eq (1 / 2)) by lra. replace (bpow radix2 (-1021)) with (2 * bpow radix2 (-1022)) in L by (change (-1021)%Z with (1 + -1022)%Z; rewrite bpow_plus; reflexivity). lra. }
      replace eta with (/ 2 * bpow radix2 (-1074)).
      * apply Rle_trans with (/ 2 * ulp radix2 fexp64 y); [apply error_le_half_ulp; typeclasses eauto|]. apply Rmult_le_compat_l; [lra|].
        destruct (Req_dec y 0) as [-> | NZ]; [change fexp64 with (FLT_exp (-1074) 53); rewrite ulp_FLT_0 by reflexivity; lra|].
        rewrite ulp_neq_0 by exact NZ. apply bpow_le. unfold cexp, SpecFloat.fexp, SpecFloat.emin. assert (mag radix2 y <= -1022)%Z by (apply mag_le_bpow; auto). lia.
      * change (-1074)%Z with (1 + -1075)%Z. rewrite bpow_plus. change (bpow radix2 1) with 2. lra.
    + intros [Z|G]; [|now apply EX]. rewrite Z, Rmult_0_l. apply rnd_0.
Qed.
Lemma half_computed x : is_finite x = true -> is_finite (fmul x fhalf) = true /\ Rabs (B2R (fmul x fhalf) - B2R x * (1 / 2)) <= eta /\ (halvable x -> B2R (fmul x fhalf) = B2R x * (1 / 2)).
Proof.
  intros F. destruct half_val as [HV HF]. pose proof (Bmult_correct 53 1024 _ _ mode_NE x fhalf) as K. cbn [round_mode] in K. rewrite HV in K.
  assert (B : Rabs (rnd (B2R x * (1 / 2))) <= Rabs (B2R x)).
  { rewrite <- (Rabs_pos_eq (Rabs (B2R x))) by apply Rabs_pos. assert (G : format64 (Rabs (B2R x))) by (apply generic_format_abs, generic_format_B2R).
    rewrite (Rabs_pos_eq (Rabs (B2R x))) by apply Rabs_pos. apply abs_round_le_generic; [typeclasses eauto|typeclasses eauto|exact G|]. rewrite Rabs_mult, (Rabs_pos_eq (1 / 2)) by lra. pose proof (Rabs_pos (B2R x)). lra. }
  rewrite Rlt_bool_true in K by (apply Rle_lt_trans with (1 := B); apply abs_B2R_lt_emax). destruct K as (K1 & K2 & _). fold (fmul x fhalf) in *. rewrite F, HF in K2. destruct (rnd_half x F) as [E X]. split; [exact K2|]. rewrite K1. split; [exact E|exact X].
Qed.
Lemma fneg_halvable x : is_finite x = true -> halvable x -> halvable (fneg x).
Proof. intros F. destruct (fneg_val x F) as [_ V]. unfold halvable. rewrite V, Rabs_Ropp. intros [H|H]; [left; lra|now right]. Qed.
(** The Jacobian of oplus in homogeneous coordinates: every entry is the exact half up to half the smallest positive double, and exactly when no coefficient is
    below 2^-1021 without being zero; it never overflows. *)
Theorem homogeneous_jacobian_halves p : finite4 p -> forall i j, (i < 4)%nat -> (j < 3)%nat ->
  let x := fat3 (row43 (fhp_toHomogeneousJ p) i) j in let e := ent43 (hp_toHomogeneousJ (val4 p)) i j in
  is_finite x = true /\ Rabs (B2R x - e) <= eta /\ (halvable (f0 p) -> halvable (f1 p) -> halvable (f2 p) -> halvable (f3 p) -> B2R x = e).
Proof.
  intros (F0 & F1 & F2 & F3') i j I J x e.
  assert (P : forall c, is_finite c = true -> is_finite (fmul c fhalf) = true /\ Rabs (B2R (fmul c fhalf) - B2R c * (1 / 2)) <= eta /\ (halvable c -> B2R (fmul c fhalf) = B2R c * (1 / 2))) by apply half_computed.
  assert (N : forall c, is_finite c = true -> is_finite (fmul (fneg c) fhalf) = true /\ Rabs (B2R (fmul (fneg c) fhalf) - - B2R c * (1 / 2)) <= eta /\ (halvable c -> B2R (fmul (fneg c) fhalf) = - B2R c * (1 / 2))).
  { intros c F. destruct (fneg_val c F) as [FN V]. destruct (P (fneg c) FN) as (A & B & C). rewrite V in *. split; [exact A|]. split; [exact B|]. intros H. apply C. now apply fneg_halvable. }
  unfold x, e. clear x e. 
  destruct i as [|[|[|[|]]]]; [| | | |lia]; (destruct j as [|[|[|]]]; [| | |lia]); cbn [row43 fhp_toHomogeneousJ w0 w1 w2 w3 fat3 fx fy fz]; unfold ent43, hp_toHomogeneousJ, val4, at3; cbn [s0 s1 s2 s3 vx vy vz e0 e1 e2 e3];
  match goal with
  | |- is_finite (fmul (fneg ?c) _) = true /\ _ => assert (FC : is_finite c = true) by assumption; destruct (N c FC) as (A & B & C)
  | |- is_finite (fmul ?c _) = true /\ _ => assert (FC : is_finite c = true) by assumption; destruct (P c FC) as (A & B & C)
  end; (split; [exact A|split; [exact B|intros; apply C; assumption]]).
Qed.

(** ** relative and absolute error *)
Definition near (x : f64) (a k t : R) : Prop := is_finite x = true /\ Rabs (B2R x - a) <= k * u * Rabs a + t.
Definition room := bpow radix2 900.
Lemma near_mul x a k t y b l s T : near x a k t -> near y b l s -> 0 <= k <= 20 -> 0 <= l <= 20 -> 0 <= t -> 0 <= s -> t * Rabs b + s * Rabs a + t * s <= T -> T <= room -> Rabs (a * b) <= room ->
  near (fmul x y) (a * b) (1001 / 1000 * k + l + 1001 / 1000) (102 / 100 * T + eta).
Proof.
  intros [FX X] [FY Y] K L T0 S0 TT TR AB. pose proof u53_pos as UP. pose proof u_val as UV. pose proof eta_pos as EP.
  pose proof (Rabs_pos a) as A0. pose proof (Rabs_pos b) as B0. rewrite Rabs_mult in AB. set (A := Rabs a) in *. set (B := Rabs b) in *. assert (AB0 : 0 <= A * B) by (apply Rmult_le_pos; lra).
  assert (KU : 0 <= k * u <= / 10 ^ 10) by (split; [apply Rmult_le_pos; lra|]; assert (k * u <= 20 * u) by (apply Rmult_le_compat_r; lra); rewrite UV in *; lra).
  assert (LU : 0 <= l * u <= / 10 ^ 10) by (split; [apply Rmult_le_pos; lra|]; assert (l * u <= 20 * u) by (apply Rmult_le_compat_r; lra); rewrite UV in *; lra).
  assert (TB : 0 <= t * B) by (apply Rmult_le_pos; lra). assert (SA : 0 <= s * A) by (apply Rmult_le_pos; lra). assert (TS : 0 <= t * s) by (apply Rmult_le_pos; lra).
  assert (YB : Rabs (B2R y) <= B * (1 + l * u) + s). { replace (B2R y) with ((B2R y - b) + b) by ring. apply Rle_trans with (1 := Rabs_triang _ _). fold B. lra. }
  assert (P : Rabs (B2R x * B2R y - a * b) <= (k * u + l * u + k * u * (l * u)) * (A * B) + 101 / 100 * T).
  { replace (B2R x * B2R y - a * b) with ((B2R x - a) * B2R y + a * (B2R y - b)) by ring. apply Rle_trans with (1 := Rabs_triang _ _). rewrite !Rabs_mult. fold A.
    assert (P1 : Rabs (B2R x - a) * Rabs (B2R y) <= (k * u * A + t) * (B * (1 + l * u) + s)) by (apply Rmult_le_compat; auto using Rabs_pos).
    assert (P2 : A * Rabs (B2R y - b) <= A * (l * u * B + s)) by (apply Rmult_le_compat_l; lra).
    assert (Q1 : t * B * (l * u) <= / 100 * (t * B)) by (rewrite (Rmult_comm (t * B)); apply Rmult_le_compat_r; lra).
    assert (Q2 : k * u * (s * A) <= / 100 * (s * A)) by (apply Rmult_le_compat_r; lra).
    replace ((k * u * A + t) * (B * (1 + l * u) + s)) with (k * u * (A * B) + k * u * (l * u) * (A * B) + t * B + t * B * (l * u) + k * u * (s * A) + t * s) in P1 by ring.
    replace (A * (l * u * B + s)) with (l * u * (A * B) + s * A) in P2 by ring. lra. }
  assert (KL : k * u * (l * u) <= / 10 ^ 10 * (l * u)) by (apply Rmult_le_compat_r; lra).
  assert (PM : Rabs (B2R x * B2R y) <= 1001 / 1000 * (A * B) + 101 / 100 * T).
  { replace (B2R x * B2R y) with ((B2R x * B2R y - a * b) + a * b) by ring. apply Rle_trans with (1 := Rabs_triang _ _). rewrite (Rabs_mult a b). fold A B.
    assert ((k * u + l * u + k * u * (l * u)) * (A * B) <= / 1000 * (A * B)) by (apply Rmult_le_compat_r; lra). lra. }
  destruct (fmul_rnd x y 902 FX FY ltac:(lia)) as [V F]; [change 902%Z with (2 + 900)%Z; rewrite bpow_plus; change (bpow radix2 2) with 4; fold room; lra|].
  split; [exact F|]. rewrite V. pose proof (rnd_err (B2R x * B2R y)) as E. replace (rnd (B2R x * B2R y) - a * b) with ((rnd (B2R x * B2R y) - B2R x * B2R y) + (B2R x * B2R y - a * b)) by ring.
  apply Rle_trans with (1 := Rabs_triang _ _). rewrite (Rabs_mult a b). fold A B.
  assert (UM : u * Rabs (B2R x * B2R y) <= u * (1001 / 1000 * (A * B) + 101 / 100 * T)) by (apply Rmult_le_compat_l; lra).
  assert (UT : u * (101 / 100 * T) <= / 100 * T). { assert (0 <= T) by lra. assert (u * T <= / 10 ^ 5 * T) by (apply Rmult_le_compat_r; [lra|rewrite UV; lra]). lra. }
  assert (KK : k * u * (l * u) * (A * B) <= / 1000 * (k * u) * (A * B)). { apply Rmult_le_compat_r; [exact AB0|]. rewrite Rmult_comm. apply Rmult_le_compat_r; lra. }
  replace ((k * u + l * u + k * u * (l * u)) * (A * B)) with (k * u * (A * B) + l * u * (A * B) + k * u * (l * u) * (A * B)) in P by ring. lra.
Qed.
Lemma near_exact x : is_finite x = true -> near x (B2R x) 0 0.
Proof. intros F. split; [exact F|]. rewrite Rminus_diag_eq, Rabs_R0 by reflexivity. lra. Qed.
Lemma near_fneg x a k t : near x a k t -> near (fneg x) (- a) k t.
Proof. intros [F H]. destruct (fneg_val x F) as [FN V]. split; [exact FN|]. rewrite V, Rabs_Ropp. replace (- B2R x - - a) with (- (B2R x - a)) by ring. now rewrite Rabs_Ropp. Qed.

(** ** sums of two numbers and zeros *)
Section TwoTerms.
  Variables (f : nat -> f64) (i k : nat).
  Hypothesis IK : i <> k.
  Hypothesis FI : is_finite (f i) = true.
  Hypothesis FK : is_finite (f k) = true.
  Hypothesis SIZE : Rabs (B2R (f i)) + Rabs (B2R (f k)) <= bpow radix2 1000.
  Definition part (l : list nat) : R := (if in_dec Nat.eq_dec i l then B2R (f i) else 0) + (if in_dec Nat.eq_dec k l then B2R (f k) else 0).
  Lemma part_format l : ~ (In i l /\ In k l) -> rnd (part l) = part l.
  Proof using.
    intros H. apply rnd_id. unfold part. destruct (in_dec Nat.eq_dec i l), (in_dec Nat.eq_dec k l); try tauto; rewrite ?Rplus_0_l, ?Rplus_0_r; try apply (generic_format_B2R 53 1024); apply generic_format_0.
  Qed.
  Lemma sum_two t : NoDup (leaves t) -> (forall j, In j (leaves t) -> j <> i -> j <> k -> zr (f j)) -> is_finite (fsum_tree f t) = true /\ B2R (fsum_tree f t) = rnd (part (leaves t)).
  Proof using IK FI FK SIZE.
    induction t as [j|l IHl r IHr]; cbn [leaves fsum_tree]; intros ND Z.
    - rewrite part_format by (cbn [In]; intros [[A|[]] [B|[]]]; congruence). unfold part. destruct (in_dec Nat.eq_dec i [j]) as [A|A], (in_dec Nat.eq_dec k [j]) as [B|B]; cbn [In] in A, B.
      + destruct A as [A|[]], B as [B|[]]. congruence.
      + destruct A as [A|[]]. subst j. split; [exact FI|ring].
      + destruct B as [B|[]]. subst j. split; [exact FK|ring].
      + destruct (Z j) as [F V]; [now left|intros ->; apply A; now left|intros ->; apply B; now left|]. split; [exact F|]. rewrite V. ring.
    - assert (NDL : NoDup (leaves l) /\ NoDup (leaves r) /\ forall x, In x (leaves l) -> In x (leaves r) -> False).
      { revert ND. clear. generalize (leaves r) as b. induction (leaves l) as [|a la IH]; intros b H; cbn [app] in H.
        - split; [constructor|]. split; [exact H|intros x []].
        - inversion H as [|? ? NI ND]; subst. destruct (IH b ND) as (A & B & C). rewrite in_app_iff in NI. split; [constructor; tauto|]. split; [exact B|]. intros x [-> | X] Y; [tauto|exact (C x X Y)]. }
      destruct NDL as (NL & NR & DJ). destruct (IHl NL) as [FL VL]; [intros j Hj; apply Z; apply in_or_app; now left|]. destruct (IHr NR) as [FR VR]; [intros j Hj; apply Z; apply in_or_app; now right|].
      assert (SUM : B2R (fsum_tree f l) + B2R (fsum_tree f r) = rnd (part (leaves l ++ leaves r)) \/ B2R (fsum_tree f l) + B2R (fsum_tree f r) = part (leaves l ++ leaves r)).
      { rewrite VL, VR. destruct (in_dec Nat.eq_dec i (leaves l)) as [A|A], (in_dec Nat.eq_dec k (leaves l)) as [B|B], (in_dec Nat.eq_dec i (leaves r)) as [C|C], (in_dec Nat.eq_dec k (leaves r)) as [D|D];
        try (exfalso; exact (DJ i A C)); try (exfalso; exact (DJ k B D));
        (assert (PA : part (leaves l ++ leaves r) = part (leaves l) + part (leaves r));
         [unfold part; destruct (in_dec Nat.eq_dec i (leaves l)), (in_dec Nat.eq_dec k (leaves l)), (in_dec Nat.eq_dec i (leaves r)), (in_dec Nat.eq_dec k (leaves r)); try contradiction;
          destruct (in_dec Nat.eq_dec i (leaves l ++ leaves r)) as [E|E], (in_dec Nat.eq_dec k (leaves l ++ leaves r)) as [G|G]; rewrite in_app_iff in E; rewrite in_app_iff in G; try tauto; ring|]);
        first [right; rewrite PA, !part_format by tauto; reflexivity
              |left; rewrite PA; assert (part (leaves r) = 0) as -> by (unfold part; destruct (in_dec Nat.eq_dec i (leaves r)), (in_dec Nat.eq_dec k (leaves r)); try contradiction; ring); rewrite rnd_0, !Rplus_0_r; reflexivity
              |left; rewrite PA; assert (part (leaves l) = 0) as -> by (unfold part; destruct (in_dec Nat.eq_dec i (leaves l)), (in_dec Nat.eq_dec k (leaves l)); try contradiction; ring); rewrite rnd_0, !Rplus_0_l; reflexivity]. }
      assert (PB : Rabs (part (leaves l ++ leaves r)) <= bpow radix2 1000).
      { apply Rle_trans with (2 := SIZE). unfold part. destruct (in_dec Nat.eq_dec i (leaves l ++ leaves r)), (in_dec Nat.eq_dec k (leaves l ++ leaves r)); (apply Rle_trans with (1 := Rabs_triang _ _)); rewrite ?Rabs_R0; pose proof (Rabs_pos (B2R (f i))); pose proof (Rabs_pos (B2R (f k))); lra. }
      assert (B : Rabs (B2R (fsum_tree f l) + B2R (fsum_tree f r)) <= bpow radix2 1000) by (destruct SUM as [-> | ->]; [apply rnd_abs_le; [lia|exact PB]|exact PB]).
      destruct (fadd_rnd _ _ 1000 FL FR ltac:(lia) B) as [V F]. split; [exact F|]. rewrite V. destruct SUM as [-> | ->]; [|reflexivity]. apply rnd_id. apply generic_format_round; typeclasses eauto.
  Qed.
  Lemma sum_two_all t : Permutation (leaves t) [0; 1; 2; 3]%nat -> (i < 4)%nat -> (k < 4)%nat -> (forall j, (j < 4)%nat -> j <> i -> j <> k -> zr (f j)) ->
    is_finite (fsum_tree f t) = true /\ B2R (fsum_tree f t) = rnd (B2R (f i) + B2R (f k)).
  Proof using IK FI FK SIZE.
    intros P I K Z. assert (IN : forall j, In j (leaves t) <-> (j < 4)%nat). { intros j. split; intros H; [apply (Permutation_in _ P) in H; cbn [In] in H; lia|]. apply (Permutation_in _ (Permutation_sym P)). cbn [In]. lia. }
    destruct (sum_two t) as [F V].
    - apply (Permutation_NoDup (Permutation_sym P)). repeat constructor; cbn [In]; lia.
    - intros j Hj. apply Z. now apply IN.
    - split; [exact F|]. rewrite V. unfold part. destruct (in_dec Nat.eq_dec i (leaves t)) as [|N]; [|exfalso; apply N; now apply IN]. destruct (in_dec Nat.eq_dec k (leaves t)) as [|N]; [|exfalso; apply N; now apply IN]. reflexivity.
  Qed.
End TwoTerms.

(** ** the parts of toEuclideanAndJacobian *)
Lemma near_one_mul x a k t : near x a k t -> near (fmul fone x) a k t.
Proof.
  intros [F H]. destruct one_facts as (V & FO & _). pose proof (Bmult_correct 53 1024 _ _ mode_NE fone x) as K. cbn [round_mode] in K. unfold fone in *. rewrite V, Rmult_1_l in K.
  rewrite rnd_id in K by (apply (generic_format_B2R 53 1024)). rewrite Rlt_bool_true in K by apply abs_B2R_lt_emax. destruct K as (K1 & K2 & _). fold (fmul (fofZ 1) x) in *. rewrite FO, F in K2. split; [exact K2|]. now rewrite K1.
Qed.
Lemma bp x y : bpow radix2 x * bpow radix2 y = bpow radix2 (x + y). Proof. symmetry. apply bpow_plus. Qed.
Lemma mul_le a b x y : Rabs a <= bpow radix2 x -> Rabs b <= bpow radix2 y -> Rabs (a * b) <= bpow radix2 (x + y).
Proof. intros A B. rewrite Rabs_mult, bpow_plus. apply Rmult_le_compat; auto using Rabs_pos. Qed.
Lemma inv_le W : bpow radix2 (-200) <= Rabs W -> Rabs (1 / W) <= bpow radix2 200.
Proof. intros H. unfold Rdiv. rewrite Rmult_1_l, Rabs_inv. replace (bpow radix2 200) with (/ bpow radix2 (-200)) by (rewrite <- bpow_opp; reflexivity). apply Rinv_le; [apply bpow_gt_0|exact H]. Qed.
Lemma recip_near w : is_finite w = true -> bpow radix2 (-200) <= Rabs (B2R w) <= bpow radix2 200 -> near (fdiv fone w) (1 / B2R w) 1 0.
Proof.
  intros F [L U]. destruct one_facts as (V & FO & _). pose proof (inv_le _ L) as IU. assert (NZ : B2R w <> 0) by (intros H; rewrite H, Rabs_R0 in L; pose proof (bpow_gt_0 radix2 (-200)); lra).
  unfold fone in *. destruct (fdiv_rnd (fofZ 1) w 200 FO NZ ltac:(lia)) as [E FF]; [rewrite V; exact IU|]. split; [exact FF|]. rewrite E, V. rewrite Rplus_0_r, Rmult_1_l. apply rnd_rel.
  unfold Rdiv. rewrite Rmult_1_l, Rabs_inv. apply Rle_trans with (/ bpow radix2 200); [rewrite <- bpow_opp; apply bpow_le; lia|]. apply Rinv_le; [now apply Rabs_pos_lt|exact U].
Qed.
Lemma room_le x : (x <= 900)%Z -> bpow radix2 x <= room. Proof. intros H. now apply bpow_le. Qed.
Lemma quotient_near x w : is_finite x = true -> is_finite w = true -> bpow radix2 (-200) <= Rabs (B2R w) <= bpow radix2 200 -> Rabs (B2R x) <= bpow radix2 200 ->
  near (fmul x (fdiv fone w)) (B2R x * (1 / B2R w)) (2001 / 1000) eta /\ Rabs (B2R x * (1 / B2R w)) <= bpow radix2 400.
Proof.
  intros FX FW W X. pose proof (recip_near w FW W) as R. pose proof (inv_le _ (proj1 W)) as I. pose proof (mul_le _ _ _ _ X I) as M. change (200 + 200)%Z with 400%Z in M. split; [|exact M].
  pose proof (near_mul x (B2R x) 0 0 _ _ 1 0 0 (near_exact x FX) R ltac:(lra) ltac:(lra) ltac:(lra) ltac:(lra)) as N.
  destruct N as [NF NE]; [lra|apply bpow_ge_0|apply Rle_trans with (1 := M); apply room_le; lia|]. split; [exact NF|]. lra.
Qed.
Lemma half_near x : is_finite x = true -> near (fmul x fhalf) (B2R x * (1 / 2)) 0 eta.
Proof. intros F. destruct (half_computed x F) as (A & B & _). split; [exact A|]. lra. Qed.
Lemma half_le x e : Rabs x <= bpow radix2 e -> Rabs (x * (1 / 2)) <= bpow radix2 e.
Proof. intros H. rewrite Rabs_mult, (Rabs_pos_eq (1 / 2)) by lra. pose proof (Rabs_pos x). lra. Qed.
Lemma eta_times e : eta * bpow radix2 e = bpow radix2 (-1075 + e). Proof. apply bp. Qed.
(** row i of Je: the last entry *)
Lemma last_near x w : is_finite x = true -> is_finite w = true -> bpow radix2 (-200) <= Rabs (B2R w) <= bpow radix2 200 -> Rabs (B2R x) <= bpow radix2 200 ->
  near (fmul (fneg (fmul x (fdiv fone w))) (fdiv fone w)) (- (B2R x * (1 / B2R w)) * (1 / B2R w)) (4005 / 1000) (bpow radix2 (-874)) /\ Rabs (- (B2R x * (1 / B2R w)) * (1 / B2R w)) <= bpow radix2 600.
Proof.
  intros FX FW W X. pose proof (recip_near w FW W) as R. pose proof (inv_le _ (proj1 W)) as I. destruct (quotient_near x w FX FW W X) as [Q QB].
  assert (QB' : Rabs (- (B2R x * (1 / B2R w))) <= bpow radix2 400) by (rewrite Rabs_Ropp; exact QB). pose proof (mul_le _ _ _ _ QB' I) as M. change (400 + 200)%Z with 600%Z in M. split; [|exact M].
  pose proof eta_pos as EP. assert (ET : eta * Rabs (1 / B2R w) <= bpow radix2 (-875)). { apply Rle_trans with (eta * bpow radix2 200); [apply Rmult_le_compat_l; lra|]. rewrite eta_times. apply bpow_le. lia. }
  destruct (near_mul _ _ _ _ _ _ 1 0 (bpow radix2 (-875)) (near_fneg _ _ _ _ Q) R ltac:(lra) ltac:(lra) ltac:(lra) ltac:(lra)) as [NF NE]; [lra|apply room_le; lia|apply Rle_trans with (1 := M); apply room_le; lia|].
  split; [exact NF|]. assert (E : bpow radix2 (-874) = 2 * bpow radix2 (-875)) by (change (-874)%Z with (1 + -875)%Z; rewrite bpow_plus; reflexivity). assert (eta <= / 100 * bpow radix2 (-875)).
  { apply Rle_trans with (bpow radix2 (-10) * bpow radix2 (-875)); [rewrite bp; apply bpow_le; lia|]. apply Rmult_le_compat_r; [apply bpow_ge_0|]. cbn. lra. }
  set (Z := Rabs _) in NE |- *. pose proof u53_pos as UP. assert (0 <= Z) by apply Rabs_pos. assert ((1001 / 1000 * (2001 / 1000) + 1 + 1001 / 1000) * u * Z <= 4005 / 1000 * u * Z) by (apply Rmult_le_compat_r; [lra|]; apply Rmult_le_compat_r; lra). lra.
Qed.
Lemma entry_num (w x y h : f64) : is_finite w = true -> is_finite x = true -> is_finite y = true -> is_finite h = true -> bpow radix2 (-200) <= Rabs (B2R w) <= bpow radix2 200 ->
  Rabs (B2R x) <= bpow radix2 200 -> Rabs (B2R y) <= bpow radix2 200 -> Rabs (B2R h) <= bpow radix2 200 ->
  let r := fdiv fone w in let a := fmul (fmul fone r) (fmul h fhalf) in let b := fmul (fmul (fneg (fmul x r)) r) (fmul (fneg y) fhalf) in
  let c := B2R h / B2R w in let d := B2R x / B2R w * (B2R y / B2R w) in
  is_finite a = true /\ is_finite b = true /\ Rabs (B2R a) + Rabs (B2R b) <= bpow radix2 1000 /\ Rabs (rnd (B2R a + B2R b) - (c + d) / 2) <= 305 / 100 * u * (Rabs c + Rabs d) + bpow radix2 (-470).
Proof.
  intros FW FX FY FH W X Y H r a b c d. pose proof u53_pos as UP. pose proof u_val as UV. pose proof eta_pos as EP. pose proof (recip_near w FW W) as R. pose proof (inv_le _ (proj1 W)) as I. fold r in R.
  assert (NZ : B2R w <> 0) by (intros Z; destruct W as [L _]; rewrite Z, Rabs_R0 in L; pose proof (bpow_gt_0 radix2 (-200)); lra).
  destruct (last_near x w FX FW W X) as [M MB]. fold r in M. destruct (fneg_val y FY) as [FN VN]. pose proof (half_near h FH) as HH. pose proof (half_near (fneg y) FN) as HY. rewrite VN in HY.
  pose proof (half_le _ _ H) as HB. assert (YB : Rabs (- B2R y * (1 / 2)) <= bpow radix2 200) by (apply half_le; rewrite Rabs_Ropp; exact Y).
  assert (AB : Rabs (1 / B2R w * (B2R h * (1 / 2))) <= bpow radix2 400) by (apply (mul_le _ _ 200 200); assumption).
  assert (BB : Rabs (- (B2R x * (1 / B2R w)) * (1 / B2R w) * (- B2R y * (1 / 2))) <= bpow radix2 800) by (apply (mul_le _ _ 600 200); assumption).
  destruct (near_mul _ _ _ _ _ _ _ _ (bpow radix2 (-875)) (near_one_mul _ _ _ _ R) HH ltac:(lra) ltac:(lra) ltac:(lra) ltac:(lra)) as [FA EA];
  [assert (eta * Rabs (1 / B2R w) <= bpow radix2 (-875)) by (apply Rle_trans with (eta * bpow radix2 200); [apply Rmult_le_compat_l; lra|]; rewrite eta_times; apply bpow_le; lia); lra
  |apply room_le; lia|apply Rle_trans with (1 := AB); apply room_le; lia|].
  destruct (near_mul _ _ _ _ _ _ _ _ (bpow radix2 (-473)) M HY ltac:(lra) ltac:(lra) ltac:(apply bpow_ge_0) ltac:(lra)) as [FB EB].
  { assert (T1 : bpow radix2 (-874) * Rabs (- B2R y * (1 / 2)) <= bpow radix2 (-674)) by (apply Rle_trans with (bpow radix2 (-874) * bpow radix2 200); [apply Rmult_le_compat_l; [apply bpow_ge_0|exact YB]|rewrite bp; apply bpow_le; lia]).
    assert (T2 : eta * Rabs (- (B2R x * (1 / B2R w)) * (1 / B2R w)) <= bpow radix2 (-475)) by (apply Rle_trans with (eta * bpow radix2 600); [apply Rmult_le_compat_l; [lra|exact MB]|rewrite bp; apply bpow_le; lia]).
    assert (T3 : bpow radix2 (-874) * eta <= bpow radix2 (-674)) by (rewrite bp; apply bpow_le; lia).
    assert (bpow radix2 (-674) <= bpow radix2 (-475)) by (apply bpow_le; lia). replace (bpow radix2 (-473)) with (4 * bpow radix2 (-475)) by (change (-473)%Z with (2 + -475)%Z; rewrite bpow_plus; reflexivity). pose proof (bpow_gt_0 radix2 (-475)). lra. }
  { apply room_le; lia. } { apply Rle_trans with (1 := BB); apply room_le; lia. }
  fold a in FA, EA. fold b in FB, EB.
  replace (1 / B2R w * (B2R h * (1 / 2))) with (c / 2) in EA, AB by (unfold c; field; exact NZ).
  replace (- (B2R x * (1 / B2R w)) * (1 / B2R w) * (- B2R y * (1 / 2))) with (d / 2) in EB, BB by (unfold d; field; exact NZ).
  assert (C2 : Rabs (c / 2) = Rabs c / 2) by (unfold Rdiv; rewrite Rabs_mult, (Rabs_pos_eq (/ 2)) by lra; reflexivity). assert (D2 : Rabs (d / 2) = Rabs d / 2) by (unfold Rdiv; rewrite Rabs_mult, (Rabs_pos_eq (/ 2)) by lra; reflexivity).
  rewrite C2 in EA, AB. rewrite D2 in EB, BB. pose proof (Rabs_pos c) as C0. pose proof (Rabs_pos d) as D0. set (C := Rabs c) in *. set (D := Rabs d) in *.
  assert (E470 : bpow radix2 (-470) = 8 * bpow radix2 (-473)) by (change (-470)%Z with (3 + -473)%Z; rewrite bpow_plus; reflexivity). pose proof (bpow_gt_0 radix2 (-473)) as P473.
  assert (E875 : bpow radix2 (-875) <= / 1000 * bpow radix2 (-473)). { apply Rle_trans with (bpow radix2 (-10) * bpow radix2 (-473)); [rewrite bp; apply bpow_le; lia|]. apply Rmult_le_compat_r; [lra|]. cbn. lra. }
  assert (EE : eta <= / 1000 * bpow radix2 (-473)). { apply Rle_trans with (bpow radix2 (-10) * bpow radix2 (-473)); [rewrite bp; apply bpow_le; lia|]. apply Rmult_le_compat_r; [lra|]. cbn. lra. }
  set (q := bpow radix2 (-473)) in *. assert (q1 : q <= / 1000) by (apply Rle_trans with (bpow radix2 (-10)); [apply bpow_le; lia|cbn; lra]).
  assert (UC : 0 <= u * C) by (apply Rmult_le_pos; lra). assert (UD : 0 <= u * D) by (apply Rmult_le_pos; lra).
  assert (EA' : Rabs (B2R a - c / 2) <= 1002 / 1000 * (u * C) + / 100 * q) by lra.
  assert (EB' : Rabs (B2R b - d / 2) <= 251 / 100 * (u * D) + 103 / 100 * q) by lra.
  assert (UC' : u * C <= / 10 ^ 10 * C) by (apply Rmult_le_compat_r; [lra|rewrite UV; lra]). assert (UD' : u * D <= / 10 ^ 10 * D) by (apply Rmult_le_compat_r; [lra|rewrite UV; lra]).
  assert (AS : Rabs (B2R a) <= C / 2 + 2 * (u * C) + q). { replace (B2R a) with ((B2R a - c / 2) + c / 2) by ring. apply Rle_trans with (1 := Rabs_triang _ _). rewrite C2. fold C. lra. }
  assert (BS : Rabs (B2R b) <= D / 2 + 3 * (u * D) + 2 * q). { replace (B2R b) with ((B2R b - d / 2) + d / 2) by ring. apply Rle_trans with (1 := Rabs_triang _ _). rewrite D2. fold D. lra. }
  split; [exact FA|]. split; [exact FB|]. split.
  { assert (B1 : bpow radix2 400 <= bpow radix2 800) by (apply bpow_le; lia). assert (B2 : bpow radix2 1000 >= 1024 * bpow radix2 800). { apply Rle_ge. change 1024 with (bpow radix2 10). rewrite bp. apply bpow_le. lia. }
    assert (B3 : 1 <= bpow radix2 800) by (change 1 with (bpow radix2 0); apply bpow_le; lia). lra. }
  pose proof (rnd_err (B2R a + B2R b)) as RE. pose proof (Rabs_triang (B2R a) (B2R b)) as TR.
  assert (US : u * Rabs (B2R a + B2R b) <= u * ((C + D) / 2 + 3 / 10 ^ 10 * (C + D) + 3 * q)) by (apply Rmult_le_compat_l; lra).
  assert (UQ : u * q <= / 1000 * q) by (apply Rmult_le_compat_r; [lra|rewrite UV; lra]).
  replace (rnd (B2R a + B2R b) - (c + d) / 2) with ((rnd (B2R a + B2R b) - (B2R a + B2R b)) + (B2R a - c / 2) + (B2R b - d / 2)) by field. apply Rle_trans with (1 := Rabs_triang _ _).
  pose proof (Rabs_triang (rnd (B2R a + B2R b) - (B2R a + B2R b)) (B2R a - c / 2)) as T2. lra.
Qed.
(** toEuclideanAndJacobian: the point is that of toEuclidean, and every entry of the Jacobian, in any order of summation, is right to four roundings of 1 + |X|^2, whatever the scale of
    the point (between 2^-200 and 2^200). *)
Theorem euclidean_jacobian_accurate_partial o p : orders_ok o -> in_range p ->
  let X := euclid p in
  fst (fhp_toEuclideanAndJacobian o p) = fhp_toEuclidean p /\
  forall i j, (i < 3)%nat -> (j < 3)%nat -> let x := fent33 (snd (fhp_toEuclideanAndJacobian o p)) i j in
    is_finite x = true /\ Rabs (B2R x - oplus_euclid X i j) <= 4 * u * (1 + dot3 X X).
Proof.
  intros O ((F0 & F1 & F2 & F3') & W & X0 & X1 & X2) X. split; [reflexivity|]. intros i j I J x. pose proof u53_pos as UP. pose proof u_val as UV.
  set (w := f3 p) in *. set (r := fdiv fone w).
  assert (NZ : B2R w <> 0) by (intros Z; destruct W as [L _]; rewrite Z, Rabs_R0 in L; pose proof (bpow_gt_0 radix2 (-200)); lra).
  assert (FR : is_finite r = true) by apply (recip_near w F3' W). destruct half_val as [_ FH].
  assert (ZR : zr (fmul fzero r)) by (apply zr_mul_l; [split; reflexivity|exact FR]).
  assert (ZH : forall c, is_finite c = true -> zr (fmul (fmul fzero r) (fmul c fhalf))) by (intros c Fc; apply zr_mul_l; [exact ZR|]; apply half_computed; exact Fc).
  destruct (fneg_val (f0 p) F0) as [G0 V0]. destruct (fneg_val (f1 p) F1) as [G1 V1]. destruct (fneg_val (f2 p) F2) as [G2 V2].
  assert (N0 : Rabs (B2R (fneg (f0 p))) <= bpow radix2 200) by (rewrite V0, Rabs_Ropp; exact X0). assert (N1 : Rabs (B2R (fneg (f1 p))) <= bpow radix2 200) by (rewrite V1, Rabs_Ropp; exact X1). assert (N2 : Rabs (B2R (fneg (f2 p))) <= bpow radix2 200) by (rewrite V2, Rabs_Ropp; exact X2).
  assert (EX : x = fentry (o i j) (fread_jacobian (fhp_toEuclidean p) r) (fhp_toHomogeneousJ p) i j).
  { destruct i as [|[|[|]]]; [| | |lia]; (destruct j as [|[|[|]]]; [| | |lia]); reflexivity. }
  rewrite EX. clear x EX. unfold fentry. set (f := fun k => _).
  set (hx := match i, j with 0, 0 => w | 0, 1 => fneg (f2 p) | 0, _ => f1 p | 1, 0 => f2 p | 1, 1 => w | 1, _ => fneg (f0 p) | _, 0 => fneg (f1 p) | _, 1 => f0 p | _, _ => w end%nat).
  set (xi := fat4 p i). set (xj := fat4 p j).
  assert (FHX : is_finite hx = true /\ Rabs (B2R hx) <= bpow radix2 200). { unfold hx. destruct W as [_ W1]. destruct i as [|[|[|]]]; [| | |lia]; (destruct j as [|[|[|]]]; [| | |lia]); split; assumption. }
  assert (FXI : is_finite xi = true /\ Rabs (B2R xi) <= bpow radix2 200). { unfold xi. destruct i as [|[|[|]]]; [| | |lia]; split; assumption. }
  assert (FXJ : is_finite xj = true /\ Rabs (B2R xj) <= bpow radix2 200). { unfold xj. destruct j as [|[|[|]]]; [| | |lia]; split; assumption. }
  assert (EI : f i = fmul (fmul fone r) (fmul hx fhalf)). { unfold f, hx. destruct i as [|[|[|]]]; [| | |lia]; (destruct j as [|[|[|]]]; [| | |lia]); reflexivity. }
  assert (E3 : f 3%nat = fmul (fmul (fneg (fmul xi r)) r) (fmul (fneg xj) fhalf)). { unfold f, xi, xj. destruct i as [|[|[|]]]; [| | |lia]; (destruct j as [|[|[|]]]; [| | |lia]); reflexivity. }
  destruct FHX as [FHX HXB], FXI as [FXI XIB], FXJ as [FXJ XJB]. pose proof (entry_num w xi xj hx F3' FXI FXJ FHX W XIB XJB HXB) as K. cbv zeta in K. fold r in K. rewrite <- EI, <- E3 in K. destruct K as (FA & FB & SZ & ER).
  destruct (sum_two_all f i 3%nat ltac:(lia) FA FB SZ (o i j) (O i j) ltac:(lia) ltac:(lia)) as [F V].
  { intros k K NI N3. unfold f. destruct i as [|[|[|]]]; [| | |lia]; (destruct k as [|[|[|[|]]]]; try lia; try congruence); (destruct j as [|[|[|]]]; [| | |lia]); cbn [row34 fread_jacobian z0 z1 z2 fat4 f0 f1 f2 f3 row43 fhp_toHomogeneousJ w0 w1 w2 w3 fat3 fx fy fz]; apply ZH; assumption. }
  split; [exact F|]. rewrite V. set (c := B2R hx / B2R w) in *. set (d := B2R xi / B2R w * (B2R xj / B2R w)) in *.
  assert (EQ : oplus_euclid X i j = (c + d) / 2).
  { unfold oplus_euclid, X, euclid, c, d, hx, xi, xj, ent33, at3. fold w. destruct i as [|[|[|]]]; [| | |lia]; (destruct j as [|[|[|]]]; [| | |lia]); cbn; rewrite ?V0, ?V1, ?V2; field; exact NZ. }
  rewrite EQ. apply Rle_trans with (1 := ER).
  assert (CB : Rabs c + Rabs d <= 1 + dot3 X X).
  { assert (SQ : forall a b e, Rabs a * Rabs a = a * a /\ (0 <= a * a /\ 0 <= b * b /\ 0 <= e * e)) by (intros; split; [rewrite <- Rabs_mult; apply Rabs_pos_eq; nra|nra]).
    assert (AG : forall a b e, Rabs e + Rabs (a * b) <= 1 + (a * a + b * b + e * e)).
    { intros a b e. rewrite Rabs_mult. destruct (SQ a b e) as (A & S1 & S2 & S3). destruct (SQ b b e) as (B & _). destruct (SQ e b e) as (E & _). revert A B E. generalize (Rabs a) (Rabs b) (Rabs e). intros a' b' e' A B E. pose proof (Rle_0_sqr (a' - b')) as Q1. pose proof (Rle_0_sqr (e' - / 2)) as Q2. unfold Rsqr in *. lra. }
    assert (DG : forall a b e, 1 + Rabs (a * a) <= 1 + (a * a + b * b + e * e)) by (intros a b e; rewrite Rabs_pos_eq by nra; nra).
    assert (W1 : B2R w / B2R w = 1) by (field; exact NZ). assert (NEG : forall a, Rabs (- a / B2R w) = Rabs (a / B2R w)) by (intros a; replace (- a / B2R w) with (- (a / B2R w)) by (field; exact NZ); apply Rabs_Ropp).
    unfold X, euclid, dot3, c, d, hx, xi, xj. fold w. cbn [vx vy vz]. set (xx := B2R (f0 p) / B2R w). set (yy := B2R (f1 p) / B2R w). set (zz := B2R (f2 p) / B2R w).
    destruct i as [|[|[|]]]; [| | |lia]; (destruct j as [|[|[|]]]; [| | |lia]); cbn [fat4]; rewrite ?V0, ?V1, ?V2, ?NEG, ?W1, ?Rabs_R1; fold xx yy zz;
    (try (pose proof (DG xx yy zz); pose proof (DG yy xx zz); pose proof (DG zz xx yy); lra));
    pose proof (AG xx yy zz); pose proof (AG yy xx zz); pose proof (AG xx zz yy); pose proof (AG zz xx yy); pose proof (AG yy zz xx); pose proof (AG zz yy xx); lra. }
  assert (D0 : 1 <= 1 + dot3 X X) by (pose proof (Rabs_pos c); pose proof (Rabs_pos d); unfold dot3; nra).
  set (M := 1 + dot3 X X) in *. assert (UM : u * (Rabs c + Rabs d) <= u * M) by (apply Rmult_le_compat_l; lra). assert (T : bpow radix2 (-470) <= / 100 * (u * M)).
  { apply Rle_trans with (bpow radix2 (-10) * u); [rewrite bp; apply bpow_le; lia|]. assert (bpow radix2 (-10) <= / 100) by (cbn; lra). assert (u * 1 <= u * M) by (apply Rmult_le_compat_l; lra). assert (bpow radix2 (-10) * u <= / 100 * u) by (apply Rmult_le_compat_r; lra). lra. }
  assert (UM0 : 0 <= u * M) by (apply Rmult_le_pos; lra). lra.
Qed.

(** ** fromHomogeneous with its Jacobian *)
(** The same point as toEuclidean; on the diagonal the rounded reciprocal of the scale, zeros beside it, and in the last column minus the point over the scale to five roundings. *)
Theorem from_homogeneous_jacobian_partial p : in_range p -> 
  let w := B2R (f3 p) in let X := euclid p in
  fst (ffromHomogeneous p) = fhp_toEuclidean p /\
  forall i j, (i < 3)%nat -> (j < 4)%nat -> let x := fat4 (row34 (snd (ffromHomogeneous p)) i) j in
    is_finite x = true /\
    (i = j -> Rabs (B2R x - 1 / w) <= u * Rabs (1 / w)) /\ (i <> j -> j <> 3%nat -> B2R x = 0) /\
    (j = 3%nat -> Rabs (B2R x - - (at3 X i / w)) <= 5 * u * Rabs (at3 X i / w) + bpow radix2 (-874)).
Proof.
  intros ((F0 & F1 & F2 & F3') & W & X0 & X1 & X2) w X. split; [reflexivity|]. intros i j I J x. pose proof u53_pos as UP.
  pose proof (recip_near (f3 p) F3' W) as R. set (r := fdiv fone (f3 p)) in *. fold w in R.
  assert (NZ : w <> 0) by (intros Z; unfold w in Z; destruct W as [L _]; rewrite Z, Rabs_R0 in L; pose proof (bpow_gt_0 radix2 (-200)); lra).
  assert (ZR : zr (fmul fzero r)) by (apply zr_mul_l; [split; reflexivity|apply R]).
  pose proof (near_one_mul _ _ _ _ R) as [FO EO].
  assert (L : forall c, is_finite c = true -> Rabs (B2R c) <= bpow radix2 200 -> let y := fmul (fneg (fmul c r)) r in is_finite y = true /\ Rabs (B2R y - - (B2R c / w / w)) <= 5 * u * Rabs (B2R c / w / w) + bpow radix2 (-874)).
  { intros c Fc Bc y. destruct (last_near c (f3 p) Fc F3' W Bc) as [[NF NE] _]. fold r y w in NF, NE. split; [exact NF|]. replace (- (B2R c * (1 / w)) * (1 / w)) with (- (B2R c / w / w)) in NE by (field; exact NZ). rewrite Rabs_Ropp in NE.
    set (Q := Rabs (B2R c / w / w)) in *. assert (0 <= u * Q) by (apply Rmult_le_pos; [lra|apply Rabs_pos]). lra. }
  assert (EX : x = (if Nat.eqb j 3 then fmul (fneg (fmul (fat4 p i) r)) r else if Nat.eqb i j then fmul fone r else fmul fzero r)).
  { destruct i as [|[|[|]]]; [| | |lia]; (destruct j as [|[|[|[|]]]]; [| | | |lia]); reflexivity. }
  rewrite EX. clear x EX. destruct (Nat.eqb_spec j 3) as [E3|N3].
  - assert (FI : is_finite (fat4 p i) = true /\ Rabs (B2R (fat4 p i)) <= bpow radix2 200) by (destruct i as [|[|[|]]]; [| | |lia]; split; assumption). destruct FI as [FI BI]. destruct (L _ FI BI) as [FF E].
    split; [exact FF|]. split; [intros; lia|]. split; [intros; lia|]. intros _. replace (at3 X i) with (B2R (fat4 p i) / w) by (destruct i as [|[|[|]]]; [| | |lia]; reflexivity). exact E.
  - destruct (Nat.eqb_spec i j) as [EQ|NE].
    + split; [exact FO|]. split; [intros _; lra|]. split; [intros; congruence|intros; lia].
    + destruct ZR as [FZ VZ]. split; [exact FZ|]. split; [intros; congruence|]. split; [intros _ _; exact VZ|intros; lia].
Qed.
(** For a Euclidean point (scale one) the Jacobian is exactly [I | -p], bit for bit, infinities and NaN included. *)
Theorem from_homogeneous_jacobian_euclidean v : ffromHomogeneous (fhp_of v) = (v, mkF34 (mkF4 fone fzero fzero (fneg (fx v))) (mkF4 fzero fone fzero (fneg (fy v))) (mkF4 fzero fzero fone (fneg (fz v)))).
Proof.
  unfold ffromHomogeneous, fread_jacobian. assert (E : fhp_toEuclidean (fhp_of v) = v) by (unfold fhp_toEuclidean, fhp_of; cbn [f0 f1 f2 f3]; rewrite one_div_one, !fmul_one; now destruct v).
  rewrite E. unfold fhp_of. cbn [f3]. unfold fone. rewrite one_div_one, !fmul_one. reflexivity.
Qed.

(** ** what goes wrong *)
Lemma tiny_recip w : is_finite w = true -> Rabs (B2R w) <= bpow radix2 (-1024) -> no_number (fdiv fone w).
Proof.
  intros F L. destruct (Req_dec (B2R w) 0) as [Z|NZ]; [now apply nf_div_zero|]. destruct one_facts as (V & FO & _). unfold fone in *.
  pose proof (Bdiv_correct 53 1024 _ _ mode_NE (fofZ 1) w NZ) as K. cbn [round_mode] in K. rewrite V in K.
  assert (G : bpow radix2 1024 <= Rabs (rnd (1 / B2R w))).
  { rewrite <- (Rabs_pos_eq (bpow radix2 1024)) by apply bpow_ge_0. rewrite (Rabs_pos_eq (bpow radix2 1024)) by apply bpow_ge_0.
    apply abs_round_ge_generic; [typeclasses eauto|typeclasses eauto|apply generic_format_bpow; unfold SpecFloat.fexp, SpecFloat.emin; lia|].
    unfold Rdiv. rewrite Rmult_1_l, Rabs_inv. replace (bpow radix2 1024) with (/ bpow radix2 (-1024)) by (rewrite <- bpow_opp; reflexivity). apply Rinv_le; [now apply Rabs_pos_lt|exact L]. }
  rewrite Rlt_bool_false in K by exact G. unfold no_number, fdiv. destruct (Bdiv mode_NE (fofZ 1) w) as [s|s| |s m e h]; try reflexivity; cbn in K; discriminate K.
Qed.
Lemma nf_sum f t j : In j (leaves t) -> no_number (f j) -> no_number (fsum_tree f t).
Proof.
  induction t as [k|l IHl r IHr]; cbn [leaves fsum_tree]; intros H N.
  - destruct H as [-> | []]. exact N.
  - apply in_app_iff in H as [H|H]; [apply nf_add_l; auto|apply nf_add_r; auto].
Qed.
(** A scale of at most 2^-1024, zero included: not one entry of either Jacobian is a number, although the exact Jacobian of oplus does not depend on the scale. *)
Theorem tiny_scale_jacobian_refuted o p : orders_ok o -> is_finite (f3 p) = true -> Rabs (B2R (f3 p)) <= bpow radix2 (-1024) ->
  (forall i j, (i < 3)%nat -> (j < 3)%nat -> no_number (fent33 (snd (fhp_toEuclideanAndJacobian o p)) i j)) /\
  (forall i j, (i < 3)%nat -> (j < 4)%nat -> no_number (fat4 (row34 (snd (ffromHomogeneous p)) i) j)).
Proof.
  intros O F L. pose proof (tiny_recip _ F L) as N.
  assert (E : forall i j, (i < 3)%nat -> (j < 4)%nat -> no_number (fat4 (row34 (fread_jacobian (fhp_toEuclidean p) (fdiv fone (f3 p))) i) j)).
  { intros i j I J. destruct i as [|[|[|]]]; [| | |lia]; (destruct j as [|[|[|[|]]]]; [| | | |lia]); cbn [row34 fread_jacobian z0 z1 z2 fat4 f0 f1 f2 f3]; apply nf_mul_r; exact N. }
  split; [|exact E]. intros i j I J. assert (EX : fent33 (snd (fhp_toEuclideanAndJacobian o p)) i j = fentry (o i j) (fread_jacobian (fhp_toEuclidean p) (fdiv fone (f3 p))) (fhp_toHomogeneousJ p) i j).
  { destruct i as [|[|[|]]]; [| | |lia]; (destruct j as [|[|[|]]]; [| | |lia]); reflexivity. }
  rewrite EX. unfold fentry. apply (nf_sum _ _ 3%nat); [apply (Permutation_in _ (Permutation_sym (O i j))); cbn [In]; lia|]. apply nf_mul_l. apply E; [exact I|lia].
Qed.
(** The point whose four coefficients are the smallest positive double (the Euclidean point (1, 1, 1)): every entry of the Jacobian of oplus in homogeneous
    coordinates is computed as zero; none is zero. *)
Definition tiny4 : F4 := mkF4 (flit 1 (-1074)) (flit 1 (-1074)) (flit 1 (-1074)) (flit 1 (-1074)).
Lemma tiny_value : B2R (flit 1 (-1074)) = bpow radix2 (-1074) /\ is_finite (flit 1 (-1074)) = true.
Proof.
  assert (S : B2SF (flit 1 (-1074)) = SpecFloat.S754_finite false 1 (-1074)) by (vm_compute; reflexivity).
  destruct (flit 1 (-1074)) as [s|s| |s m e h]; try discriminate S. injection S as -> -> ->. split; [|reflexivity]. unfold B2R, F2R. cbn [Fnum Fexp cond_Zopp]. apply Rmult_1_l.
Qed.
Lemma zero_float (x : f64) s : B2SF x = SpecFloat.S754_zero s -> B2R x = 0. Proof. destruct x; try discriminate. reflexivity. Qed.
Theorem tiny_point_jacobian_refuted : finite4 tiny4 /\ euclid tiny4 = V3 1 1 1 /\
  forall i j, (i < 4)%nat -> (j < 3)%nat -> B2R (fat3 (row43 (fhp_toHomogeneousJ tiny4) i) j) = 0 /\ ent43 (hp_toHomogeneousJ (val4 tiny4)) i j <> 0.
Proof.
  destruct tiny_value as [V F]. pose proof (bpow_gt_0 radix2 (-1074)) as P. split; [repeat split; exact F|]. split.
  { unfold euclid, tiny4. cbn [f0 f1 f2 f3]. rewrite V. f_equal; field; lra. }
  intros i j I J. split.
  - destruct i as [|[|[|[|]]]]; [| | | |lia]; (destruct j as [|[|[|]]]; [| | |lia]); (eapply zero_float; vm_compute; reflexivity).
  - unfold ent43, hp_toHomogeneousJ, val4, tiny4, at3. cbn [f0 f1 f2 f3 e0 e1 e2 e3]. rewrite V. destruct i as [|[|[|[|]]]]; [| | | |lia]; (destruct j as [|[|[|]]]; [| | |lia]); cbn [s0 s1 s2 s3 vx vy vz]; lra.
Qed.

(** ** the hypotheses can be met *)
Definition sums4 : nat -> nat -> stree := fun _ _ => SAdd (SAdd (SLeaf 0) (SLeaf 1)) (SAdd (SLeaf 2) (SLeaf 3)).
Example hom_jacobian_met : orders_ok sums4 /\ in_range (mkF4 (fofZ 5) (fofZ (-7)) (fofZ 9) (fofZ 2)) /\ halvable (fofZ 5) /\ halvable (fofZ 0) /\ Rabs (B2R (f3 tiny4)) <= bpow radix2 (-1024).
Proof.
  assert (B : 1024 <= bpow radix2 200) by (change 1024 with (bpow radix2 10); apply bpow_le; lia). assert (B' : bpow radix2 (-200) <= 1) by (change 1 with (bpow radix2 0); apply bpow_le; lia).
  destruct (fofZ_correct 2 ltac:(lia)) as [V2 F2]. destruct (fofZ_correct 5 ltac:(lia)) as [V5 F5]. destruct (fofZ_correct (-7) ltac:(lia)) as [V7 F7]. destruct (fofZ_correct 9 ltac:(lia)) as [V9 F9]. destruct (fofZ_correct 0 ltac:(lia)) as [V0 _].
  split; [intros i j; apply Permutation_refl|]. split; [|split; [|split]].
  - split; [repeat split; assumption|]. cbn [f0 f1 f2 f3]. rewrite V2, V5, V7, V9, (Rabs_pos_eq 2), (Rabs_pos_eq 5), (Rabs_pos_eq 9), (Rabs_left (-7)) by lra. lra.
  - right. rewrite V5, Rabs_pos_eq by lra. apply Rle_trans with (bpow radix2 0); [apply bpow_le; lia|cbn; lra].
  - left. exact V0.
  - unfold tiny4. cbn [f3]. rewrite (proj1 tiny_value), Rabs_pos_eq by apply bpow_ge_0. apply bpow_le. lia.
Qed.
