From Verif Require Import Float64 NumCmp_Model.

Lemma ext_fmax x y : is_nan x = false -> is_nan y = false ->
  ext (fmax x y) = Rmax (ext x) (ext y) /\ is_nan (fmax x y) = false.
Proof.
  intros Nx Ny. unfold fmax. pose proof (fltb_ext x y Nx Ny) as H.
  destruct (fltb x y).
  - split; auto. rewrite Rmax_right; auto. apply Rlt_le, H; auto.
  - split; auto. rewrite Rmax_left; auto. destruct (Rlt_le_dec (ext x) (ext y)) as [L|L]; auto.
    apply H in L. discriminate.
Qed.

Lemma fmax_finite x y : is_finite x = true -> is_finite y = true -> is_finite (fmax x y) = true.
Proof. intros. unfold fmax. destruct (fltb x y); auto. Qed.

Lemma eps_ok eps : is_finite eps = true -> 0 < B2R eps -> assert_GT eps fzero = false.
Proof.
  intros F P. unfold assert_GT. destruct (fleb eps fzero) eqn:E; auto.
  apply fleb_ext in E; [|apply is_nan_finite; auto|reflexivity].
  rewrite ext_finite in E by auto. cbn in E. lra.
Qed.

Lemma eps_bad eps : is_nan eps = false -> ext eps <= 0 -> assert_GT eps fzero = true.
Proof. intros N P. unfold assert_GT. apply fleb_ext; auto. Qed.

(** The three comparisons on finite arguments, as comparisons of extended reals. *)
Section Cmp.
  Variables (nd : bool) (a b eps : f64).
  Hypothesis Fa : is_finite a = true.
  Hypothesis Fb : is_finite b = true.
  Hypothesis Fe : is_finite eps = true.
  Hypothesis Pe : 0 < B2R eps.

  Definition tol : R := clamp (Rmax (Rabs (B2R a)) (Rabs (B2R b)) * B2R eps).

  Lemma mte : exists m, maxTimesEpsilon nd a b eps = Some m /\ is_nan m = false /\ ext m = tol.
  Proof.
    unfold maxTimesEpsilon, guard, dbg. rewrite eps_ok by auto.
    exists (fmul (fmax (fabs a) (fabs b)) eps).
    split; [destruct nd; auto|].
    assert (Na : is_nan (fabs a) = false) by (rewrite is_nan_fabs; apply is_nan_finite; auto).
    assert (Nb : is_nan (fabs b) = false) by (rewrite is_nan_fabs; apply is_nan_finite; auto).
    destruct (ext_fmax (fabs a) (fabs b) Na Nb) as [E N].
    assert (Fm : is_finite (fmax (fabs a) (fabs b)) = true)
      by (apply fmax_finite; unfold fabs; rewrite is_finite_Babs; auto).
    destruct (fmul_ext (fmax (fabs a) (fabs b)) eps Fm Fe) as [N2 E2].
    split; auto. rewrite E2. unfold tol. rewrite <- (ext_finite _ Fm), E.
    rewrite !ext_fabs by (apply is_nan_finite; auto). rewrite !ext_finite by auto. reflexivity.
  Qed.

  Lemma tol_nonneg : 0 <= tol.
  Proof.
    unfold tol. apply clamp_nonneg. apply Rmult_le_pos; [|lra].
    apply Rle_trans with (Rabs (B2R a)); [apply Rabs_pos|apply Rmax_l].
  Qed.

  Lemma approx_iff : exists r, approximatelyEqual nd a b eps = Some r /\
    (r = true <-> Rabs (clamp (B2R a - B2R b)) <= tol).
  Proof.
    unfold approximatelyEqual. rewrite eps_ok by auto.
    destruct mte as (m & -> & Nm & Em). cbn. eexists; split; [reflexivity|].
    destruct (fsub_ext a b Fa Fb) as [N E].
    rewrite fleb_ext by (try rewrite is_nan_fabs; auto). rewrite ext_fabs, E, Em by auto. tauto.
  Qed.
  Lemma greater_iff : exists r, definitelyGreaterThan nd a b eps = Some r /\
    (r = true <-> tol < clamp (B2R a - B2R b)).
  Proof.
    unfold definitelyGreaterThan. rewrite eps_ok by auto.
    destruct mte as (m & -> & Nm & Em). cbn. eexists; split; [reflexivity|].
    destruct (fsub_ext a b Fa Fb) as [N E].
    rewrite fltb_ext by auto. rewrite E, Em. tauto.
  Qed.
  Lemma less_iff : exists r, definitelyLessThan nd a b eps = Some r /\
    (r = true <-> tol < clamp (B2R b - B2R a)).
  Proof.
    unfold definitelyLessThan. rewrite eps_ok by auto.
    destruct mte as (m & -> & Nm & Em). cbn. eexists; split; [reflexivity|].
    destruct (fsub_ext b a Fb Fa) as [N E].
    rewrite fltb_ext by auto. rewrite E, Em. tauto.
  Qed.
End Cmp.

Lemma tol_sym a b eps : tol a b eps = tol b a eps.
Proof. unfold tol. rewrite Rmax_comm. reflexivity. Qed.

Lemma bool_iff_eq (x y : bool) : (x = true <-> y = true) -> x = y.
Proof. destruct x, y; intros [H1 H2]; auto. symmetry; auto. Qed.
