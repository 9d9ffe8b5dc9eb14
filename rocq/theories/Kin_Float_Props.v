(** C135: rigid transformations in binary64.  Every expression built from transformations by multiplication and inversion, evaluated with
    doubles, stays a rotation to within a few roundings and stays close to the exact rigid motion. *)
From Coq Require Import Psatz List Permutation.
From Verif Require Import Float64 Nsec_Proofs TimerTable_Num Kin_Float_Model.
From Verif Require Import LinAlg Kin_Quat_Props Kin_Trans_Model Kin_Trans_Props Kin_Float_Geom Kin_Float_Num Kin_Quat_Model.
Import ListNotations.
Open Scope R_scope.

(** ** Specification *)
(** what a program writes: stored transformations, new ones from a quaternion and a translation, products, inverses *)
Inductive texpr := Stored (x : ftrafo) | Make (q : F4) (t : F3) | Mul (a b : texpr) | Inv (a : texpr).
(** what it computes *)
Fixpoint feval (E : eigen) (e : texpr) : ftrafo :=
  match e with Stored x => x | Make q t => ft_make E q t | Mul a b => ft_mul E (feval E a) (feval E b) | Inv a => ft_inverse E (feval E a) end.
(** what it means: rigid motions in exact arithmetic, the quaternions at the leaves scaled to length one *)
Fixpoint exact (e : texpr) : trafo :=
  match e with
  | Stored x => tf_make (val4 (fq x)) (val3 (ft x)) | Make q t => tf_make (val4 q) (val3 t)
  | Mul a b => tf_mul (exact a) (exact b) | Inv a => tf_inverse (exact a)
  end.
(** a quaternion of length one up to eight roundings; finite coefficients *)
Definition near_unit (q : F4) : Prop := finite4 q /\ Rabs (norm4 (val4 q) - 1) <= 8 * u.
(** the leaves: stored transformations have quaternions of length one; the constructor normalises any quaternion whose length is neither tiny nor huge *)
Fixpoint good (e : texpr) : Prop :=
  match e with
  | Stored x => near_unit (fq x) /\ finite3 (ft x) | Make q t => normal_range q /\ finite3 t
  | Mul a b => good a /\ good b | Inv a => good a
  end.
(** number of nodes, nesting of inversions, total length of the translations *)
Fixpoint ops (e : texpr) : R := match e with Stored _ => 1 | Make _ _ => 1 | Mul a b => ops a + ops b + 1 | Inv a => ops a + 1 end.
Fixpoint depth (e : texpr) : R := match e with Stored _ => 0 | Make _ _ => 0 | Mul a b => Rmax (depth a) (depth b) | Inv a => depth a + 1 end.
Fixpoint path (e : texpr) : R := match e with Stored x => norm3 (val3 (ft x)) | Make _ t => norm3 (val3 t) | Mul a b => path a + path b | Inv a => path a end.
Definition weight (e : texpr) : R := ops e * (1 + depth e).

(** ** the exact side *)
Lemma near_pos q : near_unit q -> 99 / 100 <= norm4 (val4 q) <= 1001 / 1000.
Proof. intros [_ H]. apply Rabs_le_inv in H. rewrite u_val in H. lra. Qed.
Lemma exact_unit e : good e -> unit4 (tq (exact e)).
Proof.
  induction e as [x|q t|a IHa b IHb|a IHa]; cbn [good exact].
  - intros [N _]. apply near_pos in N. apply normalize4_is_unit. lra.
  - intros [[_ [N _]] _]. apply normalize4_is_unit. pose proof (bpow_gt_0 radix2 (-400)). lra.
  - intros [A B]. unfold tf_mul, tf_make. cbn [tq]. specialize (IHa A). specialize (IHb B). rewrite normalize4_unit; now apply unit_qplus.
  - intros A. unfold tf_inverse, tf_make. cbn [tq]. specialize (IHa A). rewrite normalize4_unit; now apply unit_quatInv.
Qed.
Lemma exact_mul a b : good a -> good b -> tq (exact (Mul a b)) = qplus (tq (exact a)) (tq (exact b)).
Proof. intros A B. cbn [exact]. unfold tf_mul, tf_make. cbn [tq]. apply normalize4_unit, unit_qplus; now apply exact_unit. Qed.
Lemma exact_inv a : good a -> tq (exact (Inv a)) = quatInv (tq (exact a)).
Proof. intros A. cbn [exact]. unfold tf_inverse, tf_make. cbn [tq]. apply normalize4_unit, unit_quatInv. now apply exact_unit. Qed.
Lemma exact_path e : good e -> norm3 (tt (exact e)) <= path e.
Proof.
  induction e as [x|q t|a IHa b IHb|a IHa]; cbn [good exact path].
  - intros _. apply Rle_refl.
  - intros _. apply Rle_refl.
  - intros [A B]. unfold tf_mul, tf_make. cbn [tt]. apply Rle_trans with (1 := norm3_triangle _ _). rewrite rotation_norm by now apply exact_unit. specialize (IHa A). specialize (IHb B). lra.
  - intros A. unfold tf_inverse, tf_make. cbn [tt]. rewrite rotation_norm by now apply unit_quatInv, exact_unit. rewrite norm3_opp. auto.
Qed.
Lemma ops_one e : 1 <= ops e.
Proof. induction e; cbn [ops]; lra. Qed.
Lemma depth_pos e : 0 <= depth e.
Proof. induction e as [x|q t|a IHa b IHb|a IHa]; cbn [depth]; try lra. apply Rle_trans with (1 := IHa). apply Rmax_l. Qed.
Lemma path_pos e : 0 <= path e.
Proof. induction e as [x|q t|a IHa b IHb|a IHa]; cbn [path]; try lra; apply norm3_pos. Qed.
Lemma weight_ops e : ops e <= weight e.
Proof. unfold weight. pose proof (ops_one e). pose proof (depth_pos e). nra. Qed.
Lemma weight_mul a b : weight a + weight b + 1 <= weight (Mul a b).
Proof.
  unfold weight. cbn [ops depth]. pose proof (ops_one a). pose proof (ops_one b). pose proof (depth_pos a). pose proof (depth_pos b).
  pose proof (Rmax_l (depth a) (depth b)). pose proof (Rmax_r (depth a) (depth b)). set (d := Rmax _ _) in *.
  assert (ops a * (1 + depth a) <= ops a * (1 + d)) by (apply Rmult_le_compat_l; lra).
  assert (ops b * (1 + depth b) <= ops b * (1 + d)) by (apply Rmult_le_compat_l; lra). lra.
Qed.
Lemma weight_inv a : weight a + ops a + 1 <= weight (Inv a).
Proof. unfold weight. cbn [ops depth]. pose proof (ops_one a). pose proof (depth_pos a). nra. Qed.

(** ** one operation *)
Lemma near_short q : near_unit q -> short (val4 q).
Proof. intros N. apply near_pos in N. unfold short. lra. Qed.
Lemma ratio_range q : finite4 q -> 9 / 10 <= norm4 (val4 q) <= 11 / 10 -> normal_range q.
Proof.
  intros F [A B]. split; [exact F|]. split.
  - apply Rle_trans with (2 := A). apply Rle_trans with (bpow radix2 (-1)); [apply bpow_le; lia|cbn; lra].
  - apply Rle_trans with (1 := B). apply Rle_trans with (bpow radix2 1); [cbn; lra|apply bpow_le; lia].
Qed.
(** the constructor *)
Lemma make_near E q : eigen_ok E -> normal_range q -> near_unit (fnormalize E q) /\ dist4 (val4 (fnormalize E q)) (normalize4 (val4 q)) <= 15 / 2 * u.
Proof.
  intros OK N. destruct (fnormalize_err E q OK N) as [F D]. split; [|exact D]. split; [exact F|].
  assert (U : norm4 (normalize4 (val4 q)) = 1). { apply norm4_unit, normalize4_is_unit. destruct N as [_ [N _]]. pose proof (bpow_gt_0 radix2 (-400)). lra. }
  rewrite <- U. apply Rle_trans with (1 := dist4_norm _ _). pose proof u53_pos. lra.
Qed.
(** renormalising a quaternion close to one of length one *)
Lemma renormalise E q Q k : eigen_ok E -> finite4 q -> 0 <= k <= 1000 -> Rabs (norm4 (val4 q) - 1) <= k * u ->
  near_unit (fnormalize E q) /\ dist4 (val4 (fnormalize E q)) Q <= dist4 (val4 q) Q + (k + 15 / 2) * u.
Proof.
  intros OK F K N. assert (B : 9 / 10 <= norm4 (val4 q) <= 11 / 10).
  { assert (k * u <= 1 / 10) by (rewrite u_val; lra). apply Rabs_le_inv in N. lra. }
  destruct (make_near E q OK (ratio_range q F B)) as [NU D]. split; [exact NU|].
  pose proof (normalize4_dist (val4 q) ltac:(lra)) as Z.
  pose proof (dist4_tri (val4 (fnormalize E q)) (normalize4 (val4 q)) Q) as T1. pose proof (dist4_tri (normalize4 (val4 q)) (val4 q) Q) as T2. rewrite (dist4_sym (normalize4 (val4 q)) (val4 q)) in T2. lra.
Qed.
Lemma mul_quat E q p Q P : eigen_ok E -> near_unit q -> near_unit p -> unit4 Q -> unit4 P -> dist4 (val4 q) Q <= 1 / 100 ->
  near_unit (fnormalize E (fqplus q p)) /\ dist4 (val4 (fnormalize E (fqplus q p))) (qplus Q P) <= dist4 (val4 q) Q + dist4 (val4 p) P + 44 * u.
Proof.
  intros OK NQ NP UQ UP D. pose proof u_val as UV. pose proof u53_pos as UP0.
  destruct (fqplus_err q p (proj1 NQ) (proj1 NP) (near_short _ NQ) (near_short _ NP)) as [F Z].
  assert (NZ : Rabs (norm4 (qplus (val4 q) (val4 p)) - 1) <= 161 / 10 * u).
  { rewrite qplus_norm. destruct NQ as [_ NQ], NP as [_ NP]. set (a := norm4 (val4 q)) in *. set (b := norm4 (val4 p)) in *.
    replace (a * b - 1) with ((a - 1) * (b - 1) + (a - 1) + (b - 1)) by ring.
    apply Rle_trans with (1 := Rabs_triang _ _). pose proof (Rabs_triang ((a - 1) * (b - 1)) (a - 1)) as T. rewrite Rabs_mult in T.
    assert (Rabs (a - 1) * Rabs (b - 1) <= 8 * u * (8 * u)) by (apply Rmult_le_compat; auto; apply Rabs_pos).
    assert (8 * u * (8 * u) <= 1 / 10 * u) by (replace (8 * u * (8 * u)) with (64 * u * u) by ring; apply Rmult_le_compat_r; [lra|rewrite UV; lra]). lra. }
  assert (NF : Rabs (norm4 (val4 (fqplus q p)) - 1) <= 251 / 10 * u).
  { pose proof (dist4_norm (val4 (fqplus q p)) (qplus (val4 q) (val4 p))) as T.
    replace (norm4 (val4 (fqplus q p)) - 1) with ((norm4 (val4 (fqplus q p)) - norm4 (qplus (val4 q) (val4 p))) + (norm4 (qplus (val4 q) (val4 p)) - 1)) by ring.
    apply Rle_trans with (1 := Rabs_triang _ _). lra. }
  destruct (renormalise E _ (qplus Q P) _ OK F ltac:(split; [|apply Rle_refl]; lra) ltac:(apply Rle_trans with (1 := NF); apply Rmult_le_compat_r; lra)) as [NU _].
  destruct (renormalise E _ (qplus Q P) (251 / 10) OK F ltac:(lra) NF) as [_ D1]. split; [exact NU|].
  pose proof (dist4_tri (val4 (fqplus q p)) (qplus (val4 q) (val4 p)) (qplus Q P)) as T.
  pose proof (qplus_dist (val4 q) (val4 p) Q P) as QD. rewrite (norm4_unit Q UQ) in QD.
  assert (X : dist4 (val4 q) Q * norm4 (val4 p) <= dist4 (val4 q) Q + 1 / 10 * u).
  { destruct NP as [_ NP]. apply Rabs_le_inv in NP. pose proof (dist4_pos (val4 q) Q).
    apply Rle_trans with (dist4 (val4 q) Q * (1 + 8 * u)); [apply Rmult_le_compat_l; lra|].
    assert (dist4 (val4 q) Q * (8 * u) <= 1 / 100 * (8 * u)) by (apply Rmult_le_compat_r; lra). lra. }
  lra.
Qed.
Lemma finv_val q : val4 (fquatInv q) = quatInv (val4 q).
Proof. unfold val4, fquatInv, quatInv, fneg. cbn [f0 f1 f2 f3 e0 e1 e2 e3]. now rewrite !B2R_Bopp. Qed.
Lemma finv_near q : near_unit q -> near_unit (fquatInv q).
Proof.
  intros ((F0 & F1 & F2 & F3) & N). split; [|rewrite finv_val, norm4_quatInv; exact N].
  repeat split; unfold fquatInv, fneg; cbn [f0 f1 f2 f3]; rewrite ?is_finite_Bopp; assumption.
Qed.
Lemma fneg3_val v : val3 (fneg3 v) = opp3 (val3 v).
Proof. unfold val3, fneg3, opp3, fneg. cbn [fx fy fz vx vy vz]. now rewrite !B2R_Bopp. Qed.
Lemma fneg3_finite v : finite3 v -> finite3 (fneg3 v).
Proof. intros (A & B & C). repeat split; unfold fneg3, fneg; cbn [fx fy fz]; rewrite is_finite_Bopp; assumption. Qed.
Lemma inv_quat E q Q : eigen_ok E -> near_unit q -> 
  near_unit (fnormalize E (fquatInv q)) /\ dist4 (val4 (fnormalize E (fquatInv q))) (quatInv Q) <= dist4 (val4 q) Q + 16 * u.
Proof.
  intros OK N. destruct (finv_near q N) as [F N']. destruct (renormalise E _ (quatInv Q) 8 OK F ltac:(lra) N') as [NU D]. split; [exact NU|].
  rewrite finv_val, dist4_quatInv in D. pose proof u53_pos. lra.
Qed.

(** ** expressions *)
(** the bounds carried through the induction *)
Definition qbound (e : texpr) : R := 44 * ops e * u.
Definition tbound (e : texpr) : R := 512 * (weight e * u * path e + weight e * weight e * eta).
Definition LIMIT : R := 1073741824. (* 2^30 *)
Definition FAR : R := bpow radix2 500.
Lemma far_room : 2 * FAR + 1000 <= ROOM.
Proof.
  unfold FAR, ROOM. replace (bpow radix2 590) with (bpow radix2 90 * bpow radix2 500) by (rewrite <- bpow_plus; f_equal).
  assert (1 <= bpow radix2 500) by (change 1 with (bpow radix2 0); apply bpow_le; lia). assert (2000 <= bpow radix2 90) by (cbn; lra). nra.
Qed.
Section Bounds.
  Variable e : texpr.
  Hypothesis W : weight e <= LIMIT.
  Lemma qb_small : qbound e <= 1 / 100000.
  Proof. unfold qbound, LIMIT in *. pose proof (weight_ops e). rewrite u_val. lra. Qed.
  Lemma tb_small : tbound e <= 1 / 10000 * path e + 512 * (weight e * weight e * eta).
  Proof.
    unfold tbound. assert (K : 512 * (weight e * u) <= 1 / 10000) by (unfold LIMIT in W; rewrite u_val; lra).
    pose proof (Rmult_le_compat_r _ _ _ (path_pos e) K). lra.
  Qed.
  Lemma ww_small : 512 * (weight e * weight e * eta) <= 1.
  Proof.
    pose proof (weight_ops e). pose proof (ops_one e). pose proof eta_pos. unfold LIMIT in W.
    assert (K : weight e * weight e <= 1073741824 * 1073741824) by (apply Rmult_le_compat; lra).
    assert (eta <= bpow radix2 (-100)) by (apply bpow_le; lia). replace (bpow radix2 (-100)) with (/ 1267650600228229401496703205376) in * by (cbn; lra).
    assert (weight e * weight e * eta <= 1073741824 * 1073741824 * eta) by (apply Rmult_le_compat_r; lra). lra.
  Qed.
  Lemma uww_small : u * (512 * (weight e * weight e * eta)) <= / 10000 * (weight e * eta).
  Proof.
    pose proof (weight_ops e). pose proof (ops_one e). pose proof eta_pos. unfold LIMIT in W.
    replace (u * (512 * (weight e * weight e * eta))) with ((512 * (weight e * u)) * (weight e * eta)) by ring.
    apply Rmult_le_compat_r; [apply Rmult_le_pos; lra|]. rewrite u_val. lra.
  Qed.
End Bounds.
Lemma expression_inv E e : eigen_ok E -> good e -> weight e <= LIMIT -> path e <= FAR ->
  near_unit (fq (feval E e)) /\ finite3 (ft (feval E e)) /\
  dist4 (val4 (fq (feval E e))) (tq (exact e)) <= qbound e /\ dist3 (val3 (ft (feval E e))) (tt (exact e)) <= tbound e.
Proof.
  intros OK. pose proof u53_pos as UP. pose proof eta_pos as EP. pose proof far_room as FR.
  induction e as [x|q t|a IHa b IHb|a IHa]; intros G W P.
  - destruct G as [N F]. cbn [feval exact]. split; [exact N|]. split; [exact F|]. unfold tf_make. cbn [tq tt]. split.
    + rewrite normalize4_dist by (apply near_pos in N; lra). destruct N as [_ N]. unfold qbound. cbn [ops]. lra.
    + rewrite dist3_refl. unfold tbound, weight. cbn [ops depth path]. pose proof (norm3_pos (val3 (ft x))). nra.
  - destruct G as [N F]. cbn [feval exact]. unfold ft_make, tf_make. cbn [fq ft tq tt]. destruct (make_near E q OK N) as [NU D].
    split; [exact NU|]. split; [exact F|]. split.
    + unfold qbound. cbn [ops]. lra.
    + rewrite dist3_refl. unfold tbound, weight. cbn [ops depth path]. pose proof (norm3_pos (val3 t)). nra.
  - destruct G as [Ga Gb]. pose proof (weight_mul a b) as WM. pose proof (weight_ops a) as WOa. pose proof (weight_ops b) as WOb. pose proof (ops_one a) as Oa. pose proof (ops_one b) as Ob.
    assert (Wa : weight a <= LIMIT) by lra. assert (Wb : weight b <= LIMIT) by lra. cbn [path] in P. pose proof (path_pos a) as Pa. pose proof (path_pos b) as Pb.
    specialize (IHa Ga Wa ltac:(lra)). specialize (IHb Gb Wb ltac:(lra)). destruct IHa as (Na & Fa & Da & Ta), IHb as (Nb & Fb & Db & Tb).
    pose proof (exact_unit a Ga) as Ua. pose proof (exact_unit b Gb) as Ub.
    set (x := feval E a) in *. set (y := feval E b) in *. cbn [feval]. fold x. fold y. unfold ft_mul, ft_make. cbn [fq ft].
    pose proof (qb_small a Wa) as QA. pose proof (tb_small a Wa) as SA. pose proof (tb_small b Wb) as SB. pose proof (ww_small a Wa) as WWa. pose proof (ww_small b Wb) as WWb.
    pose proof (uww_small a Wa) as UWa. pose proof (uww_small b Wb) as UWb.
    destruct (mul_quat E (fq x) (fq y) (tq (exact a)) (tq (exact b)) OK Na Nb Ua Ub ltac:(lra)) as [NU D].
    pose proof (exact_path a Ga) as XA. pose proof (exact_path b Gb) as XB.
    pose proof (dist3_norm (val3 (ft x)) (tt (exact a))) as NA. pose proof (dist3_norm (val3 (ft y)) (tt (exact b))) as NB.
    destruct (frotate_add_err (fq x) (ft y) (ft x) (proj1 Na) Fb Fa (near_short _ Na) ltac:(lra) ltac:(lra)) as [FT R].
    split; [exact NU|]. split; [exact FT|]. split.
    + rewrite exact_mul by auto. unfold qbound in *. cbn [ops]. lra.
    + cbn [exact]. unfold tf_mul, tf_make. cbn [tt].
      pose proof (dist3_tri (val3 (fadd3 (fquatRotate (fq x) (ft y)) (ft x))) (add3 (quatRotate (val4 (fq x)) (val3 (ft y))) (val3 (ft x))) (add3 (quatRotate (tq (exact a)) (tt (exact b))) (tt (exact a)))) as T1.
      pose proof (dist3_add (quatRotate (val4 (fq x)) (val3 (ft y))) (val3 (ft x)) (quatRotate (tq (exact a)) (tt (exact b))) (tt (exact a))) as T2.
      pose proof (dist3_tri (quatRotate (val4 (fq x)) (val3 (ft y))) (quatRotate (tq (exact a)) (val3 (ft y))) (quatRotate (tq (exact a)) (tt (exact b)))) as T3.
      rewrite (rotation_dist (tq (exact a))) in T3 by exact Ua.
      pose proof (quatRotate_lipschitz (val4 (fq x)) (tq (exact a)) (val3 (ft y)) (near_short _ Na) (unit_short _ Ua)) as LP.
      set (ny := norm3 (val3 (ft y))) in *. set (nx := norm3 (val3 (ft x))) in *. pose proof (norm3_pos (val3 (ft y)) : 0 <= ny) as NY0. pose proof (norm3_pos (val3 (ft x)) : 0 <= nx) as NX0.
      assert (LP2 : 9 * dist4 (val4 (fq x)) (tq (exact a)) * ny <= 396 * ops a * (u * ny)).
      { apply Rle_trans with (9 * qbound a * ny); [apply Rmult_le_compat_r; lra|]. unfold qbound. lra. }
      set (La := path a) in *. set (Lb := path b) in *. set (wa := weight a) in *. set (wb := weight b) in *.
      assert (HY : ny <= 10001 / 10000 * Lb + 512 * (wb * wb * eta)) by lra.
      assert (HX : nx <= 10001 / 10000 * La + 512 * (wa * wa * eta)) by lra.
      assert (UY : u * ny <= 10001 / 10000 * (u * Lb) + / 10000 * (wb * eta)).
      { apply Rle_trans with (u * (10001 / 10000 * Lb + 512 * (wb * wb * eta))); [apply Rmult_le_compat_l; lra|]. lra. }
      assert (UX : u * nx <= 10001 / 10000 * (u * La) + / 10000 * (wa * eta)).
      { apply Rle_trans with (u * (10001 / 10000 * La + 512 * (wa * wa * eta))); [apply Rmult_le_compat_l; lra|]. lra. }
      assert (UL : 0 <= u * Lb) by (apply Rmult_le_pos; lra). assert (UL' : 0 <= u * La) by (apply Rmult_le_pos; lra).
      assert (WE : 0 <= wb * eta) by (apply Rmult_le_pos; lra). assert (WE' : 0 <= wa * eta) by (apply Rmult_le_pos; lra).
      assert (OY : ops a * (u * ny) <= wa * (10001 / 10000 * (u * Lb) + / 10000 * (wb * eta))).
      { apply Rmult_le_compat; try lra. apply Rmult_le_pos; lra. }
      assert (GOAL : tbound a + tbound b + 512 * (u * (wa * Lb + wb * La + La + Lb) + (2 * (wa * wb) + 2 * wa + 2 * wb + 1) * eta) <= tbound (Mul a b)).
      { unfold tbound. cbn [path]. fold La Lb wa wb. set (w := weight (Mul a b)) in *.
        assert ((wa + wb + 1) * u * (La + Lb) <= w * u * (La + Lb)) by (apply Rmult_le_compat_r; [lra|]; apply Rmult_le_compat_r; lra).
        assert ((wa + wb + 1) * (wa + wb + 1) * eta <= w * w * eta) by (apply Rmult_le_compat_r; [lra|]; apply Rmult_le_compat; lra). lra. }
      assert (P1 : 0 <= wa * (u * Lb)) by (apply Rmult_le_pos; lra). assert (P2 : 0 <= wb * (u * La)) by (apply Rmult_le_pos; lra). assert (P3 : 0 <= wa * (wb * eta)) by (apply Rmult_le_pos; lra).
      lra.
  - cbn [good] in G. pose proof (weight_inv a) as WM. pose proof (weight_ops a) as WOa. pose proof (ops_one a) as Oa.
    assert (Wa : weight a <= LIMIT) by lra. cbn [path] in P. pose proof (path_pos a) as Pa.
    specialize (IHa G Wa P). destruct IHa as (Na & Fa & Da & Ta). pose proof (exact_unit a G) as Ua.
    set (x := feval E a) in *. cbn [feval]. fold x. unfold ft_inverse, ft_make. cbn [fq ft].
    pose proof (qb_small a Wa) as QA. pose proof (tb_small a Wa) as SA. pose proof (ww_small a Wa) as WWa. pose proof (uww_small a Wa) as UWa.
    destruct (inv_quat E (fq x) (tq (exact a)) OK Na) as [NU D]. pose proof (finv_near _ Na) as Ni.
    pose proof (exact_path a G) as XA. pose proof (dist3_norm (val3 (ft x)) (tt (exact a))) as NA.
    assert (NN : norm3 (val3 (fneg3 (ft x))) = norm3 (val3 (ft x))) by (rewrite fneg3_val; apply norm3_opp).
    destruct (frotate_err (fquatInv (fq x)) (fneg3 (ft x)) (proj1 Ni) (fneg3_finite _ Fa) (near_short _ Ni) ltac:(rewrite NN; lra)) as [FT R].
    split; [exact NU|]. split; [exact FT|]. split.
    + rewrite exact_inv by auto. unfold qbound in *. cbn [ops]. lra.
    + cbn [exact]. unfold tf_inverse, tf_make. cbn [tt]. rewrite NN in R. rewrite finv_val, fneg3_val in R.
      pose proof (unit_quatInv _ Ua) as Ui.
      pose proof (dist3_tri (val3 (fquatRotate (fquatInv (fq x)) (fneg3 (ft x)))) (quatRotate (quatInv (val4 (fq x))) (opp3 (val3 (ft x)))) (quatRotate (quatInv (tq (exact a))) (opp3 (tt (exact a))))) as T1.
      pose proof (dist3_tri (quatRotate (quatInv (val4 (fq x))) (opp3 (val3 (ft x)))) (quatRotate (quatInv (tq (exact a))) (opp3 (val3 (ft x)))) (quatRotate (quatInv (tq (exact a))) (opp3 (tt (exact a))))) as T2.
      rewrite (rotation_dist (quatInv (tq (exact a)))) in T2 by exact Ui.
      assert (OD : dist3 (opp3 (val3 (ft x))) (opp3 (tt (exact a))) = dist3 (val3 (ft x)) (tt (exact a))).
      { unfold dist3, norm3. f_equal. generalize (val3 (ft x)), (tt (exact a)). clear. vring. }
      rewrite OD in T2.
      pose proof (near_short _ Ni) as Si. rewrite finv_val in Si.
      pose proof (quatRotate_lipschitz (quatInv (val4 (fq x))) (quatInv (tq (exact a))) (opp3 (val3 (ft x))) Si (unit_short _ Ui)) as LP.
      rewrite dist4_quatInv, norm3_opp in LP.
      set (nx := norm3 (val3 (ft x))) in *. pose proof (norm3_pos (val3 (ft x)) : 0 <= nx) as NX0.
      assert (LP2 : 9 * dist4 (val4 (fq x)) (tq (exact a)) * nx <= 396 * ops a * (u * nx)).
      { apply Rle_trans with (9 * qbound a * nx); [apply Rmult_le_compat_r; lra|]. unfold qbound. lra. }
      set (La := path a) in *. set (wa := weight a) in *. set (n := ops a) in *.
      assert (HX : nx <= 10001 / 10000 * La + 512 * (wa * wa * eta)) by lra.
      assert (UX : u * nx <= 10001 / 10000 * (u * La) + / 10000 * (wa * eta)).
      { apply Rle_trans with (u * (10001 / 10000 * La + 512 * (wa * wa * eta))); [apply Rmult_le_compat_l; lra|]. lra. }
      assert (UL' : 0 <= u * La) by (apply Rmult_le_pos; lra). assert (WE' : 0 <= wa * eta) by (apply Rmult_le_pos; lra).
      assert (OY : n * (u * nx) <= n * (10001 / 10000 * (u * La) + / 10000 * (wa * eta))) by (apply Rmult_le_compat_l; lra).
      assert (GOAL : tbound a + 512 * (u * (n * La + La) + (2 * (n * wa) + 2 * wa + 1) * eta) <= tbound (Inv a)).
      { unfold tbound. cbn [path]. fold La wa. set (w := weight (Inv a)) in *.
        assert ((wa + n + 1) * u * La <= w * u * La) by (apply Rmult_le_compat_r; [lra|]; apply Rmult_le_compat_r; lra).
        assert (K : (wa + n + 1) * (wa + n + 1) * eta <= w * w * eta) by (apply Rmult_le_compat_r; [lra|]; apply Rmult_le_compat; lra).
        assert ((2 * (n * wa) + 2 * wa + 1) * eta <= ((wa + n + 1) * (wa + n + 1) - wa * wa) * eta) by (apply Rmult_le_compat_r; [lra|]; nra). lra. }
      assert (P1 : 0 <= n * (u * La)) by (apply Rmult_le_pos; lra). assert (P3 : 0 <= n * (wa * eta)) by (apply Rmult_le_pos; lra).
      lra.
Qed.

(** ** C135 *)
Notation tiny := (bpow radix2 (-1000)).
Lemma ww_tiny e : weight e <= LIMIT -> 512 * (weight e * weight e * eta) + 300 * eta + weight e * eta <= tiny.
Proof.
  intros W. pose proof (weight_ops e). pose proof (ops_one e). pose proof eta_pos. unfold LIMIT in W.
  assert (K : weight e * weight e <= 1073741824 * 1073741824) by (apply Rmult_le_compat; lra).
  assert (E : bpow radix2 (-1000) = 37778931862957161709568 * eta).
  { change (-1000)%Z with (75 + -1075)%Z. rewrite bpow_plus. f_equal; try (cbn; lra). }
  rewrite E. assert (weight e * weight e * eta <= 1073741824 * 1073741824 * eta) by (apply Rmult_le_compat_r; lra).
  assert (weight e * eta <= 1073741824 * eta) by (apply Rmult_le_compat_r; lra). lra.
Qed.
(** the constructor: whatever the (not tiny, not huge) quaternion, the stored one has length one up to eight roundings and points in the same direction *)
Theorem float_constructor E q t : eigen_ok E -> finite4 q -> bpow radix2 (-400) <= norm4 (val4 q) <= bpow radix2 290 ->
  let x := ft_make E q t in
  finite4 (fq x) /\ Rabs (norm4 (val4 (fq x)) - 1) <= 8 * u /\ dist4 (val4 (fq x)) (tq (tf_make (val4 q) (val3 t))) <= 8 * u /\ ft x = t.
Proof.
  intros OK F N x. destruct (make_near E q OK (conj F N)) as [[F' NU] D]. repeat split; try apply F'; auto. apply Rle_trans with (1 := D). pose proof u53_pos. lra.
Qed.
(** every expression: finite; a quaternion of length one up to 8 roundings however long the expression; the error of the quaternion grows
    linearly with the number of operations; so does the error of the translation, relative to the total length of the translations (with a
    factor for nested inversions) *)
Theorem float_expression E e : eigen_ok E -> good e -> ops e * (1 + depth e) <= 1073741824 -> path e <= bpow radix2 500 ->
  let x := feval E e in
  finite4 (fq x) /\ finite3 (ft x) /\ Rabs (norm4 (val4 (fq x)) - 1) <= 8 * u /\
  dist4 (val4 (fq x)) (tq (exact e)) <= 44 * ops e * u /\
  dist3 (val3 (ft x)) (tt (exact e)) <= 1024 * (ops e * (1 + depth e)) * u * path e + tiny.
Proof.
  intros OK G W P x. destruct (expression_inv E e OK G W P) as (N & F & D & T). fold x in N, F, D, T. destruct N as [FN N].
  split; [exact FN|]. split; [exact F|]. split; [exact N|]. split; [exact D|]. apply Rle_trans with (1 := T). unfold tbound.
  pose proof (ww_tiny e W) as WT. fold (weight e). pose proof eta_pos. pose proof u53_pos. pose proof (path_pos e). pose proof (weight_ops e). pose proof (ops_one e).
  assert (0 <= weight e * u * path e) by (apply Rmult_le_pos; [apply Rmult_le_pos|]; lra). assert (0 <= weight e * eta) by (apply Rmult_le_pos; lra). lra.
Qed.
(** what the exact expression means as matrices: products and inverses of rigid motions *)
Theorem exact_matrices e : good e -> is_rigid (tf_T (exact e)) /\
  match e with
  | Mul a b => tf_T (exact e) = mm4 (tf_T (exact a)) (tf_T (exact b))
  | Inv a => mm4 (tf_T (exact e)) (tf_T (exact a)) = I4 /\ mm4 (tf_T (exact a)) (tf_T (exact e)) = I4
  | _ => True
  end.
Proof.
  intros G. split; [apply tf_T_rigid; now apply exact_unit|]. destruct e as [x|q t|a b|a]; auto.
  - destruct G as [A B]. cbn [exact]. apply tf_mul_T; now apply exact_unit.
  - cbn [exact]. cbn [good] in G. rewrite tf_inverse_T by now apply exact_unit.
    destruct (inverseTransform_rigid (tf_T (exact a)) (tf_T_rigid _ (exact_unit a G))) as (H1 & H2 & _). auto.
Qed.
(** moving a point with the result *)
Theorem float_point E e p : eigen_ok E -> good e -> ops e * (1 + depth e) <= 1073741824 -> path e <= bpow radix2 500 ->
  finite3 p -> norm3 (val3 p) <= bpow radix2 500 ->
  finite3 (ft_act3 (feval E e) p) /\
  dist3 (val3 (ft_act3 (feval E e) p)) (tf_act3 (exact e) (val3 p)) <= 1024 * (ops e * (1 + depth e)) * u * (path e + norm3 (val3 p)) + tiny.
Proof.
  intros OK G W P FP PB. destruct (expression_inv E e OK G W P) as (N & F & D & T). set (x := feval E e) in *. fold (weight e) in W. fold (weight e).
  pose proof u53_pos as UP. pose proof eta_pos as EP. pose proof far_room as FR. unfold FAR in FR.
  pose proof (qb_small e W) as QA. pose proof (tb_small e W) as SA. pose proof (ww_small e W) as WWa. pose proof (uww_small e W) as UWa. pose proof (ww_tiny e W) as WT.
  pose proof (exact_path e G) as XA. pose proof (dist3_norm (val3 (ft x)) (tt (exact e))) as NA. pose proof (path_pos e) as P0. pose proof (exact_unit e G) as U.
  pose proof (bpow_gt_0 radix2 500) as B5.
  destruct (frotate_add_err (fq x) p (ft x) (proj1 N) FP F (near_short _ N) ltac:(lra) ltac:(lra)) as [FT R]. split; [exact FT|]. unfold tf_act3.
  pose proof (dist3_tri (val3 (ft_act3 x p)) (add3 (quatRotate (val4 (fq x)) (val3 p)) (val3 (ft x))) (add3 (quatRotate (tq (exact e)) (val3 p)) (tt (exact e)))) as T1.
  pose proof (dist3_add (quatRotate (val4 (fq x)) (val3 p)) (val3 (ft x)) (quatRotate (tq (exact e)) (val3 p)) (tt (exact e))) as T2.
  pose proof (quatRotate_lipschitz (val4 (fq x)) (tq (exact e)) (val3 p) (near_short _ N) (unit_short _ U)) as LP.
  change (fadd3 (fquatRotate (fq x) p) (ft x)) with (ft_act3 x p) in R.
  set (np := norm3 (val3 p)) in *. set (nx := norm3 (val3 (ft x))) in *. pose proof (norm3_pos (val3 p) : 0 <= np) as NP0. set (L := path e) in *. set (w := weight e) in *.
  assert (LP2 : 9 * dist4 (val4 (fq x)) (tq (exact e)) * np <= 396 * ops e * (u * np)).
  { apply Rle_trans with (9 * qbound e * np); [apply Rmult_le_compat_r; lra|]. unfold qbound. lra. }
  pose proof (weight_ops e) as WO. fold w in WO. pose proof (ops_one e) as O1.
  assert (UX : u * nx <= 10001 / 10000 * (u * L) + / 10000 * (w * eta)).
  { apply Rle_trans with (u * (10001 / 10000 * L + 512 * (w * w * eta))); [apply Rmult_le_compat_l; lra|]. lra. }
  assert (UN : 0 <= u * np) by (apply Rmult_le_pos; lra). assert (UL : 0 <= u * L) by (apply Rmult_le_pos; lra). assert (WE : 0 <= w * eta) by (apply Rmult_le_pos; lra).
  assert (K1 : ops e * (u * np) <= w * (u * np)) by (apply Rmult_le_compat_r; lra). assert (K2 : 1 * (u * np) <= w * (u * np)) by (apply Rmult_le_compat_r; lra).
  assert (K3 : 1 * (u * L) <= w * (u * L)) by (apply Rmult_le_compat_r; lra). unfold tbound in T. fold w L in T. lra.
Qed.
(** two expressions that mean the same motion give the same result up to the sum of the bounds; in particular re-association *)
Theorem float_agree E e e' : eigen_ok E -> good e -> good e' -> exact e = exact e' ->
  ops e * (1 + depth e) <= 1073741824 -> ops e' * (1 + depth e') <= 1073741824 -> path e <= bpow radix2 500 -> path e' <= bpow radix2 500 ->
  dist4 (val4 (fq (feval E e))) (val4 (fq (feval E e'))) <= 44 * (ops e + ops e') * u /\
  dist3 (val3 (ft (feval E e))) (val3 (ft (feval E e'))) <= 1024 * (ops e * (1 + depth e) * path e + ops e' * (1 + depth e') * path e') * u + 2 * tiny.
Proof.
  intros OK G G' EQ W W' P P'. destruct (float_expression E e OK G W P) as (_ & _ & _ & D & T). destruct (float_expression E e' OK G' W' P') as (_ & _ & _ & D' & T').
  rewrite <- EQ in D', T'. rewrite dist4_sym in D'. rewrite dist3_sym in T'.
  pose proof (dist4_tri (val4 (fq (feval E e))) (tq (exact e)) (val4 (fq (feval E e')))). pose proof (dist3_tri (val3 (ft (feval E e))) (tt (exact e)) (val3 (ft (feval E e')))). split; lra.
Qed.
Theorem float_associative E a b c : eigen_ok E -> good a -> good b -> good c ->
  let e := Mul (Mul a b) c in let e' := Mul a (Mul b c) in
  ops e * (1 + depth e) <= 1073741824 -> path e <= bpow radix2 500 ->
  dist4 (val4 (fq (feval E e))) (val4 (fq (feval E e'))) <= 88 * ops e * u /\
  dist3 (val3 (ft (feval E e))) (val3 (ft (feval E e'))) <= 2048 * (ops e * (1 + depth e)) * u * path e + 2 * tiny.
Proof.
  intros OK A B C e e' W P.
  assert (EO : ops e' = ops e) by (unfold e, e'; cbn [ops]; lra).
  assert (ED : depth e' = depth e) by (unfold e, e'; cbn [depth]; apply Rmax_assoc).
  assert (EP : path e' = path e) by (unfold e, e'; cbn [path]; lra).
  assert (X : exact e = exact e') by (unfold e, e'; cbn [exact]; destruct (tf_group (exact a) (exact b) (exact c)) as [H _]; try (now apply exact_unit); exact H).
  destruct (float_agree E e e' OK ltac:(cbn; tauto) ltac:(cbn; tauto) X W ltac:(rewrite EO, ED; exact W) P ltac:(rewrite EP; exact P)) as [H1 H2].
  - rewrite EO, ?ED, ?EP in *. split; lra.
Qed.
(** T * T^-1 and T^-1 * T are the identity up to rounding *)
Theorem float_round_trip E e : eigen_ok E -> good e -> (2 * ops e + 2) * (2 + depth e) <= 1073741824 -> path e <= bpow radix2 499 ->
  forall r, r = Mul e (Inv e) \/ r = Mul (Inv e) e ->
  dist4 (val4 (fq (feval E r))) quatIdentity <= 88 * (ops e + 1) * u /\
  norm3 (val3 (ft (feval E r))) <= 2048 * ((2 * ops e + 2) * (2 + depth e)) * u * path e + tiny.
Proof.
  intros OK G W P r R. pose proof (ops_one e) as O. pose proof (depth_pos e) as D0. pose proof u53_pos as UP. pose proof (path_pos e) as P0.
  assert (RO : ops r = 2 * ops e + 2) by (destruct R as [-> | ->]; cbn [ops]; lra).
  assert (RD : depth r = depth e + 1) by (destruct R as [-> | ->]; cbn [depth]; [rewrite Rmax_right|rewrite Rmax_left]; lra).
  assert (RP : path r = 2 * path e) by (destruct R as [-> | ->]; cbn [path]; lra).
  assert (RX : exact r = tf_identity).
  { destruct (tf_group (exact e) (exact e) (exact e)) as (_ & _ & _ & H1 & H2 & _); try now apply exact_unit. destruct R as [-> | ->]; cbn [exact]; auto. }
  assert (RG : good r) by (destruct R as [-> | ->]; cbn; auto).
  destruct (float_expression E r OK RG) as (_ & _ & _ & D & T).
  - rewrite RO, RD. lra.
  - rewrite RP. replace (bpow radix2 500) with (2 * bpow radix2 499) by (change 500%Z with (1 + 499)%Z; rewrite bpow_plus; reflexivity). lra.
  - rewrite RX in D, T. cbn [tf_identity tq tt] in D, T. rewrite RO, ?RD, ?RP in *.
    split; [lra|]. unfold dist3 in T. replace (sub3 (val3 (ft (feval E r))) (V3 0 0 0)) with (val3 (ft (feval E r))) in T by (generalize (val3 (ft (feval E r))); vring). lra.
Qed.
(** a chain of products T0 T1 ... Tn of stored transformations, from left to right *)
Definition chain (x : ftrafo) (l : list ftrafo) : texpr := fold_left (fun e y => Mul e (Stored y)) l (Stored x).
Definition stored_ok (x : ftrafo) : Prop := near_unit (fq x) /\ finite3 (ft x).
Definition motion (x : ftrafo) : trafo := tf_make (val4 (fq x)) (val3 (ft x)).
Definition lengths (l : list ftrafo) : R := fold_right (fun x s => norm3 (val3 (ft x)) + s) 0 l.
Lemma chain_snoc x l y : chain x (l ++ [y]) = Mul (chain x l) (Stored y).
Proof. unfold chain. now rewrite fold_left_app. Qed.
Lemma lengths_app a b : lengths (a ++ b) = lengths a + lengths b.
Proof. induction a as [|x a IH]; cbn [app]; [cbn; lra|]. change (norm3 (val3 (ft x)) + lengths (a ++ b) = norm3 (val3 (ft x)) + lengths a + lengths b). lra. Qed.
Lemma chain_facts E x l : stored_ok x -> Forall stored_ok l ->
  let e := chain x l in good e /\ ops e = 1 + 2 * INR (length l) /\ depth e = 0 /\ path e = lengths (x :: l) /\
  feval E e = fold_left (ft_mul E) l x /\ exact e = fold_left tf_mul (map motion l) (motion x).
Proof.
  intros X. induction l as [|y l IH] using rev_ind; intros H; cbv zeta.
  - cbn. repeat split; try apply X; lra.
  - apply Forall_app in H. destruct H as [H Y]. apply Forall_inv in Y. destruct (IH H) as (G & O & D & P & F & M).
    rewrite chain_snoc. cbn [good ops depth path feval exact]. rewrite O, D, P, F, M, app_length, plus_INR, map_app, !fold_left_app. cbn [length INR fold_left map].
    change (x :: l ++ [y]) with ((x :: l) ++ [y]). rewrite lengths_app. cbn [lengths fold_right]. rewrite Rmax_left by lra. repeat split; try apply Y; auto; lra.
Qed.
Theorem float_chain E x l : eigen_ok E -> stored_ok x -> Forall stored_ok l -> INR (length l) <= 500000000 -> lengths (x :: l) <= bpow radix2 500 ->
  let f := fold_left (ft_mul E) l x in let m := fold_left tf_mul (map motion l) (motion x) in
  stored_ok f /\ dist4 (val4 (fq f)) (tq m) <= 88 * (INR (length l) + 1) * u /\
  dist3 (val3 (ft f)) (tt m) <= 2048 * (INR (length l) + 1) * u * lengths (x :: l) + tiny.
Proof.
  intros OK X H N L f m. destruct (chain_facts E x l X H) as (G & O & D & P & F & M). fold f in F. fold m in M.
  destruct (float_expression E (chain x l) OK G) as (F4' & F3' & NU & DQ & DT); [rewrite O, D; lra|rewrite P; exact L|].
  rewrite F in *. rewrite M, O, ?D, ?P in *. split; [repeat split; try apply F4'; try apply F3'; assumption|]. pose proof u53_pos as UP.
  pose proof (path_pos (chain x l)) as PP. rewrite P in PP. pose proof (pos_INR (length l)) as LP. assert (0 <= u * lengths (x :: l)) by (apply Rmult_le_pos; lra).
  split; [lra|]. apply Rle_trans with (1 := DT). apply Rplus_le_compat_r. 
  replace (1024 * ((1 + 2 * INR (length l)) * (1 + 0)) * u * lengths (x :: l)) with (1024 * (1 + 2 * INR (length l)) * (u * lengths (x :: l))) by ring.
  replace (2048 * (INR (length l) + 1) * u * lengths (x :: l)) with (2048 * (INR (length l) + 1) * (u * lengths (x :: l))) by ring.
  apply Rmult_le_compat_r; lra.
Qed.
