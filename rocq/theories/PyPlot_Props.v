(** C143: drawings of coordinate frames, the tabs of a PlotCollection, and containers converted to Python. *)
From Coq Require Import Reals Lra List Bool Arith Lia Sorted.
From Verif Require Import LinAlg PyPlot_Model Kin_Trans_Model Kin_Quat_Props Kin_Trans_Props.
Import ListNotations.
Open Scope R_scope.

(** ** Coordinate frames *)
Definition axis_dir (i : nat) : vec3 := match i with O => V3 1 0 0 | S O => V3 0 1 0 | _ => V3 0 0 1 end.
(** the line from the frame's origin to the point [size] along its axis i, both moved by the transformation *)
Definition axis_line (c : colour) (i : nat) (x : trafo) (size : R) : line3 :=
  (c, tf_act3 x (V3 0 0 0), tf_act3 x (scale3 size (axis_dir i))).
Definition direction (l : line3) : vec3 := let '(_, a, b) := l in sub3 b a.

Lemma three_lines (c1 c2 c3 : colour) (a1 b1 a2 b2 a3 b3 a1' b1' a2' b2' a3' b3' : vec3) :
  a1 = a1' -> b1 = b1' -> a2 = a2' -> b2 = b2' -> a3 = a3' -> b3 = b3' ->
  [(c1, a1, b1); (c2, a2, b2); (c3, a3, b3)] = [(c1, a1', b1'); (c2, a2', b2'); (c3, a3', b3')].
Proof. now intros -> -> -> -> -> ->. Qed.

(** The frame of a transformation is drawn as three lines of length |size|, pairwise perpendicular and right handed, from the frame's
    origin: red x, green y, blue z. *)
Theorem frame_drawn : forall x size, valid x ->
  let lines := plotCoordinateFrame (tf_T x) size in
  lines = [axis_line Red 0 x size; axis_line Green 1 x size; axis_line Blue 2 x size] /\
  tf_act3 x (V3 0 0 0) = tt x /\
  Forall (fun l => norm3 (direction l) = Rabs size) lines /\
  dot3 (direction (axis_line Red 0 x size)) (direction (axis_line Green 1 x size)) = 0 /\
  dot3 (direction (axis_line Green 1 x size)) (direction (axis_line Blue 2 x size)) = 0 /\
  dot3 (direction (axis_line Blue 2 x size)) (direction (axis_line Red 0 x size)) = 0 /\
  cross (direction (axis_line Red 0 x size)) (direction (axis_line Green 1 x size)) = scale3 size (direction (axis_line Blue 2 x size)) /\
  plot2D_on_3d (tf_T x) size = firstn 2 lines.
Proof.
  intros x size V. cbn zeta.
  assert (A : forall p, tf_act3 x p = add3 (mv3 (quat2r (tq x)) p) (tt x)) by (intros p; unfold tf_act3; rewrite quatRotate_matrix by exact V; reflexivity).
  assert (Rt : is_rotation (quat2r (tq x))) by (apply quat2r_rotation; exact V).
  assert (L : plotCoordinateFrame (tf_T x) size = [axis_line Red 0 x size; axis_line Green 1 x size; axis_line Blue 2 x size]).
  { unfold axis_line. rewrite !A. unfold tf_T, plotCoordinateFrame, two_rows, column, p_0, p_f, slice, plot3D, axis_dir. cbn [map nth fst snd app].
    generalize (quat2r (tq x)) (tt x). intros C t. destruct C as [[a b c] [d e f] [g h i]], t as [t1 t2 t3].
    unfold mv4, rt, mv3, add3, scale3, dot3, dot4, cons4; cbn [r40 r41 r42 r43 e0 e1 e2 e3 at4 vx vy vz r30 r31 r32].
    apply three_lines; apply V3_eq; cbn [vx vy vz]; ring. }
  assert (D : forall c i, direction (axis_line c i x size) = scale3 size (mv3 (quat2r (tq x)) (axis_dir i))).
  { intros c i. unfold axis_line, direction. rewrite !A. generalize (axis_dir i), (quat2r (tq x)), (tt x). vring. }
  split; [exact L|]. split; [rewrite A; generalize (quat2r (tq x)), (tt x); vring|].
  destruct Rt as [[O1 O2] Dt].
  assert (N : forall i j, (i < 3)%nat -> (j < 3)%nat -> dot3 (mv3 (quat2r (tq x)) (axis_dir i)) (mv3 (quat2r (tq x)) (axis_dir j)) = if Nat.eqb i j then 1 else 0).
  { intros i j Hi Hj. revert O2. generalize (quat2r (tq x)). intros C O2. destruct C as [[a b c] [d e f] [g h k]].
    unfold mm3, tr3, rowmul3, col3, I3, m3, dot3 in O2; cbn [r30 r31 r32 vx vy vz at3] in O2. injection O2 as E1 E2 E3 E4 E5 E6 E7 E8 E9.
    destruct i as [|[|[|i]]], j as [|[|[|j]]]; try lia; unfold mv3, dot3, axis_dir; cbn [r30 r31 r32 vx vy vz Nat.eqb]; lra. }
  assert (S : forall (s : R) a b, dot3 (scale3 s a) (scale3 s b) = s * s * dot3 a b) by (intros s; vring).
  split; [|split; [|split; [|split; [|split]]]].
  - rewrite L. repeat constructor; rewrite D; unfold norm3; rewrite S, N by lia; cbn [Nat.eqb]; rewrite Rmult_1_r; apply sqrt_Rsqr_abs.
  - rewrite !D, S, N by lia. cbn [Nat.eqb]. ring.
  - rewrite !D, S, N by lia. cbn [Nat.eqb]. ring.
  - rewrite !D, S, N by lia. cbn [Nat.eqb]. ring.
  - rewrite !D. revert O1 O2 Dt. generalize (quat2r (tq x)). intros C O1 O2 Dt.
    assert (Cr : cross (mv3 C (axis_dir 0)) (mv3 C (axis_dir 1)) = mv3 C (axis_dir 2)).
    { rewrite cross_mv by (try exact Dt; exact (conj O1 O2)). f_equal. unfold cross, axis_dir. cbn [vx vy vz]. f_equal; ring. }
    rewrite <- Cr. generalize (mv3 C (axis_dir 0)), (mv3 C (axis_dir 1)). vring.
  - unfold plot2D_on_3d, plotCoordinateFrame, slice, plot3D. reflexivity.
Qed.
Print Assumptions frame_drawn.

(** On a 2d axes plot2DCoordinateFrame draws four lines; none of the coloured ones is an axis of the frame. *)
Theorem frame2d_drawn_refuted : forall x size, valid x ->
  exists z1 z2, plot2D_on_2d (tf_T x) size =
    [ (Cycle, (vx (tt x), vy (tt x)), let e := tf_act3 x (V3 size 0 0) in (vx e, vy e)); (Red, (0, vz (tt x)), (1, z1));
      (Cycle, (vx (tt x), vy (tt x)), let e := tf_act3 x (V3 0 size 0) in (vx e, vy e)); (Green, (0, vz (tt x)), (1, z2)) ] /\
    z1 = vz (tf_act3 x (V3 size 0 0)) /\ z2 = vz (tf_act3 x (V3 0 size 0)).
Proof.
  intros x size V. exists (vz (tf_act3 x (V3 size 0 0))), (vz (tf_act3 x (V3 0 size 0))). split; [|auto].
  assert (A : forall p, tf_act3 x p = add3 (mv3 (quat2r (tq x)) p) (tt x)) by (intros p; unfold tf_act3; rewrite quatRotate_matrix by exact V; reflexivity).
  rewrite !A. unfold plot2D_on_2d, two_rows, column, p_0, p_f, slice, tf_T. cbn [map nth fst snd app plot2].
  generalize (quat2r (tq x)) (tt x). intros C t. destruct C as [[a b c] [d e f] [g h i]], t as [t1 t2 t3].
  unfold mv4, rt, mv3, add3, scale3, dot3, dot4, cons4; cbn [r40 r41 r42 r43 e0 e1 e2 e3 at4 vx vy vz r30 r31 r32].
  assert (K : forall (x1 x2 x3 x4 x5 x6 x7 x8 x9 y1 y2 y3 y4 y5 y6 y7 y8 y9 : R), x1 = y1 -> x2 = y2 -> x3 = y3 -> x4 = y4 -> x5 = y5 -> x6 = y6 -> x7 = y7 -> x8 = y8 -> x9 = y9 ->
    [(Cycle, (x1, x2), (x3, x4)); (Red, (0, x5), (1, x6)); (Cycle, (x1, x2), (x7, x8)); (Green, (0, x5), (1, x9))] =
    [(Cycle, (y1, y2), (y3, y4)); (Red, (0, y5), (1, y6)); (Cycle, (y1, y2), (y7, y8)); (Green, (0, y5), (1, y9))])
    by (now intros; subst).
  apply K; ring.
Qed.
(** Passing the first two rows and the format, as plot() expects, would draw the axis in the plane, in its colour. *)
Theorem frame2d_two_rows x size c : valid x -> let X := two_rows (tf_T x) size 1 in let e := tf_act3 x (V3 size 0 0) in
  plot2 3 [slice X 0; slice X 1; Fmt c] = [(c, (vx (tt x), vy (tt x)), (vx e, vy e))].
Proof.
  intros V. cbv zeta. unfold tf_act3. rewrite quatRotate_matrix by exact V. unfold two_rows, column, p_0, p_f, slice, tf_T. cbn [map nth fst snd plot2].
  generalize (quat2r (tq x)) (tt x). intros C t. destruct C as [[a b c'] [d e f] [g h i]], t as [t1 t2 t3].
  unfold mv4, rt, mv3, add3, scale3, dot3, dot4, cons4; cbn [r40 r41 r42 r43 e0 e1 e2 e3 at4 vx vy vz r30 r31 r32].
  assert (K : forall (x1 x2 x3 x4 y1 y2 y3 y4 : R), x1 = y1 -> x2 = y2 -> x3 = y3 -> x4 = y4 -> [(c, (x1, x2), (x3, x4))] = [(c, (y1, y2), (y3, y4))]) by (now intros; subst).
  apply K; ring.
Qed.
Print Assumptions frame2d_drawn_refuted.

Example ex_frame : valid tf_identity /\ plotCoordinateFrame (tf_T tf_identity) 2 =
  [(Red, V3 0 0 0, V3 2 0 0); (Green, V3 0 0 0, V3 0 2 0); (Blue, V3 0 0 0, V3 0 0 2)].
Proof.
  assert (V : valid tf_identity) by (unfold valid, unit4, tf_identity, quatIdentity, dot4; cbn; ring). split; [exact V|].
  destruct (frame_drawn tf_identity 2 V) as (-> & _). unfold axis_line.
  assert (A : forall p, tf_act3 tf_identity p = p).
  { intros p. unfold tf_act3. rewrite quatRotate_matrix by exact V. unfold tf_identity; cbn [tq tt]. rewrite quat2r_identity. vring. }
  rewrite !A. apply three_lines; apply V3_eq; cbn; ring.
Qed.

(** ** PlotCollection *)
Section PC.
  Variables (K V : Type) (eqb : K -> K -> bool).
  Hypothesis eqb_spec : forall a b, eqb a b = true <-> a = b.
  Local Notation op := (pc_op K V).
  (** the figure added last under a name that was not deleted since *)
  Fixpoint figure_of (n : K) (h : list op) (cur : option V) : option V :=
    match h with
    | [] => cur
    | AddFigure m f :: r => figure_of n r (if eqb n m then Some f else cur)
    | DeleteFigure m :: r => figure_of n r (if eqb n m then None else cur)
    end.
  (** the number of the call with which the name came in (the first add_figure since the name was last deleted) *)
  Fixpoint came_in (n : K) (i : nat) (h : list op) (cur : option nat) : option nat :=
    match h with
    | [] => cur
    | AddFigure m _ :: r => came_in n (S i) r (if eqb n m then match cur with None => Some i | c => c end else cur)
    | DeleteFigure m :: r => came_in n (S i) r (if eqb n m then None else cur)
    end.
  (** the tabs are those of the names that have a figure, each once, with their latest figure, oldest name first *)
  Definition tabs_of (h : list op) (d : list (K * V)) : Prop :=
    NoDup (map fst d) /\
    (forall n f, In (n, f) d <-> figure_of n h None = Some f) /\
    exists starts, Forall2 (fun p s => came_in (fst p) 0 h None = Some s) d starts /\ StronglySorted Nat.lt starts.

  Lemma figure_snoc n h o cur : figure_of n (h ++ [o]) cur =
    match o with AddFigure m f => if eqb n m then Some f else figure_of n h cur | DeleteFigure m => if eqb n m then None else figure_of n h cur end.
  Proof using. revert cur. induction h as [|[m f|m] h IH]; intros cur; cbn; auto. Qed.
  Lemma came_snoc n h o i cur : came_in n i (h ++ [o]) cur =
    match o with
    | AddFigure m f => if eqb n m then match came_in n i h cur with None => Some (i + length h)%nat | c => c end else came_in n i h cur
    | DeleteFigure m => if eqb n m then None else came_in n i h cur
    end.
  Proof using.
    revert i cur. induction h as [|[m f|m] h IH]; intros i cur; cbn.
    - rewrite Nat.add_0_r. destruct o as [m f|m]; destruct (eqb n m), cur; reflexivity.
    - rewrite IH. rewrite Nat.add_succ_r. reflexivity.
    - rewrite IH. rewrite Nat.add_succ_r. reflexivity.
  Qed.
  Lemma came_figure n h i : (came_in n i h None = None <-> figure_of n h None = None) /\ (forall s, came_in n i h None = Some s -> (s < i + length h)%nat).
  Proof using.
    induction h as [|o h IH] using rev_ind; [cbn; split; [tauto|discriminate]|].
    rewrite came_snoc, figure_snoc. rewrite app_length. cbn [length]. destruct IH as [IH1 IH2].
    destruct o as [m f|m]; destruct (eqb n m).
    - destruct (came_in n i h None) as [s|]; split; [split; discriminate | intros s' E; injection E as <-; specialize (IH2 s eq_refl); lia | split; discriminate | intros s' E; injection E as <-; lia].
    - split; [exact IH1 | intros s E; specialize (IH2 s E); lia].
    - split; [tauto | discriminate].
    - split; [exact IH1 | intros s E; specialize (IH2 s E); lia].
  Qed.
  Lemma eqb_refl k : eqb k k = true. Proof using eqb_spec. now apply eqb_spec. Qed.
  Lemma eqb_ne a b : a <> b -> eqb a b = false.
  Proof using eqb_spec. intros N. destruct (eqb a b) eqn:Q; auto. apply eqb_spec in Q. contradiction. Qed.
  Lemma eq_dec (a b : K) : {a = b} + {a <> b}.
  Proof using eqb_spec. destruct (eqb a b) eqn:Q; [left; now apply eqb_spec | right; intros ->; rewrite eqb_refl in Q; discriminate Q]. Qed.

  Lemma dset_new k v d : ~ In k (map fst d) -> dset K V eqb k v d = d ++ [(k, v)].
  Proof using eqb_spec.
    induction d as [|[k' v'] d IH]; cbn; intros H; [reflexivity|]. rewrite eqb_ne by (intros ->; apply H; now left). rewrite IH; auto.
  Qed.
  Lemma dset_keys k v d : In k (map fst d) -> map fst (dset K V eqb k v d) = map fst d.
  Proof using eqb_spec.
    induction d as [|[k' v'] d IH]; cbn; intros H; [destruct H|]. destruct (eqb k k') eqn:Q; cbn; [reflexivity|]. f_equal. apply IH.
    destruct H as [-> | H]; [rewrite eqb_refl in Q; discriminate Q | exact H].
  Qed.
  Lemma dset_in k v d n f : NoDup (map fst d) -> (In (n, f) (dset K V eqb k v d) <-> (n = k /\ f = v) \/ (n <> k /\ In (n, f) d)).
  Proof using eqb_spec.
    induction d as [|[k' v'] d IH]; intros ND; cbn.
    - split; [intros [E | []]; injection E as <- <-; auto | intros [[-> ->] | [_ []]]; auto].
    - inversion ND as [|? ? NI ND']; subst. cbn in NI. destruct (eqb k k') eqn:Q.
      + apply eqb_spec in Q. subst k'. cbn. split.
        * intros [E | H]; [injection E as <- <-; auto|]. right. split; [|auto]. intros ->. apply NI. apply (in_map fst) in H. exact H.
        * intros [[-> ->] | [NE [E | H]]]; auto. injection E as <- <-. contradiction.
      + assert (NE : k <> k') by (intros ->; rewrite eqb_refl in Q; discriminate Q). cbn. rewrite IH by exact ND'. split.
        * intros [E | [[-> ->] | [N1 H]]]; [injection E as <- <-; right; split; auto | auto | auto].
        * intros [[-> ->] | [N1 [E | H]]]; auto.
  Qed.
  Lemma dpop_in k d n f : NoDup (map fst d) -> (In (n, f) (dpop K V eqb k d) <-> n <> k /\ In (n, f) d).
  Proof using eqb_spec.
    induction d as [|[k' v'] d IH]; intros ND; cbn; [tauto|]. inversion ND as [|? ? NI ND']; subst. cbn in NI.
    destruct (eqb k k') eqn:Q.
    - apply eqb_spec in Q. subst k'. split.
      + intros H. split; [|auto]. intros ->. apply NI. apply (in_map fst) in H. exact H.
      + intros [NE [E | H]]; auto. injection E as <- <-. contradiction.
    - assert (NE : k <> k') by (intros ->; rewrite eqb_refl in Q; discriminate Q). cbn. rewrite IH by exact ND'. split.
      + intros [E | [N1 H]]; [injection E as <- <-; split; auto | auto].
      + intros [N1 [E | H]]; auto.
  Qed.
  Lemma dpop_sub k d : exists a b, (d = a ++ b /\ dpop K V eqb k d = a ++ b /\ ~ In k (map fst d)) \/ (exists v, d = a ++ (k, v) :: b /\ dpop K V eqb k d = a ++ b).
  Proof using eqb_spec.
    induction d as [|[k' v'] d (a & b & IH)]; [exists [], []; left; cbn; auto|]. cbn. destruct (eqb k k') eqn:Q.
    - apply eqb_spec in Q. subst k'. exists [], d. right. exists v'. auto.
    - assert (NE : k' <> k) by (intros ->; rewrite eqb_refl in Q; discriminate Q).
      destruct IH as [(E1 & E2 & N1) | (v & E1 & E2)].
      + exists ((k', v') :: a), b. left. rewrite E2. cbn. rewrite <- E1. split; [reflexivity|]. split; [reflexivity|]. intros [E | H]; auto.
      + exists ((k', v') :: a), b. right. exists v. rewrite E2, E1. auto.
  Qed.

  Lemma NoDup_app_iff_snoc (l : list K) x : NoDup l -> ~ In x l -> NoDup (l ++ [x]).
  Proof using. intros H N. apply NoDup_rev in H. rewrite <- (rev_involutive (l ++ [x])). apply NoDup_rev. rewrite rev_unit. constructor; [now rewrite <- in_rev | exact H]. Qed.
  Lemma sorted_remove (l1 l2 : list nat) x : StronglySorted Nat.lt (l1 ++ x :: l2) -> StronglySorted Nat.lt (l1 ++ l2).
  Proof using.
    induction l1 as [|y l1 IH]; cbn; intros H; [now inversion H|]. inversion H as [|? ? H1 H2]; subst. constructor; [auto|].
    rewrite Forall_app in *. destruct H2 as [F1 F2]. inversion F2; auto.
  Qed.
  Lemma sorted_snoc (l : list nat) x : StronglySorted Nat.lt l -> Forall (fun y => (y < x)%nat) l -> StronglySorted Nat.lt (l ++ [x]).
  Proof using.
    induction l as [|y l IH]; cbn; intros H F; [constructor; constructor|]. inversion H as [|? ? H1 H2]; inversion F as [|? ? F1 F2]; subst.
    constructor; [auto|]. rewrite Forall_app. split; [exact H2 | repeat constructor; exact F1].
  Qed.

  Lemma tabs_run h : tabs_of h (pc_run K V eqb h).
  Proof using eqb_spec.
    induction h as [|o h IH] using rev_ind.
    - unfold pc_run; cbn. split; [constructor|]. split; [intros; cbn; split; [tauto | discriminate]|]. exists []. split; constructor.
    - unfold pc_run in *. rewrite fold_left_app. cbn [fold_left]. set (d := fold_left _ h []) in *. clearbody d.
      destruct IH as (ND & FI & starts & F2 & SS). destruct o as [m f|m]; cbn [pc_step].
      + destruct (in_dec eq_dec m (map fst d)) as [I|NI].
        * split; [rewrite dset_keys by exact I; exact ND|]. split.
          -- intros n g. rewrite dset_in by exact ND. rewrite figure_snoc. rewrite FI. destruct (eqb n m) eqn:Q.
             ++ apply eqb_spec in Q. subst n. split; [intros [[_ ->] | [C _]]; [reflexivity | contradiction] | intros E; injection E as <-; auto].
             ++ assert (n <> m) by (intros ->; rewrite eqb_refl in Q; discriminate Q). tauto.
          -- exists starts. split; [|exact SS].
             assert (F2' : Forall2 (fun k s => came_in k 0 h None = Some s) (map fst d) starts).
             { clear - F2. induction F2; cbn; constructor; auto. }
             assert (F3 : Forall2 (fun k s => came_in k 0 (h ++ [AddFigure m f]) None = Some s) (map fst (dset K V eqb m f d)) starts).
             { rewrite dset_keys by exact I. clear - F2'. induction F2' as [|k s l l' H _ IH]; constructor; auto.
               rewrite came_snoc. rewrite H. now destruct (eqb k m). }
             clear - F3. revert F3. generalize (dset K V eqb m f d). intros l. revert starts. induction l as [|p l IH]; intros s F; inversion F; subst; constructor; auto.
        * rewrite dset_new by exact NI.
          assert (NF : figure_of m h None = None).
          { destruct (figure_of m h None) as [g|] eqn:Q; auto. exfalso. apply NI. apply FI in Q. apply (in_map fst) in Q. exact Q. }
          split; [|split].
          -- rewrite map_app. cbn [map fst]. apply NoDup_app_iff_snoc; auto.
          -- intros n g. rewrite in_app_iff, FI, figure_snoc. cbn [In]. destruct (eqb n m) eqn:Q.
             ++ apply eqb_spec in Q. subst n. rewrite NF. split; [intros [C | [E | []]]; [discriminate C | injection E as <-; reflexivity] | intros E; injection E as <-; auto].
             ++ assert (NE : n <> m) by (intros ->; rewrite eqb_refl in Q; discriminate Q). split; [intros [H | [E | []]]; [exact H | injection E as <- _; contradiction] | auto].
          -- exists (starts ++ [length h]). split.
             ++ apply Forall2_app.
                ** assert (G : Forall2 (fun p s => came_in (fst p) 0 h None = Some s /\ fst p <> m) d starts).
                   { clear - F2 NI. induction F2 as [|p s l l' H _ IH]; [constructor|]. cbn in NI. constructor; [split; [exact H | intros C; apply NI; now left] | apply IH; intros C; apply NI; now right]. }
                   clear - G eqb_spec. induction G as [|p s l l' [H1 H2] _ IH]; constructor; auto. rewrite came_snoc, eqb_ne by exact H2. exact H1.
                ** constructor; [|constructor]. cbn [fst]. rewrite came_snoc, eqb_refl. destruct (came_figure m h 0) as [C _]. apply C in NF. rewrite NF. reflexivity.
             ++ apply sorted_snoc; [exact SS|]. clear - F2. induction F2 as [|p s l l' H _ IH]; constructor; auto. exact (proj2 (came_figure (fst p) h 0) s H).
      + split; [|split].
        * destruct (dpop_sub m d) as (a & b & [(E1 & E2 & _) | (v & E1 & E2)]); rewrite E2; rewrite E1 in ND; [exact ND|].
          rewrite map_app in *. cbn [map fst] in ND. now apply NoDup_remove_1 in ND.
        * intros n g. rewrite dpop_in by exact ND. rewrite FI, figure_snoc. destruct (eqb n m) eqn:Q.
          -- apply eqb_spec in Q. subst n. split; [intros [C _]; contradiction | discriminate].
          -- assert (n <> m) by (intros ->; rewrite eqb_refl in Q; discriminate Q). tauto.
        * assert (T : forall l s, ~ In m (map fst l) -> Forall2 (fun (p : K * V) s => came_in (fst p) 0 h None = Some s) l s ->
                      Forall2 (fun p s => came_in (fst p) 0 (h ++ [DeleteFigure m]) None = Some s) l s).
          { clear - eqb_spec. intros l s NI F. induction F as [|p x l l' H _ IH]; [constructor|]. cbn in NI. constructor; [|apply IH; intros C; apply NI; now right].
            rewrite came_snoc, eqb_ne; [exact H | intros C; apply NI; now left]. }
          destruct (dpop_sub m d) as (a & b & [(E1 & E2 & NI) | (v & E1 & E2)]); rewrite E2.
          -- exists starts. split; [|exact SS]. rewrite <- E1. apply T; auto.
          -- rewrite E1 in ND, F2. rewrite map_app in ND. cbn [map fst] in ND. apply NoDup_remove_2 in ND. rewrite <- map_app in ND.
             apply Forall2_app_inv_l in F2. destruct F2 as (s1 & s2 & G1 & G2 & ->). inversion G2 as [|? x ? s2' _ G3]; subst.
             exists (s1 ++ s2'). split; [|now apply sorted_remove in SS]. apply T; [exact ND|]. apply Forall2_app; auto.
  Qed.

  Lemma dget_in d n f : NoDup (map fst d) -> In (n, f) d -> dget K V eqb n d = Some f.
  Proof using eqb_spec.
    induction d as [|[k v] d IH]; cbn; intros ND I; [destruct I|]. inversion ND as [|? ? NI ND']; subst. destruct I as [E | I].
    - injection E as -> ->. now rewrite eqb_refl.
    - rewrite eqb_ne; auto. intros ->. apply NI. apply (in_map fst) in I. exact I.
  Qed.

  (** *** C143 *)
  (** After any history of calls, show() opens no window if no name has a figure, and otherwise one tab for each name that has: the figure added
      last, the tabs in the order in which the names came in. *)
  Theorem plot_tabs : forall h, exists d, tabs_of h d /\
    pc_show K V eqb (pc_run K V eqb h) = match d with [] => None | _ => Some (map (fun p => (fst p, Some (snd p))) d) end.
  Proof using eqb_spec.
    intros h. exists (pc_run K V eqb h). pose proof (tabs_run h) as T. split; [exact T|]. destruct T as [ND _].
    unfold pc_show. set (d := pc_run K V eqb h) in *. clearbody d. destruct d as [|p d']; [reflexivity|].
    f_equal. set (l := p :: d') in *. rewrite map_map. apply map_ext_in. intros [n f] I. cbn [fst snd]. f_equal. now apply dget_in.
  Qed.

  (** stlToList appends the elements in order; stlToDict leaves the other keys alone and gives each key of the range its last value. *)
  Theorem stlToList_appends : forall (l out : list V), stlToList V l out = out ++ l.
  Proof using.
    induction l as [|x l IH]; intros out; [cbn; now rewrite app_nil_r|]. unfold stlToList in *. cbn. rewrite IH, <- app_assoc. reflexivity.
  Qed.
  Lemma dget_dset k v d n : dget K V eqb n (dset K V eqb k v d) = if eqb n k then Some v else dget K V eqb n d.
  Proof using eqb_spec.
    induction d as [|[k' v'] d IH]; cbn; [destruct (eqb n k); reflexivity|]. destruct (eqb k k') eqn:Q; cbn.
    - apply eqb_spec in Q. subst k'. destruct (eqb n k); reflexivity.
    - destruct (eqb n k') eqn:Q2; [|exact IH]. destruct (eqb n k) eqn:Q3; [|reflexivity]. apply eqb_spec in Q2, Q3. subst. rewrite eqb_refl in Q. discriminate Q.
  Qed.
  Theorem stlToDict_assigns : forall (l out : list (K * V)) k,
    (forall l1 v l2, l = l1 ++ (k, v) :: l2 -> ~ In k (map fst l2) -> dget K V eqb k (stlToDict K V eqb l out) = Some v) /\
    (~ In k (map fst l) -> dget K V eqb k (stlToDict K V eqb l out) = dget K V eqb k out).
  Proof using eqb_spec.
    assert (A : forall l out k, ~ In k (map fst l) -> dget K V eqb k (stlToDict K V eqb l out) = dget K V eqb k out).
    { unfold stlToDict. induction l as [|[k' v'] l IH]; intros out k NI; cbn; [reflexivity|]. cbn in NI. rewrite IH by (intros C; apply NI; now right).
      rewrite dget_dset, eqb_ne; [reflexivity | intros ->; apply NI; now left]. }
    intros l out k. split; [|apply A]. intros l1 v l2 -> NI. unfold stlToDict. rewrite fold_left_app. cbn [fold_left fst snd].
    fold (stlToDict K V eqb l2 (dset K V eqb k v (fold_left (fun o x => dset K V eqb (fst x) (snd x) o) l1 out))).
    rewrite A by exact NI. now rewrite dget_dset, eqb_refl.
  Qed.
End PC.
Print Assumptions plot_tabs.
Print Assumptions stlToList_appends.
Print Assumptions stlToDict_assigns.

(** adding again keeps the tab where it is; deleting and adding moves it to the end *)
Example ex_tabs : pc_show nat nat Nat.eqb (pc_run nat nat Nat.eqb
    [AddFigure 1 10; AddFigure 2 20; AddFigure 3 30; AddFigure 1 11; DeleteFigure 2; AddFigure 2 21; DeleteFigure 7])%nat =
  Some [(1, Some 11); (3, Some 30); (2, Some 21)]%nat.
Proof. reflexivity. Qed.
